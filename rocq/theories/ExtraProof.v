(** checked_pow, the parameter of a Laguerre rule. *)
From Coq Require Import Reals ZArith List.
From Verif Require Import Arith F64 F64Spec Machine Param Rules GolubWelsch Laguerre ParamSpec ParamProof.

Lemma checked_pow_spec : forall (be : Backend) (p : Param (F64 be)) (y : F64 be),
  ((exists q, param_checked_pow p y = Some q) <-> admissible (be_pow be (param_get p) y)) /\
  (forall q, param_checked_pow p y = Some q -> param_get q = be_pow be (param_get p) y).
Proof.
  intros be p y. unfold param_checked_pow. change (npow (param_get p) y) with (be_pow be (param_get p) y). remember (be_pow be (param_get p) y) as v eqn:E. clear E.
  destruct (new_spec be v) as [H1 H2]. split; [split|].
  - intros [q Hq]. destruct (Classical_Prop.classic (admissible v)) as [H|H]; [exact H|]. rewrite (H2 H) in Hq. discriminate.
  - intros H. destruct (H1 H) as (q & Hq & _). exists q. exact Hq.
  - intros q Hq. destruct (Classical_Prop.classic (admissible v)) as [H|H].
    + destruct (H1 H) as (q' & Hq' & E). rewrite Hq' in Hq. injection Hq as <-. exact E.
    + rewrite (H2 H) in Hq. discriminate.
Qed.
Lemma laguerre_alpha_kept : forall (A : Arith) (ext : Linalg A) n (alpha : Param A) r, laguerre_new ext n alpha = Ok r -> laguerre_get_alpha r = alpha.
Proof.
  intros A ext n alpha r H. unfold laguerre_new in H. destruct (golub_welsch ext _ _ _ _) as [p|m]; [|discriminate].
  injection H as <-. reflexivity.
Qed.
