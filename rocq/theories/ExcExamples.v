(** Examples for the exceptional values. *)
From Coq Require Import Reals ZArith List Lia.
From Flocq Require Import Core IEEE754.Binary.
From Verif Require Import Arith F64 F64Spec Machine Rules Par NewtonCotes Chebyshev Hermite Laguerre Legendre Jacobi
  IntegrateSpec NestSpec ExcSpec Exc.
Import ListNotations.

Lemma ex_nan : forall be : Backend, let q := QTrapezoid (A := F64 be) 2 lit0 lit1 in
  usable q /\ Exists fnan (map (fun x : F64 be => ndiv x x) (points q)) /\ ~ Forall fnan (map (fun x : F64 be => ndiv x x) (points q)).
Proof.
  intros be q. split; [cbn; lia|]. rewrite (points_pts q) by (cbn; lia). cbn [q pts_of app map]. split.
  - left. vm_compute. reflexivity.
  - intros H. inversion H; subst. inversion H3; subst. vm_compute in H4. discriminate H4.
Qed.
Lemma ex_finite : forall be : Backend, let q := QSimpson (A := F64 be) 2 lit0 lit1 in usable q /\ ffin (value q (fun x => x)).
Proof. intros be q. split; [cbn; lia|]. vm_compute. reflexivity. Qed.
Lemma ex_zeros : forall be : Backend, let q := QMidpoint (A := F64 be) 3 lit0 lit1 in
  usable q /\ Forall fzero (map (fun _ => @nnegzero (F64 be)) (points q)) /\ Forall ffin (weights q).
Proof.
  intros be q. split; [cbn; lia|]. split; [|constructor]. apply Forall_forall. intros x Hx. apply in_map_iff in Hx. destruct Hx as (y & <- & _). split; reflexivity.
Qed.
