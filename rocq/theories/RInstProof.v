(** Basic facts about the exact real instance. *)
From Coq Require Import Reals ZArith Lra Lia List.
From Flocq Require Import Core.
From Verif Require Import Arith RInst RSum Rules Par IntegrateSpec.
Import ListNotations.
Local Open Scope R_scope.

Ltac ra_simpl :=
  cbn [nadd nsub nmul ndiv nsin ncos npow nsqrt nofZ nnegzero npi neul num RA] in *.

Lemma ra_lit0 : @lit0 RA = 0. Proof. unfold lit0. simpl. unfold R_lit. simpl. lra. Qed.
Lemma ra_lit1 : @lit1 RA = 1. Proof. unfold lit1. simpl. unfold R_lit. simpl. lra. Qed.
Lemma ra_lit2 : @lit2 RA = 2. Proof. unfold lit2. simpl. unfold R_lit. simpl. lra. Qed.
Lemma ra_lit4 : @nlit RA 4 0 = 4. Proof. simpl. unfold R_lit. simpl. lra. Qed.
Lemma ra_lit6 : @nlit RA 6 0 = 6. Proof. simpl. unfold R_lit. simpl. lra. Qed.
Lemma ra_half : @lit_half RA = / 2. Proof. unfold lit_half. simpl. unfold R_lit. simpl. lra. Qed.
Lemma ra_neg_half : @lit_neg_half RA = - / 2. Proof. unfold lit_neg_half. simpl. unfold R_lit. simpl. lra. Qed.
Lemma ra_neg1 : @lit_neg1 RA = -1. Proof. unfold lit_neg1. simpl. unfold R_lit. simpl. lra. Qed.

Lemma rl0 : R_lit 0 0 = 0. Proof. exact ra_lit0. Qed.
Lemma rl1 : R_lit 1 0 = 1. Proof. exact ra_lit1. Qed.
Lemma rl2 : R_lit 2 0 = 2. Proof. exact ra_lit2. Qed.
Lemma rl4 : R_lit 4 0 = 4. Proof. exact ra_lit4. Qed.
Lemma rl6 : R_lit 6 0 = 6. Proof. exact ra_lit6. Qed.
Lemma rlhalf : R_lit 5 (-1) = / 2. Proof. exact ra_half. Qed.
Lemma rlnhalf : R_lit (-5) (-1) = - / 2. Proof. exact ra_neg_half. Qed.
Lemma rln1 : R_lit (-1) 0 = -1. Proof. exact ra_neg1. Qed.

Ltac ra_lits := rewrite ?ra_lit0, ?ra_lit1, ?ra_lit2, ?ra_lit4, ?ra_lit6, ?ra_half, ?ra_neg_half, ?ra_neg1,
  ?rl0, ?rl1, ?rl2, ?rl4, ?rl6, ?rlhalf, ?rlnhalf, ?rln1.

Lemma ra_nlt : forall x y : RA, nlt x y = true <-> x < y.
Proof.
  intros x y. unfold nlt. simpl. destruct (Rcompare_spec x y); split; intros; try discriminate; try reflexivity; lra.
Qed.
Lemma ra_nlt_false : forall x y : RA, nlt x y = false <-> y <= x.
Proof.
  intros x y. unfold nlt. simpl. destruct (Rcompare_spec x y); split; intros; try discriminate; try reflexivity; lra.
Qed.
Lemma ra_neqb : forall x y : RA, neqb x y = true <-> x = y.
Proof.
  intros x y. unfold neqb. simpl. destruct (Rcompare_spec x y); split; intros; try discriminate; try reflexivity; lra.
Qed.

Lemma float_sum_R : forall l : list R, @float_sum RA l = lsum l.
Proof. intros l. unfold float_sum. simpl. rewrite fold_left_Rplus. ring. Qed.

Lemma call_all_pure : forall P V (g : P -> V) pts s, call_all (pure g) pts s = (map g pts, s).
Proof. intros P V g pts. induction pts; intros s; simpl; [reflexivity|]. rewrite IHpts. reflexivity. Qed.

Lemma lsum_ints : forall (g : Z -> R) lo n,
  lsum (map g (ints lo n)) = rsum n (fun i => g (lo + Z.of_nat i)%Z).
Proof. intros. unfold ints. rewrite map_map. rewrite lsum_map_seq. reflexivity. Qed.

(** sequential and parallel sums *)
Lemma iter_sum_pure_R : forall X (f : X -> R) l,
  fst (@iter_sum RA X unit (fun _ x => (f x, tt)) l tt) = lsum (map f l).
Proof.
  intros X f l. unfold iter_sum. simpl nnegzero.
  assert (G : forall acc, fst (@sum_from RA X unit (fun _ x => (f x, tt)) acc l tt) = acc + lsum (map f l)).
  { induction l as [|x l IH]; intros acc; simpl; [change (num RA) with R; symmetry; apply Rplus_0_r|].
    rewrite IH. simpl. apply Rplus_assoc. }
  rewrite G. rewrite !Rplus_0_l. reflexivity.
Qed.

Lemma par_sum_R : forall X t (f : X -> R) l, @par_sum RA X t f l = lsum (map f l).
Proof.
  intros X t f. induction t; intros l; simpl par_sum; unfold rayon_add; simpl nadd; simpl nnegzero.
  - rewrite iter_sum_pure_R, !Rplus_0_l. reflexivity.
  - rewrite IHt1, IHt2. transitivity (lsum (map f (firstn m l) ++ map f (skipn m l))).
    + rewrite lsum_app. rewrite Rplus_0_l. reflexivity.
    + rewrite <- map_app, firstn_skipn. reflexivity.
Qed.
