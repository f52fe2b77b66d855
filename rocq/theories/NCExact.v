(** Newton-Cotes rules in exact arithmetic: polynomial exactness, linearity,
    antisymmetry, evaluation points. *)
From Coq Require Import Reals ZArith Lra Lia List.
From Coquelicot Require Import Coquelicot.
From Verif Require Import Arith RInst RInstProof RSum Machine Iter Rules Par NewtonCotes
  IntegrateSpec IntegrateProof IterProof NCSpec NCReal.
Import ListNotations.
Local Open Scope R_scope.

Definition cubic (c0 c1 c2 c3 x : R) : R := c0 + c1 * x + c2 * x ^ 2 + c3 * x ^ 3.
Definition cubic_prim (c0 c1 c2 c3 x : R) : R :=
  c0 * x + c1 * x ^ 2 / 2 + c2 * x ^ 3 / 3 + c3 * x ^ 4 / 4.

Lemma cubic_RInt : forall c0 c1 c2 c3 a b,
  is_RInt (cubic c0 c1 c2 c3) a b (cubic_prim c0 c1 c2 c3 b - cubic_prim c0 c1 c2 c3 a).
Proof.
  intros. apply (is_RInt_derive (cubic_prim c0 c1 c2 c3)).
  - intros x _. unfold cubic_prim, cubic. auto_derive; [exact I|]. field.
  - intros x _. apply (ex_derive_continuous (cubic c0 c1 c2 c3)). unfold cubic. auto_derive. exact I.
Qed.

Lemma telescope_panels : forall n a b (F : R -> R), (1 <= n)%nat ->
  let h := (b - a) / INR n in
  rsum n (fun i => F (a + h * INR (S i)) - F (a + h * INR i)) = F b - F a.
Proof.
  intros n a b F Hn h. rewrite (rsum_telescope n (fun i => F (a + h * INR i))).
  f_equal.
  - f_equal. unfold h. field. apply not_0_INR. lia.
  - f_equal. f_equal. simpl. ring.
Qed.

Lemma midpoint_panels : forall n a b g, (1 <= n)%nat ->
  let h := (b - a) / INR n in
  midpoint_value n a b g = rsum n (fun i => h * g (a + h * (INR i + / 2))).
Proof. intros. rewrite midpoint_value_eq by assumption. rewrite rsum_scal. reflexivity. Qed.

Lemma midpoint_exact : forall n a b c0 c1, (1 <= n)%nat ->
  is_RInt (fun x => c0 + c1 * x) a b (midpoint_value n a b (fun x => c0 + c1 * x)).
Proof.
  intros n a b c0 c1 Hn.
  apply (is_RInt_ext (cubic c0 c1 0 0)). { intros; match goal with |- @eq _ ?u ?v => change (@eq R u v) end; unfold cubic; ring. }
  rewrite midpoint_panels by assumption.
  erewrite rsum_ext.
  - rewrite (telescope_panels n a b (cubic_prim c0 c1 0 0) Hn). apply cubic_RInt.
  - intros i _. cbv beta. rewrite S_INR. unfold cubic_prim. field. apply not_0_INR; lia.
Qed.
Lemma trapezoid_exact : forall n a b c0 c1, (1 <= n)%nat ->
  is_RInt (fun x => c0 + c1 * x) a b (trapezoid_value n a b (fun x => c0 + c1 * x)).
Proof.
  intros n a b c0 c1 Hn.
  apply (is_RInt_ext (cubic c0 c1 0 0)). { intros; match goal with |- @eq _ ?u ?v => change (@eq R u v) end; unfold cubic; ring. }
  rewrite trapezoid_panels by assumption.
  erewrite rsum_ext.
  - rewrite (telescope_panels n a b (cubic_prim c0 c1 0 0) Hn). apply cubic_RInt.
  - intros i _. cbv beta. rewrite S_INR. unfold cubic_prim. field. apply not_0_INR; lia.
Qed.
Lemma simpson_exact : forall n a b c0 c1 c2 c3, (1 <= n)%nat ->
  is_RInt (fun x => c0 + c1 * x + c2 * x ^ 2 + c3 * x ^ 3) a b
    (simpson_value n a b (fun x => c0 + c1 * x + c2 * x ^ 2 + c3 * x ^ 3)).
Proof.
  intros n a b c0 c1 c2 c3 Hn. fold (cubic c0 c1 c2 c3).
  rewrite simpson_panels by assumption.
  erewrite rsum_ext.
  - rewrite (telescope_panels n a b (cubic_prim c0 c1 c2 c3) Hn). apply cubic_RInt.
  - intros i _. cbv beta. rewrite S_INR. unfold cubic, cubic_prim. field. apply not_0_INR; lia.
Qed.

(** ** Linearity *)
Lemma midpoint_linear : forall n a b c d f g, (1 <= n)%nat ->
  midpoint_value n a b (fun x => c * f x + d * g x) =
  c * midpoint_value n a b f + d * midpoint_value n a b g.
Proof.
  intros. rewrite !midpoint_panels by assumption. rewrite <- !rsum_scal, <- rsum_plus.
  apply rsum_ext. intros. ring.
Qed.
Lemma trapezoid_linear : forall n a b c d f g, (1 <= n)%nat ->
  trapezoid_value n a b (fun x => c * f x + d * g x) =
  c * trapezoid_value n a b f + d * trapezoid_value n a b g.
Proof.
  intros. rewrite !trapezoid_panels by assumption. rewrite <- !rsum_scal, <- rsum_plus.
  apply rsum_ext. intros. field. apply not_0_INR; lia.
Qed.
Lemma simpson_linear : forall n a b c d f g, (1 <= n)%nat ->
  simpson_value n a b (fun x => c * f x + d * g x) =
  c * simpson_value n a b f + d * simpson_value n a b g.
Proof.
  intros. rewrite !simpson_panels by assumption. rewrite <- !rsum_scal, <- rsum_plus.
  apply rsum_ext. intros. field. apply not_0_INR; lia.
Qed.

(** ** Antisymmetry *)
Lemma midpoint_antisym : forall n a b g, (1 <= n)%nat ->
  midpoint_value n b a g = - midpoint_value n a b g.
Proof.
  intros n a b g Hn. rewrite !midpoint_panels by assumption. rewrite <- rsum_opp.
  rewrite rsum_rev. apply rsum_ext. intros i Hi. cbv beta.
  assert (INR n <> 0) by (apply not_0_INR; lia).
  replace (b + (a - b) / INR n * (INR (n - 1 - i) + / 2)) with (a + (b - a) / INR n * (INR i + / 2)).
  - field; assumption.
  - rewrite !minus_INR by lia. simpl (INR 1). field; assumption.
Qed.
Lemma trapezoid_antisym : forall n a b g, (1 <= n)%nat ->
  trapezoid_value n b a g = - trapezoid_value n a b g.
Proof.
  intros n a b g Hn. rewrite !trapezoid_panels by assumption. rewrite <- rsum_opp.
  rewrite rsum_rev. apply rsum_ext. intros i Hi. cbv beta.
  assert (INR n <> 0) by (apply not_0_INR; lia).
  replace (b + (a - b) / INR n * INR (n - 1 - i)) with (a + (b - a) / INR n * INR (S i))
    by (rewrite S_INR, !minus_INR by lia; simpl (INR 1); field; assumption).
  replace (b + (a - b) / INR n * INR (S (n - 1 - i))) with (a + (b - a) / INR n * INR i)
    by (rewrite S_INR, !minus_INR by lia; simpl (INR 1); field; assumption).
  field; assumption.
Qed.
Lemma simpson_antisym : forall n a b g, (1 <= n)%nat ->
  simpson_value n b a g = - simpson_value n a b g.
Proof.
  intros n a b g Hn. rewrite !simpson_panels by assumption. rewrite <- rsum_opp.
  rewrite rsum_rev. apply rsum_ext. intros i Hi. cbv beta.
  assert (INR n <> 0) by (apply not_0_INR; lia).
  replace (b + (a - b) / INR n * INR (n - 1 - i)) with (a + (b - a) / INR n * INR (S i))
    by (rewrite S_INR, !minus_INR by lia; simpl (INR 1); field; assumption).
  replace (b + (a - b) / INR n * INR (S (n - 1 - i))) with (a + (b - a) / INR n * INR i)
    by (rewrite S_INR, !minus_INR by lia; simpl (INR 1); field; assumption).
  replace (b + (a - b) / INR n * (INR (n - 1 - i) + / 2)) with (a + (b - a) / INR n * (INR i + / 2))
    by (rewrite !minus_INR by lia; simpl (INR 1); field; assumption).
  field; assumption.
Qed.

Lemma midpoint_empty : forall n a g, (1 <= n)%nat -> midpoint_value n a a g = 0.
Proof. intros. pose proof (midpoint_antisym n a a g H). lra. Qed.
Lemma trapezoid_empty : forall n a g, (1 <= n)%nat -> trapezoid_value n a a g = 0.
Proof. intros. pose proof (trapezoid_antisym n a a g H). lra. Qed.
Lemma simpson_empty : forall n a g, (1 <= n)%nat -> simpson_value n a a g = 0.
Proof. intros. pose proof (simpson_antisym n a a g H). lra. Qed.

(** ** Values only depend on the integrand between a and b *)

Lemma between_convex : forall a b t, 0 <= t <= 1 -> between a b (a + (b - a) * t).
Proof.
  intros a b t Ht. unfold between. destruct (Rle_dec a b) as [L|L].
  - rewrite Rmin_left, Rmax_right by lra. split; nra.
  - rewrite Rmin_right, Rmax_left by lra. split; nra.
Qed.

Lemma panel_in : forall n a b i x, (1 <= n)%nat -> (i < n)%nat -> 0 <= x <= 1 ->
  between a b (a + (b - a) / INR n * (INR i + x)).
Proof.
  intros n a b i x Hn Hi Hx.
  assert (P : 0 < INR n) by (apply lt_0_INR; lia).
  replace ((b - a) / INR n * (INR i + x)) with ((b - a) * ((INR i + x) / INR n)) by (field; lra).
  apply between_convex. split.
  - apply Rmult_le_pos; [|left; apply Rinv_0_lt_compat; exact P].
    pose proof (pos_INR i). lra.
  - apply (Rmult_le_reg_r (INR n)); [exact P|].
    replace ((INR i + x) / INR n * INR n) with (INR i + x) by (field; lra).
    rewrite Rmult_1_l. apply (le_INR (S i) n) in Hi. rewrite S_INR in Hi. lra.
Qed.

Lemma edge_in : forall n a b i, (1 <= n)%nat -> (i <= n)%nat ->
  between a b (a + (b - a) / INR n * INR i).
Proof.
  intros n a b i Hn Hi. destruct (Nat.eq_dec i n) as [->|D].
  - pose proof (panel_in n a b (n - 1) 1 Hn ltac:(lia) ltac:(lra)) as H.
    replace (INR n) with (INR (n - 1) + 1) at 2; [exact H|].
    rewrite minus_INR by lia. simpl (INR 1). ring.
  - pose proof (panel_in n a b i 0 Hn ltac:(lia) ltac:(lra)) as H.
    rewrite Rplus_0_r in H. exact H.
Qed.

Lemma midpoint_ext : forall n a b f g, (1 <= n)%nat ->
  (forall x, between a b x -> f x = g x) -> midpoint_value n a b f = midpoint_value n a b g.
Proof.
  intros n a b f g Hn E. rewrite !midpoint_panels by assumption. apply rsum_ext. intros i Hi.
  rewrite E; [reflexivity|]. apply panel_in; try assumption. lra.
Qed.
Lemma trapezoid_ext : forall n a b f g, (1 <= n)%nat ->
  (forall x, between a b x -> f x = g x) -> trapezoid_value n a b f = trapezoid_value n a b g.
Proof.
  intros n a b f g Hn E. rewrite !trapezoid_panels by assumption. apply rsum_ext. intros i Hi.
  rewrite !E; [reflexivity| |]; apply edge_in; lia.
Qed.
Lemma simpson_ext : forall n a b f g, (1 <= n)%nat ->
  (forall x, between a b x -> f x = g x) -> simpson_value n a b f = simpson_value n a b g.
Proof.
  intros n a b f g Hn E. rewrite !simpson_panels by assumption. apply rsum_ext. intros i Hi.
  rewrite !E; [reflexivity| | |]; try (apply edge_in; lia). apply panel_in; try assumption. lra.
Qed.
