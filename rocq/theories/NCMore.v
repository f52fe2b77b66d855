(** Relations between the Newton-Cotes rules, convex and monotone integrands,
    and the exact error on the first power that is not integrated exactly. *)
From Coq Require Import Reals Lra Lia Psatz.
From Coquelicot Require Import Coquelicot.
From Verif Require Import Arith RInst NewtonCotes RSum NCSpec NCReal NCExact NCMoreSpec.
Local Open Scope R_scope.

Lemma rsum_div n F c : rsum n F / c = rsum n (fun i => F i / c).
Proof. unfold Rdiv. rewrite rsum_scal_r. reflexivity. Qed.

Lemma simpson_combination n a b g : (1 <= n)%nat ->
  simpson_value n a b g = (2 * midpoint_value n a b g + trapezoid_value n a b g) / 3.
Proof.
  intros Hn. rewrite simpson_panels, midpoint_panels, trapezoid_panels by assumption.
  cbv zeta. rewrite <- rsum_scal, <- rsum_plus, rsum_div. apply rsum_ext. intros i _. field.
  apply not_0_INR; lia.
Qed.

(** k groups of n terms. *)
Lemma rsum_groups n F : forall k,
  rsum (k * n) F = rsum k (fun j => rsum n (fun i => F (j * n + i)%nat)).
Proof.
  induction k; [reflexivity|].
  replace (S k * n)%nat with (k * n + n)%nat by lia. rewrite rsum_add, IHk. reflexivity.
Qed.

Section Composite.
Variables (n k : nat) (a b : R) (g : R -> R).
Hypothesis Hn : (1 <= n)%nat.
Hypothesis Hk : (1 <= k)%nat.
Let H := (b - a) / INR k.
Let h := (b - a) / INR (k * n).
Lemma h_sub : forall j, (a + H * INR (S j) - (a + H * INR j)) / INR n = h.
Proof.
  intros j. unfold H, h. rewrite mult_INR, S_INR. field.
  split; apply not_0_INR; lia.
Qed.
Lemma point_sub : forall j s, a + H * INR j + h * s = a + h * (INR j * INR n + s).
Proof.
  intros j s. unfold H, h. rewrite mult_INR. field. split; apply not_0_INR; lia.
Qed.
Lemma midpoint_composite : midpoint_value (k * n) a b g =
  rsum k (fun j => midpoint_value n (a + H * INR j) (a + H * INR (S j)) g).
Proof.
  rewrite midpoint_panels by nia. fold h. cbv zeta. rewrite rsum_groups. apply rsum_ext. intros j _.
  rewrite midpoint_panels by assumption. cbv zeta. rewrite h_sub. apply rsum_ext. intros i _.
  rewrite point_sub. do 2 f_equal. rewrite plus_INR, mult_INR. ring.
Qed.
Lemma trapezoid_composite : trapezoid_value (k * n) a b g =
  rsum k (fun j => trapezoid_value n (a + H * INR j) (a + H * INR (S j)) g).
Proof.
  rewrite trapezoid_panels by nia. fold h. cbv zeta. rewrite rsum_groups. apply rsum_ext. intros j _.
  rewrite trapezoid_panels by assumption. cbv zeta. rewrite h_sub. apply rsum_ext. intros i _.
  rewrite !point_sub, !S_INR, plus_INR, mult_INR, <- Rplus_assoc. reflexivity.
Qed.
Lemma simpson_composite : simpson_value (k * n) a b g =
  rsum k (fun j => simpson_value n (a + H * INR j) (a + H * INR (S j)) g).
Proof.
  rewrite simpson_panels by nia. fold h. cbv zeta. rewrite rsum_groups. apply rsum_ext. intros j _.
  rewrite simpson_panels by assumption. cbv zeta. rewrite h_sub. apply rsum_ext. intros i _.
  rewrite !point_sub, !S_INR, plus_INR, mult_INR, <- !Rplus_assoc. reflexivity.
Qed.
End Composite.

Lemma trapezoid_double n a b g : (1 <= n)%nat ->
  trapezoid_value (2 * n) a b g = (trapezoid_value n a b g + midpoint_value n a b g) / 2.
Proof.
  intros Hn. replace (2 * n)%nat with (n * 2)%nat by lia.
  rewrite (trapezoid_panels (n * 2)) by lia. cbv zeta. rewrite rsum_groups.
  rewrite trapezoid_panels, midpoint_panels by assumption. cbv zeta.
  rewrite <- rsum_plus, rsum_div. apply rsum_ext. intros i _.
  assert (N : INR n <> 0) by (apply not_0_INR; lia).
  rewrite mult_INR. change (INR 2) with (1 + 1).
  cbn [rsum]. rewrite !S_INR, !plus_INR, mult_INR. change (INR 2) with (1 + 1).
  change (INR 1) with 1. change (INR 0) with 0.
  replace (a + (b - a) / (INR n * (1 + 1)) * (INR i * (1 + 1) + 0)) with (a + (b - a) / INR n * INR i) by (field; exact N).
  replace (a + (b - a) / (INR n * (1 + 1)) * (INR i * (1 + 1) + 0 + 1)) with (a + (b - a) / INR n * (INR i + / 2)) by (field; exact N).
  replace (a + (b - a) / (INR n * (1 + 1)) * (INR i * (1 + 1) + 1)) with (a + (b - a) / INR n * (INR i + / 2)) by (field; exact N).
  replace (a + (b - a) / (INR n * (1 + 1)) * (INR i * (1 + 1) + 1 + 1)) with (a + (b - a) / INR n * (INR i + 1)) by (field; exact N).
  field. exact N.
Qed.
Lemma simpson_richardson n a b g : (1 <= n)%nat ->
  simpson_value n a b g = (4 * trapezoid_value (2 * n) a b g - trapezoid_value n a b g) / 3.
Proof. intros Hn. rewrite simpson_combination, trapezoid_double by assumption. field. Qed.

(** The first power that is not integrated exactly. *)
Section Sharp.
Variables (n : nat) (a b : R).
Hypothesis Hn : (1 <= n)%nat.
Let h := (b - a) / INR n.
Lemma h_cubed : INR n * h ^ 3 = (b - a) ^ 3 / INR n ^ 2.
Proof. unfold h. field. apply not_0_INR; lia. Qed.
Lemma h_fifth : INR n * h ^ 5 = (b - a) ^ 5 / INR n ^ 4.
Proof. unfold h. field. apply not_0_INR; lia. Qed.
Lemma midpoint_square : midpoint_value n a b (fun x => x ^ 2) =
  (b ^ 3 - a ^ 3) / 3 - (b - a) ^ 3 / (12 * INR n ^ 2).
Proof.
  rewrite midpoint_panels by assumption. fold h. cbv zeta.
  replace ((b - a) ^ 3 / (12 * INR n ^ 2)) with (INR n * (h ^ 3 / 12)) by
    (transitivity (INR n * h ^ 3 / 12); [field | rewrite h_cubed; field; apply not_0_INR; lia]).
  replace ((b ^ 3 - a ^ 3) / 3) with (b ^ 3 / 3 - a ^ 3 / 3) by field.
  rewrite <- (telescope_panels n a b (fun x => x ^ 3 / 3) Hn). fold h.
  rewrite <- rsum_const, <- rsum_minus. apply rsum_ext. intros i _. rewrite S_INR. field.
Qed.
Lemma trapezoid_square : trapezoid_value n a b (fun x => x ^ 2) =
  (b ^ 3 - a ^ 3) / 3 + (b - a) ^ 3 / (6 * INR n ^ 2).
Proof.
  rewrite trapezoid_panels by assumption. fold h. cbv zeta.
  replace ((b - a) ^ 3 / (6 * INR n ^ 2)) with (INR n * (h ^ 3 / 6)) by
    (transitivity (INR n * h ^ 3 / 6); [field | rewrite h_cubed; field; apply not_0_INR; lia]).
  replace ((b ^ 3 - a ^ 3) / 3) with (b ^ 3 / 3 - a ^ 3 / 3) by field.
  rewrite <- (telescope_panels n a b (fun x => x ^ 3 / 3) Hn). fold h.
  rewrite <- rsum_const, <- rsum_plus. apply rsum_ext. intros i _. rewrite S_INR. field.
Qed.
Lemma simpson_fourth : simpson_value n a b (fun x => x ^ 4) =
  (b ^ 5 - a ^ 5) / 5 + (b - a) ^ 5 / (120 * INR n ^ 4).
Proof.
  rewrite simpson_panels by assumption. fold h. cbv zeta.
  replace ((b - a) ^ 5 / (120 * INR n ^ 4)) with (INR n * (h ^ 5 / 120)) by
    (transitivity (INR n * h ^ 5 / 120); [field | rewrite h_fifth; field; apply not_0_INR; lia]).
  replace ((b ^ 5 - a ^ 5) / 5) with (b ^ 5 / 5 - a ^ 5 / 5) by field.
  rewrite <- (telescope_panels n a b (fun x => x ^ 5 / 5) Hn). fold h.
  rewrite <- rsum_const, <- rsum_plus. apply rsum_ext. intros i _. rewrite S_INR. field.
Qed.
End Sharp.
