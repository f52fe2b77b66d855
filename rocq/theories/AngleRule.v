(** Gauss-Chebyshev rules are Newton-Cotes rules in the angle. *)
From Coq Require Import Reals ZArith List Lra Lia.
From Coquelicot Require Import Coquelicot.
From Verif Require Import Arith RInst RInstProof RSum Machine Rules Chebyshev NewtonCotes NCSpec NCReal NCRiemann PolySpec RuleSpec GaussProof TransferProof SizeProof ChebRule.
Import ListNotations.
Local Open Scope R_scope.

Lemma chebyshev1_angle : forall t n (r : GaussChebyshevFirstKind RA), (1 <= n < usize_max t)%Z -> chebyshev1_new t n = Ok r ->
  forall a b f, chebyshev1_value r a b f = (b - a) / 2 * midpoint_value (Z.to_nat n) 0 PI (fun u => f ((b - a) / 2 * cos u + (a + b) / 2)).
Proof.
  intros t n r Hn Hr a b f. unfold chebyshev1_value. rewrite chebyshev1_R, gauss_pulled, (cheb1_pairs t n r Hn Hr). rewrite midpoint_value_eq by lia.
  set (m := Z.to_nat n). assert (N : 1 <= INR m) by (apply (le_INR 1); unfold m; lia). f_equal.
  unfold apply_rule. rewrite map_rev, RSum.lsum_rev, map_map, lsum_map_seq, Rmult_comm, <- rsum_scal_r. apply rsum_ext. intros i Hi. unfold pair1, pulled. cbn [fst snd Nat.add].
  rewrite Rminus_0_r. f_equal. f_equal. f_equal. f_equal. f_equal. rewrite S_INR. field. lra.
Qed.
Lemma chebyshev2_angle : forall t n (r : GaussChebyshevSecondKind RA), (1 <= n < usize_max t)%Z -> chebyshev2_new t n = Ok r ->
  forall a b f, chebyshev2_value r a b f = (b - a) / 2 * trapezoid_value (Z.to_nat n + 1) 0 PI (fun u => sin u * sin u * f ((b - a) / 2 * cos u + (a + b) / 2)).
Proof.
  intros t n r Hn Hr a b f. unfold chebyshev2_value. rewrite chebyshev2_R, gauss_pulled, (cheb2_pairs t n r Hn Hr). rewrite trapezoid_value_eq by lia.
  set (m := Z.to_nat n). assert (N : 1 <= INR m) by (apply (le_INR 1); unfold m; lia). f_equal. rewrite sin_0, sin_PI.
  replace (m + 1 - 1)%nat with m by lia. rewrite plus_INR. change (INR 1) with 1. rewrite Rminus_0_r.
  match goal with |- _ = _ * (?u + ?v) => replace (u + v) with v by (unfold Rdiv; ring) end.
  unfold apply_rule. rewrite map_rev, RSum.lsum_rev, map_map, lsum_map_seq, Rmult_comm, <- rsum_scal_r. apply rsum_ext. intros i Hi. unfold pair2, pulled. cbn [fst snd Nat.add].
  replace (0 + PI / (INR m + 1) * INR (S i)) with (PI * INR (S i) * (1 / (INR m + 1))) by (field; lra).
  set (s := sin _). set (c := cos _). replace (PI / (INR m + 1)) with (PI * (1 / (INR m + 1))) by (field; lra). ring.
Qed.
Lemma chebyshev1_riemann : forall a b f, ex_RInt (fun u => f ((b - a) / 2 * cos u + (a + b) / 2)) 0 PI -> forall eps, 0 < eps ->
  exists N, forall t n (r : GaussChebyshevFirstKind RA), (N <= n)%Z -> (1 <= n < usize_max t)%Z -> chebyshev1_new t n = Ok r ->
  Rabs (chebyshev1_value r a b f - (b - a) / 2 * RInt (fun u => f ((b - a) / 2 * cos u + (a + b) / 2)) 0 PI) < eps.
Proof.
  intros a b f H eps He. assert (L := midpoint_lim _ 0 PI H). apply is_lim_seq_spec in L. cbn in L.
  assert (P : 0 < Rabs ((b - a) / 2) + 1) by (pose proof (Rabs_pos ((b - a) / 2)); lra).
  destruct (L (mkposreal (eps / (Rabs ((b - a) / 2) + 1)) ltac:(apply Rdiv_lt_0_compat; lra))) as (N & HN). cbn [pos] in HN.
  exists (Z.of_nat (S N)). intros t n r L1 Hn Hr. rewrite (chebyshev1_angle t n r Hn Hr), <- Rmult_minus_distr_l, Rabs_mult.
  specialize (HN (Z.to_nat n - 1)%nat ltac:(lia)). replace (S (Z.to_nat n - 1)) with (Z.to_nat n) in HN by lia.
  match type of HN with ?u < _ => set (d := u) in * end. assert (D : 0 <= d) by apply Rabs_pos.
  assert (X : (Rabs ((b - a) / 2) + 1) * d < eps).
  { apply (Rmult_lt_compat_l (Rabs ((b - a) / 2) + 1)) in HN; [|exact P]. replace ((Rabs ((b - a) / 2) + 1) * (eps / (Rabs ((b - a) / 2) + 1))) with eps in HN by (field; lra). exact HN. }
  refine (Rle_lt_trans _ _ _ _ X). apply Rmult_le_compat; [apply Rabs_pos|apply Rabs_pos|lra|apply Req_le; reflexivity].
Qed.
Lemma chebyshev2_riemann : forall a b f, ex_RInt (fun u => sin u * sin u * f ((b - a) / 2 * cos u + (a + b) / 2)) 0 PI -> forall eps, 0 < eps ->
  exists N, forall t n (r : GaussChebyshevSecondKind RA), (N <= n)%Z -> (1 <= n < usize_max t)%Z -> chebyshev2_new t n = Ok r ->
  Rabs (chebyshev2_value r a b f - (b - a) / 2 * RInt (fun u => sin u * sin u * f ((b - a) / 2 * cos u + (a + b) / 2)) 0 PI) < eps.
Proof.
  intros a b f H eps He. assert (L := trapezoid_lim _ 0 PI H). apply is_lim_seq_spec in L. cbn in L.
  assert (P : 0 < Rabs ((b - a) / 2) + 1) by (pose proof (Rabs_pos ((b - a) / 2)); lra).
  destruct (L (mkposreal (eps / (Rabs ((b - a) / 2) + 1)) ltac:(apply Rdiv_lt_0_compat; lra))) as (N & HN). cbn [pos] in HN.
  exists (Z.of_nat (S N)). intros t n r L1 Hn Hr. rewrite (chebyshev2_angle t n r Hn Hr), <- Rmult_minus_distr_l, Rabs_mult.
  specialize (HN (Z.to_nat n) ltac:(lia)). replace (S (Z.to_nat n)) with (Z.to_nat n + 1)%nat in HN by lia.
  match type of HN with ?u < _ => set (d := u) in * end. assert (D : 0 <= d) by apply Rabs_pos.
  assert (X : (Rabs ((b - a) / 2) + 1) * d < eps).
  { apply (Rmult_lt_compat_l (Rabs ((b - a) / 2) + 1)) in HN; [|exact P]. replace ((Rabs ((b - a) / 2) + 1) * (eps / (Rabs ((b - a) / 2) + 1))) with eps in HN by (field; lra). exact HN. }
  refine (Rle_lt_trans _ _ _ _ X). apply Rmult_le_compat; [apply Rabs_pos|apply Rabs_pos|lra|apply Req_le; reflexivity].
Qed.
