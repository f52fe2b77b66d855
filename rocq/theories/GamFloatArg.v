(** Scale factors of the Laguerre and Jacobi rules in double arithmetic against the true integrals of the weights. *)
From Coq Require Import Reals ZArith List Lra Lia Psatz.
From Coquelicot Require Import Rcomplements.
From Flocq Require Import Core Relative IEEE754.Binary.
From Verif Require Import Arith RInst RInstProof F64 F64Spec F64Proof RoundSpec RoundProof RoundRules AccF64 AccCount LegBigPoly LegBigFloat Gamma GammaProof
  WeightSpec GammaTrue GamRatio GamAcc GamNum GamReflect GamAll ChebFloat GamFloatSpec GamFloat Laguerre Jacobi.
Local Open Scope R_scope.

(** ** The true function *)
Lemma Gam_half : forall x, 0 < x -> / 2 <= Gam x.
Proof.
  assert (M : forall x, 1 <= x <= 2 -> / 2 <= Gam x).
  { intros x Hx. assert (Y := Gam_young x (2 - x) ltac:(lra) ltac:(lra)). replace (x + (2 - x)) with (1 + 1) in Y by ring. rewrite Gam_S, Gam_1 in Y by lra.
    assert (P := Gam_pos x ltac:(lra)). assert (Rpower x (2 - x) <= 2).
    { apply Rle_trans with (Rpower x 1); [apply Rle_Rpower; lra|]. rewrite Rpower_1; lra. }
    assert (Rpower x (2 - x) * Gam x <= 2 * Gam x) by (apply Rmult_le_compat_r; lra). lra. }
  assert (N : forall n x, 1 <= x <= INR n + 2 -> / 2 <= Gam x).
  { induction n as [|n IH]; intros x Hx; [apply M; simpl in Hx; lra|]. rewrite S_INR in Hx. destruct (Rle_or_lt x 2) as [H|H]; [apply M; lra|].
    replace x with (x - 1 + 1) by ring. rewrite Gam_S by lra. assert (Y := IH (x - 1) ltac:(lra)). assert (1 * Gam (x - 1) <= (x - 1) * Gam (x - 1)) by (apply Rmult_le_compat_r; lra). lra. }
  assert (B : forall x, 1 <= x -> / 2 <= Gam x).
  { intros x Hx. apply (N (Z.to_nat (up x))). rewrite INR_IZR_INZ, Z2Nat.id; [assert (U := archimed x); lra|]. apply le_IZR. assert (U := archimed x). lra. }
  intros x Hx. destruct (Rle_or_lt 1 x) as [H|H]; [apply B, H|].
  assert (Y := B (x + 1) ltac:(lra)). rewrite Gam_S in Y by exact Hx. assert (P := Gam_pos x Hx). assert (x * Gam x <= 1 * Gam x) by (apply Rmult_le_compat_r; lra). lra.
Qed.
Lemma ln_172 : ln 172 <= 52 / 10.
Proof.
  assert (B := e_bounds). rewrite <- (ln_exp (52 / 10)). apply ln_le; [lra|].
  replace (52 / 10) with (1 + 1 + 1 + 1 + 1 + 2 / 10) by lra. rewrite !exp_plus. assert (E := exp_ineq1_le (2 / 10)).
  assert (2718 / 1000 * (2718 / 1000) <= exp 1 * exp 1) by nra. assert (7387 / 1000 * (2718 / 1000) <= exp 1 * exp 1 * exp 1) by nra. assert (20077 / 1000 * (2718 / 1000) <= exp 1 * exp 1 * exp 1 * exp 1) by nra.
  assert (54569 / 1000 * (2718 / 1000) <= exp 1 * exp 1 * exp 1 * exp 1 * exp 1) by nra. nra.
Qed.
Lemma ln_slope : forall u v, 0 < u -> 0 < v -> ln u - ln v <= u / v - 1.
Proof.
  intros u v Hu Hv. rewrite <- ln_div by assumption. assert (Huv : 0 < u / v) by (apply Rdiv_lt_0_compat; assumption).
  apply Rle_trans with (ln (exp (u / v - 1))); [|rewrite ln_exp; lra]. apply ln_le; [exact Huv|]. assert (X := exp_ineq1_le (u / v - 1)). lra.
Qed.
Lemma gam_up : forall u s, 1 <= u <= 172 -> 0 <= s <= 1 -> Rabs (ln (Gam (u + s)) - ln (Gam u)) <= 62 / 10 * s.
Proof.
  intros u s Hu Hs. assert (G := Gam_growth u s ltac:(lra) Hs). assert (L0 : 0 <= ln u) by (rewrite <- ln_1; apply ln_le; lra).
  assert (L1 : ln u <= 52 / 10) by (eapply Rle_trans; [|exact ln_172]; apply ln_le; lra).
  assert (D := ln_slope (u + s) u ltac:(lra) ltac:(lra)). assert (D0 : ln u <= ln (u + s)) by (apply ln_le; lra).
  assert ((u + s) / u - 1 <= s). { replace ((u + s) / u - 1) with (s / u) by (field; lra). apply Rmult_le_reg_r with u; [lra|]. unfold Rdiv. rewrite Rmult_assoc, Rinv_l by lra. nra. }
  assert (s * ln u <= s * (52 / 10)) by (apply Rmult_le_compat_l; lra). assert (0 <= s * ln u) by (apply Rmult_le_pos; lra).
  assert ((1 - s) * (ln (u + s) - ln u) <= 1 * s) by (apply Rmult_le_compat; lra). assert (0 <= (1 - s) * (ln (u + s) - ln u)) by (apply Rmult_le_pos; lra).
  apply Rabs_le. lra.
Qed.
Lemma gam_shift : forall t t' d, 0 < t <= 170 -> Rabs (t' - t) <= d -> d <= 1 / 1000 * t -> 0 < t' /\ Rabs (ln (Gam t') - ln (Gam t)) <= d * (62 / 10 + 1002 / 1000 / t).
Proof.
  intros t t' d Ht H Hd. assert (H0 := Rabs_pos (t' - t)). 
  destruct (ln_close t t' (d / t)) as [P L]; [lra|unfold Rdiv; rewrite Rmult_assoc, Rinv_l; lra| |].
  { split; [apply Rmult_le_pos; [lra|left; apply Rinv_0_lt_compat; lra]|]. apply Rmult_le_reg_r with t; [lra|]. unfold Rdiv at 1. rewrite Rmult_assoc, Rinv_l; lra. }
  split; [exact P|]. assert (E : forall x, 0 < x -> ln (Gam x) = ln (Gam (x + 1)) - ln x). { intros x Hx. rewrite Gam_S by exact Hx. rewrite ln_mult by (try apply Gam_pos; lra). ring. }
  rewrite (E t), (E t') by lra. 
  assert (G : Rabs (ln (Gam (t' + 1)) - ln (Gam (t + 1))) <= 62 / 10 * d).
  { destruct (Rle_or_lt t t') as [Q|Q].
    - rewrite Rabs_pos_eq in H by lra. assert (Y := gam_up (t + 1) (t' - t) ltac:(lra) ltac:(lra)). replace (t + 1 + (t' - t)) with (t' + 1) in Y by ring. lra.
    - rewrite Rabs_left in H by lra. assert (Y := gam_up (t' + 1) (t - t') ltac:(lra) ltac:(lra)). replace (t' + 1 + (t - t')) with (t + 1) in Y by ring. rewrite Rabs_minus_sym. lra. }
  assert (Q : d / t * (1 + 2 * (d / t)) <= d * (1002 / 1000 / t)).
  { assert (0 <= d / t) by (apply Rmult_le_pos; [lra|left; apply Rinv_0_lt_compat; lra]). assert (d / t <= 1 / 1000) by (apply Rmult_le_reg_r with t; [lra|]; unfold Rdiv at 1; rewrite Rmult_assoc, Rinv_l; lra).
    replace (d * (1002 / 1000 / t)) with (d / t * (1002 / 1000)) by (field; lra). apply Rmult_le_compat_l; lra. }
  replace (ln (Gam (t' + 1)) - ln t' - (ln (Gam (t + 1)) - ln t)) with ((ln (Gam (t' + 1)) - ln (Gam (t + 1))) + - (ln t' - ln t)) by ring.
  eapply Rle_trans; [apply Rabs_triang|]. rewrite Rabs_Ropp. lra.
Qed.

(** ** Computed values *)
Section F.
Variable be : Backend.
Notation A := (F64 be).

Definition relz (x : f64) (v c : R) : Prop := ffin x /\ v <> 0 /\ Rabs (fval x - v) <= ex c * Rabs v /\ cnt c.
Lemma relz_x : forall x v c, relx x v c -> relz x v c.
Proof. intros x v c (F & P & E & C). split; [exact F|]. split; [lra|]. rewrite (Rabs_pos_eq v) by lra. split; assumption. Qed.
Lemma relz_pos : forall x v c, relz x v c -> 0 < v -> relx x v c.
Proof. intros x v c (F & P & E & C) H. rewrite (Rabs_pos_eq v) in E by lra. split; [exact F|]. split; [exact H|]. split; assumption. Qed.
Lemma relz_weak : forall x v c d, relz x v c -> c <= d -> cnt d -> relz x v d.
Proof. intros x v c d (F & P & E & C) H D. split; [exact F|]. split; [exact P|]. split; [|exact D]. eapply Rle_trans; [exact E|]. apply Rmult_le_compat_r; [apply Rabs_pos|apply ex_mono, H]. Qed.
Lemma relx_weak : forall x v c d, relx x v c -> c <= d -> cnt d -> relx x v d.
Proof. intros x v c d (F & P & E & C) H D. split; [exact F|]. split; [exact P|]. split; [|exact D]. eapply Rle_trans; [exact E|]. apply Rmult_le_compat_r; [lra|apply ex_mono, H]. Qed.
Lemma relz_div : forall (x y : A) v w c d, relz x v c -> relz y w d -> bpow radix2 (-1000) <= Rabs (v / w) <= bpow radix2 1020 -> cnt (c + 101 / 100 * d + 101 / 100) ->
  relz (ndiv x y : A) (v / w) (c + 101 / 100 * d + 101 / 100).
Proof.
  intros x y v w c d (Fx & Nv & Ex & Cx) (Fy & Nw & Ey & Cy) Hs Hc. assert (U := uro_num).
  assert (Sc := ex_small c Cx). assert (Sd := ex_small d Cy). assert (ID := inv_ex d Cy). assert (Pw := Rabs_pos_lt w Nw). assert (Pv := Rabs_pos_lt v Nv).
  assert (Wl : (1 - ex d) * Rabs w <= Rabs (fval y)). { assert (T := Rabs_triang_inv w (w - fval y)). replace (w - (w - fval y)) with (fval y) in T by ring. rewrite (Rabs_minus_sym w (fval y)) in T. lra. }
  assert (Py : 0 < Rabs (fval y)) by (assert (0 < (1 - ex d) * Rabs w) by (apply Rmult_lt_0_compat; lra); lra).
  assert (Ny : fval y <> 0) by (intros Z; rewrite Z, Rabs_R0 in Py; lra).
  set (e := c + 101 / 100 * d). assert (Ce : cnt e) by (destruct Hc, Cx, Cy; unfold e; split; lra). assert (Se := ex_small e Ce).
  assert (P : Rabs (fval x / fval y - v / w) <= ex e * Rabs (v / w)).
  { replace (fval x / fval y - v / w) with (((fval x - v) * w - v * (fval y - w)) / (fval y * w)) by (field; split; assumption).
    unfold Rdiv. rewrite !Rabs_mult, !Rabs_Rinv, Rabs_mult by (try (apply Rmult_integral_contrapositive; split); assumption).
    apply Rmult_le_reg_r with (Rabs (fval y) * Rabs w); [apply Rmult_lt_0_compat; assumption|]. rewrite Rmult_assoc, Rinv_l, Rmult_1_r by (apply Rgt_not_eq, Rmult_lt_0_compat; assumption).
    replace (ex e * (Rabs v * / Rabs w) * (Rabs (fval y) * Rabs w)) with (ex e * Rabs v * Rabs (fval y)) by (field; lra).
    apply Rle_trans with ((ex c + ex d) * (Rabs v * Rabs w)).
    - replace ((fval x - v) * w - v * (fval y - w)) with ((fval x - v) * w + - (v * (fval y - w))) by ring. eapply Rle_trans; [apply Rabs_triang|]. rewrite Rabs_Ropp, !Rabs_mult.
      assert (Rabs (fval x - v) * Rabs w <= ex c * Rabs v * Rabs w) by (apply Rmult_le_compat_r; lra). assert (Rabs v * Rabs (fval y - w) <= Rabs v * (ex d * Rabs w)) by (apply Rmult_le_compat_l; lra). lra.
    - apply Rle_trans with (ex e * Rabs v * ((1 - ex d) * Rabs w)); [|apply Rmult_le_compat_l; [apply Rmult_le_pos; lra|exact Wl]].
      replace (ex e * Rabs v * ((1 - ex d) * Rabs w)) with (ex e * (1 - ex d) * (Rabs v * Rabs w)) by ring. apply Rmult_le_compat_r; [apply Rmult_le_pos; lra|].
      unfold e. rewrite ex_plus. set (i := ex (101 / 100 * d)) in *. set (a := ex c) in *. set (b := ex d) in *. assert ((1 + a) * 1 <= (1 + a) * ((1 + i) * (1 - b))) by (apply Rmult_le_compat_l; lra). nra. }
  set (z := fval x / fval y) in *. set (m := v / w) in *. 
  assert (Zb : Rabs z <= (1 + ex e) * Rabs m). { replace z with ((z - m) + m) by ring. eapply Rle_trans; [apply Rabs_triang|]. lra. }
  assert (M0 := bpow_gt_0 radix2 (-1000)).
  assert (O : no_overflow z). { apply no_overflow_small. eapply Rle_trans; [exact Zb|]. change 1023%Z with (3 + 1020)%Z. rewrite bpow_plus. change (bpow radix2 3) with 8. apply Rmult_le_compat; lra. }
  destruct (div_finite be x y Fx Ny O) as [F1 E1]. split; [exact F1|]. split; [intros Z; fold m in Z; rewrite Z, Rabs_R0 in Hs; lra|]. split; [|exact Hc]. fold e. fold m. rewrite E1. fold z.
  assert (R := rnd_err z). assert (Et : eta <= uro / 100 * Rabs m).
  { unfold eta. apply Rle_trans with (bpow radix2 (-53) / 100 * bpow radix2 (-1000)); [|apply Rmult_le_compat; [assert (Y := bpow_ge_0 radix2 (-53)); lra|apply bpow_ge_0|unfold uro; lra|lra]].
    apply Rle_trans with (bpow radix2 (-60) * bpow radix2 (-1000)); [rewrite <- bpow_plus; apply bpow_le; lia|]. apply Rmult_le_compat_r; [apply bpow_ge_0|]. simpl. lra. }
  replace (rnd z - m) with ((rnd z - z) + (z - m)) by ring. eapply Rle_trans; [apply Rabs_triang|]. rewrite ex_plus. assert (L := ex_lo (101 / 100) ltac:(lra)).
  assert (uro * Rabs z <= uro * ((1 + ex e) * Rabs m)) by (apply Rmult_le_compat_l; lra).
  assert (101 / 100 * uro * ((1 + ex e) * Rabs m) <= ex (101 / 100) * ((1 + ex e) * Rabs m)) by (apply Rmult_le_compat_r; [apply Rmult_le_pos; lra|exact L]).
  assert (0 <= uro * ex e * Rabs m) by (apply Rmult_le_pos; [apply Rmult_le_pos; lra|lra]). lra.
Qed.

(** from counts to logarithms and back *)
Lemma relx_log : forall x v c, relx x v c -> 0 < fval x /\ Rabs (ln (fval x) - ln v) <= 1002 / 1000 * (c * uro).
Proof.
  intros x v c (F & P & E & C). assert (S := ex_small c C). assert (H := ex_hi c C). destruct (ln_close v (fval x) (ex c)) as [P1 L]; try assumption; [lra|]. split; [exact P1|].
  eapply Rle_trans; [exact L|]. assert (0 <= c * uro) by (apply Rmult_le_pos; [apply C|left; apply uro_pos]). nra.
Qed.
End F.
