(** The scale factor of the Jacobi rules in double arithmetic. *)
From Coq Require Import Reals ZArith List Lra Lia Psatz.
From Coquelicot Require Import Rcomplements.
From Flocq Require Import Core Relative IEEE754.Binary.
From Verif Require Import Arith RInst RInstProof F64 F64Spec F64Proof RoundSpec RoundProof RoundRules AccF64 AccCount LegBigPoly LegBigFloat Gamma GammaProof
  WeightSpec GammaTrue GamRatio GamAcc GamNum GamReflect GamAll ChebFloat GamFloatSpec GamFloat GamFloatArg GamFloatScale Laguerre Jacobi.
Local Open Scope R_scope.

Lemma log_bounds : forall a b d, 0 < a -> 0 < b -> Rabs (ln a - ln b) <= d -> d <= 1 / 100 -> (1 - 2 * d) * b <= a <= (1 + 2 * d) * b.
Proof.
  intros a b d Ha Hb H Hd. assert (H0 := Rabs_pos (ln a - ln b)). assert (R := log_rel a b d Ha Hb H Hd). apply Rabs_le_inv in R.
  assert (0 <= d * b) by (apply Rmult_le_pos; lra). assert (d * (1 + 2 * d) * b <= 2 * (d * b)) by (replace (d * (1 + 2 * d) * b) with ((1 + 2 * d) * (d * b)) by ring; apply Rmult_le_compat_r; lra). lra.
Qed.
Lemma pow_161 : 50 * 66 ^ 161 <= bpow radix2 980.
Proof. rewrite pow_IZR, <- mult_IZR. rewrite <- IZR_Zpower by lia. apply IZR_le. vm_compute. discriminate. Qed.
Lemma gamma_size : forall y, / 2 <= y <= 161 -> @gamma RA y <= bpow radix2 980.
Proof.
  intros y Hy. rewrite gamma_hi by lra. assert (LA := lanczos_above y ltac:(lra)). assert (LB := lanczos_below y ltac:(lra)). assert (LS := lanczos_abs_size y ltac:(lra)). assert (Gc : gamma_c = 18603827342052657 / 10000000000000000) by reflexivity.
  assert (Iy : 0 < / y <= 2). { split; [apply Rinv_0_lt_compat; lra|]. replace 2 with (/ / 2) by lra. apply Rinv_le_contravar; lra. }
  assert (LT : lanczos y <= 266 / 10) by (unfold Rdiv in LS; lra). destruct (ln_base (y - / 2) ltac:(lra)) as [B1 _].
  eapply Rle_trans; [|exact pow_161]. assert (0 < Rpower ((y - / 2 + gamma_g) / exp 1) (y - / 2)) by apply exp_pos.
  apply Rmult_le_compat; try lra; [nra|nra|].
  rewrite <- Rpower_pow by lra. apply Rle_trans with (Rpower ((y - / 2 + gamma_g) / exp 1) (INR 161)).
  - apply Rle_Rpower; [lra|]. rewrite INR_IZR_INZ. change (Z.of_nat 161) with 161%Z. lra.
  - apply Rle_Rpower_l; [rewrite INR_IZR_INZ; change (Z.of_nat 161) with 161%Z; lra|lra].
Qed.
(** The size of gamma between -3/4 and 161, away from its pole *)
Lemma shift_size : forall s, - (3 / 4) <= s <= 161 -> / 10 ^ 19 <= Rabs s ->
  49 / 100 <= @gamma RA s * s /\ Rabs (@gamma RA s) <= bpow radix2 980.
Proof.
  intros s Hs H0. assert (P0 : 0 < / 10 ^ 19) by (apply Rinv_0_lt_compat; lra). assert (Ns : s <> 0) by (intros ->; rewrite Rabs_R0 in H0; lra).
  destruct (log_shift s ltac:(lra) Ns) as [P L]. assert (GH := Gam_half (s + 1) ltac:(lra)). assert (B := log_bounds _ _ _ P (Gam_pos (s + 1) ltac:(lra)) L ltac:(lra)).
  split; [nra|]. destruct (Rlt_or_le s (/ 2)) as [Q|Q].
  - assert (GU : Gam (s + 1) <= 4 * exp (62 / 10)).
    { assert (E : (s + 1) * Gam (s + 1) = Gam (s + 1 + 1)) by (rewrite <- Gam_S by lra; reflexivity).
      assert (U : Gam (s + 1 + 1) <= exp (62 / 10)).
      { assert (P2 := Gam_pos (s + 1 + 1) ltac:(lra)). rewrite <- (exp_ln _ P2). destruct (Rle_or_lt 0 s) as [H|H].
        - assert (X := gam_up (1 + 1) s ltac:(lra) ltac:(lra)). rewrite (Gam_S 1), Gam_1 in X by lra. replace (1 * 1) with 1 in X by ring. rewrite ln_1 in X. apply Rabs_le_inv in X. replace (1 + 1 + s) with (s + 1 + 1) in X by ring.
          destruct (Rle_lt_or_eq_dec (ln (Gam (s + 1 + 1))) (62 / 10) ltac:(lra)) as [Y|Y]; [left; apply exp_increasing, Y|rewrite Y; lra].
        - assert (X := gam_up 1 (s + 1) ltac:(lra) ltac:(lra)). rewrite Gam_1, ln_1 in X. apply Rabs_le_inv in X. replace (1 + (s + 1)) with (s + 1 + 1) in X by ring.
          destruct (Rle_lt_or_eq_dec (ln (Gam (s + 1 + 1))) (62 / 10) ltac:(lra)) as [Y|Y]; [left; apply exp_increasing, Y|rewrite Y; lra]. }
      assert (/ 4 * Gam (s + 1) <= (s + 1) * Gam (s + 1)) by (apply Rmult_le_compat_r; lra). lra. }
    assert (EE : exp (62 / 10) <= 3 ^ 7).
    { apply Rle_trans with (exp 7); [left; apply exp_increasing; lra|]. replace 7 with (INR 7 * 1) by (simpl; lra). rewrite <- (ln_exp 1) at 1. fold (Rpower (exp 1) (INR 7)). rewrite Rpower_pow by apply exp_pos. apply pow_incr. split; [left; apply exp_pos|apply exp_le_3]. }
    apply Rle_trans with (10 ^ 4 * 10 ^ 19).
    + apply Rmult_le_reg_r with (/ 10 ^ 19); [exact P0|]. rewrite Rmult_assoc, Rinv_r, Rmult_1_r by lra. apply Rle_trans with (Rabs (@gamma RA s) * Rabs s); [apply Rmult_le_compat_l; [apply Rabs_pos|exact H0]|].
      rewrite <- Rabs_mult. change (Rabs (@gamma RA s * s) <= 10 ^ 4). rewrite Rabs_pos_eq by lra. nra.
    + apply Rle_trans with (bpow radix2 80); [simpl; lra|apply bpow_le; lia].
  - rewrite Rabs_pos_eq by (left; apply gamma_pos; lra). apply gamma_size. lra.
Qed.

Section F.
Variable be : Backend.
Notation A := (F64 be).
Variable kappa : R.
Hypothesis HM : accurate_math be kappa.
Let K : R := kappa / uro.

Lemma two_val : ffin (lit2 : A) /\ fval (lit2 : A) = 2. Proof. exact (lit_int_exact 2 ltac:(lia)). Qed.
Lemma relz_self : forall x : A, ffin x -> fval x <> 0 -> relz x (fval x) 0.
Proof. intros x F N. split; [exact F|]. split; [exact N|]. split; [|split; lra]. replace (fval x - fval x) with 0 by ring. rewrite Rabs_R0. unfold ex. rewrite Rmult_0_l, exp_0. lra. Qed.
Lemma ab_one : forall al bt : A, ffin al -> ffin bt -> -1 < fval al -> -1 < fval bt -> fval al + fval bt + 1 <= 160 ->
  ffin (nadd (nadd al bt) lit1 : A) /\ Rabs (fval (nadd (nadd al bt) lit1 : A) - (fval al + fval bt + 1)) <= uro * (202 / 100 * Rabs (fval al + fval bt + 1) + 102 / 100).
Proof.
  intros al bt Fa Fb Ha Hb Hs. assert (U := uro_num). set (s := fval al + fval bt + 1) in *. assert (B9 : bpow radix2 9 <= bpow radix2 1023) by (apply bpow_le; lia). change (bpow radix2 9) with 512 in B9.
  destruct (add_finite be al bt Fa Fb) as [F1 E1]. { apply no_overflow_small. apply Rabs_le. unfold s in Hs. lra. }
  assert (R1 := rnd_add_err (fval al) (fval bt) (fval_format al) (fval_format bt)). rewrite <- E1 in R1. set (t := nadd al bt : A) in *. 
  replace (fval al + fval bt) with (s - 1) in R1 by (unfold s; ring). assert (T1 := Rabs_triang s (-1)). rewrite (Rabs_left (-1)) in T1 by lra. change (s + -1) with (s - 1) in T1.
  assert (D1 : Rabs (fval t - (s - 1)) <= uro * (Rabs s + 1)). { eapply Rle_trans; [exact R1|]. apply Rmult_le_compat_l; lra. }
  assert (As : Rabs s <= 160) by (apply Rabs_le; unfold s in *; lra). assert (S0 := Rabs_pos s).
  assert (D2 : uro * (Rabs s + 1) <= 161 / 10 ^ 15) by (rewrite uro_eq; lra). assert (D3 := Rabs_le_inv _ _ (Rle_trans _ _ _ D1 D2)). assert (As2 := Rabs_le_inv _ _ As).
  destruct (lit_int_exact 1 ltac:(lia)) as [F2 E2]. change (f64_lit 1 0) with (lit1 : A) in F2, E2.
  destruct (add_finite be t lit1 F1 F2) as [F3 E3]. { apply no_overflow_small. rewrite E2. apply Rabs_le. lra. }
  split; [exact F3|]. assert (R2 := rnd_add_err (fval t) (fval (lit1 : A)) (fval_format t) (fval_format (lit1 : A))). rewrite <- E3 in R2. rewrite E2 in R2.
  assert (T2 : Rabs (fval t + 1) <= Rabs s + uro * (Rabs s + 1)). { replace (fval t + 1) with (s + (fval t - (s - 1))) by ring. eapply Rle_trans; [apply Rabs_triang|]. lra. }
  replace (fval (nadd t lit1 : A) - s) with ((fval (nadd t lit1 : A) - (fval t + 1)) + (fval t - (s - 1))) by ring. eapply Rle_trans; [apply Rabs_triang|].
  assert (uro * Rabs (fval t + 1) <= uro * (Rabs s + uro * (Rabs s + 1))) by (apply Rmult_le_compat_l; lra).
  assert (uro * (uro * (Rabs s + 1)) <= uro * (1 / 100 * (Rabs s + 1))) by (apply Rmult_le_compat_l; [lra|]; apply Rmult_le_compat_r; lra).
  assert (0 <= uro * Rabs s) by (apply Rmult_le_pos; lra). lra.
Qed.
Lemma two_relx : forall z : A, ffin z -> - (3 / 4) <= fval z <= 161 -> relx (npow lit2 z : A) (Rpower 2 (fval z)) (1 + K) /\ 1 / 2 <= Rpower 2 (fval z).
Proof.
  intros z Fz Hz. destruct two_val as [F2 E2]. destruct (MK_range be kappa HM) as [[K0 K1] KE]. fold K in K0, K1, KE.
  assert (P1 : 1 / 2 <= Rpower 2 (fval z)). { replace (1 / 2) with (Rpower 2 (- (1))) by (rewrite Rpower_Ropp, Rpower_1; lra). apply Rle_Rpower; lra. }
  destruct (proj2 (proj2 HM) (lit2 : A) z F2 Fz ltac:(rewrite E2; lra)) as [F E].
  { rewrite E2. split; [apply Rle_trans with (bpow radix2 (-1)); [apply bpow_le; lia|simpl; lra]|]. apply Rle_trans with (bpow radix2 161); [|apply bpow_le; lia].
    rewrite bpow_powerRZ. simpl IZR. change 161%Z with (Z.of_nat 161). rewrite <- pow_powerRZ, <- Rpower_pow by lra. apply Rle_Rpower; [lra|]. rewrite INR_IZR_INZ. change (Z.of_nat 161) with 161%Z. lra. }
  rewrite E2 in E. split; [|exact P1]. split; [exact F|]. split; [lra|]. split; [|split; lra]. eapply Rle_trans; [exact E|]. apply Rmult_le_compat_r; [lra|].
  assert (L := ex_lo (1 + K) ltac:(lra)). assert (U := uro_num). lra.
Qed.

Lemma count_num : forall k u, 0 <= k -> 0 <= u -> 1002 / 1000 * ((1 + k + (86200 + 21 / 10 * k) + 101 / 100 + (86200 + 21 / 10 * k) + 101 / 100 + 101 / 100 * (86200 + 21 / 10 * k) + 101 / 100 + 101 / 100 * 0 + 101 / 100) * u) <=
  1002 / 1000 * (259500 * u + 7373 / 1000 * (k * u)).
Proof. intros k u Hk Hu. assert (0 <= k * u) by (apply Rmult_le_pos; assumption). lra. Qed.
Lemma total_num : forall a b c d e k, a <= 1002 / 1000 * (259500 * uro + 7373 / 1000 * k) -> b <= 37 / 10 ^ 15 -> c <= 2395 / 10 ^ 16 -> d <= 2395 / 10 ^ 16 -> e <= 48 / 10 ^ 14 -> 0 <= k ->
  a + b + c + d + e <= 303 / 10 ^ 13 + 7389 / 1000 * k.
Proof. intros a b c d e k. rewrite uro_eq. intros. lra. Qed.
Lemma last_num : forall k, 0 <= k <= 1 / 10 ^ 6 -> (303 / 10 ^ 13 + 7389 / 1000 * k) * (1 + 2 * (303 / 10 ^ 13 + 7389 / 1000 * k)) <= 31 / 10 ^ 12 + 74 / 10 * k.
Proof. intros k H. assert (0 <= k * k <= 1 / 10 ^ 6 * k) by (split; [apply Rmult_le_pos|apply Rmult_le_compat_r]; lra). lra. Qed.
Lemma jac_scale : forall (al bt : A) M, ffin al -> ffin bt -> / 10 ^ 18 <= fval al + 1 -> / 10 ^ 18 <= fval bt + 1 ->
  - (7 / 10) <= fval al + fval bt + 1 <= 160 -> / 10 ^ 15 <= Rabs (fval al + fval bt + 1) ->
  Rpower 2 (fval al + fval bt + 1) * Gam (fval al + 1) * Gam (fval bt + 1) <= bpow radix2 990 ->
  jacobi_integral (fval al) (fval bt) (fun _ => 1) M ->
  ffin (jacobi_scale al bt : A) /\ 0 < M /\ Rabs (fval (jacobi_scale al bt : A) - M) <= (31 / 10 ^ 12 + 74 / 10 * kappa) * M.
Proof.
  intros al bt M Fa Fb Ha Hb Hs H0 Hbig HI. assert (P18 : 0 < / 10 ^ 18) by (apply Rinv_0_lt_compat; lra). assert (P15 : 0 < / 10 ^ 15) by (apply Rinv_0_lt_compat; lra). assert (P19 : 0 < / 10 ^ 19) by (apply Rinv_0_lt_compat; lra).
  destruct (true_mass_ln (fval al) (fval bt) M ltac:(lra) ltac:(lra) HI) as [PM EM]. set (s := fval al + fval bt + 1) in *.
  replace (fval al + fval bt + 2) with (s + 1) in EM by (unfold s; ring).
  assert (k := kap be kappa HM). destruct (MK_range be kappa HM) as [[K0 K1] KE]. fold K in K0, K1, KE. assert (U := uro_num).
  destruct (ab_one al bt Fa Fb ltac:(lra) ltac:(lra) ltac:(fold s; lra)) as [Fs Ds]. fold s in Ds. set (sf := nadd (nadd al bt) lit1 : A) in *.
  assert (Ua : Rabs s <= 160) by (apply Rabs_le; lra).
  assert (D0 : uro * (202 / 100 * Rabs s + 102 / 100) <= 37 / 10 ^ 15) by (rewrite uro_eq; lra). assert (S0 := Rabs_pos s).
  assert (Ds1 := Rabs_le_inv _ _ (Rle_trans _ _ _ Ds D0)).
  assert (Low : / 10 ^ 19 <= Rabs (fval sf)).
  { assert (T := Rabs_triang_inv s (s - fval sf)). replace (s - (s - fval sf)) with (fval sf) in T by ring. rewrite (Rabs_minus_sym s (fval sf)) in T.
    assert (uro * (202 / 100 * Rabs s + 102 / 100) <= 3 / 10 ^ 16 * Rabs s + 12 / 10 ^ 17) by (rewrite uro_eq; lra). assert (/ 10 ^ 15 = 10000 * / 10 ^ 19) by field. replace (12 / 10 ^ 17) with (1200 * / 10 ^ 19) in * by field. lra. }
  assert (Nsf : fval sf <> 0) by (intros Z; rewrite Z, Rabs_R0 in Low; lra).
  (* the factors *)
  destruct (two_relx sf Fs ltac:(lra)) as [Rp Pp]. set (p := Rpower 2 (fval sf)) in *.
  assert (A1 : fval al + 1 <= 1689 / 10) by (unfold s in Hs; lra). assert (B1 : fval bt + 1 <= 1689 / 10) by (unfold s in Hs; lra).
  destruct (gamma_plus_one be al Fa (conj Ha A1)) as (F1 & I1 & L1). destruct (gamma_plus_one be bt Fb (conj Hb B1)) as (F2 & I2 & L2).
  set (xa := nadd al lit1 : A) in *. set (xb := nadd bt lit1 : A) in *.
  assert (Qa := gamma_relz be kappa HM xa F1 ltac:(rewrite Rabs_pos_eq; lra) ltac:(lra)). assert (Qb := gamma_relz be kappa HM xb F2 ltac:(rewrite Rabs_pos_eq; lra) ltac:(lra)). fold K in Qa, Qb.
  assert (PA := gamma_pos (fval xa) ltac:(lra)). assert (PB := gamma_pos (fval xb) ltac:(lra)). apply relz_pos in Qa; [|exact PA]. apply relz_pos in Qb; [|exact PB].
  assert (La := log_all (fval xa) ltac:(lra)). assert (Lb := log_all (fval xb) ltac:(lra)).
  assert (Qg := gamma_relz be kappa HM sf Fs Low ltac:(lra)). fold K in Qg. destruct (log_shift (fval sf) ltac:(lra) Nsf) as [PG LG]. destruct (shift_size (fval sf) ltac:(lra) Low) as [SG1 SG2].
  set (ga := @gamma RA (fval xa)) in *. set (gb := @gamma RA (fval xb)) in *. set (gs := @gamma RA (fval sf)) in *. set (GA := Gam (fval al + 1)) in *. set (GB := Gam (fval bt + 1)) in *.
  assert (HA := Gam_half (fval al + 1) ltac:(lra)). assert (HB := Gam_half (fval bt + 1) ltac:(lra)). fold GA in HA. fold GB in HB.
  assert (Ea : Rabs (ln ga - ln GA) <= 2395 / 10 ^ 16). { replace (ln ga - ln GA) with ((ln ga - ln (Gam (fval xa))) + (ln (Gam (fval xa)) - ln GA)) by ring. eapply Rle_trans; [apply Rabs_triang|]. lra. }
  assert (Eb : Rabs (ln gb - ln GB) <= 2395 / 10 ^ 16). { replace (ln gb - ln GB) with ((ln gb - ln (Gam (fval xb))) + (ln (Gam (fval xb)) - ln GB)) by ring. eapply Rle_trans; [apply Rabs_triang|]. lra. }
  assert (l2 : 0 < ln 2 <= 1). { split; [rewrite <- ln_1; apply ln_increasing; lra|]. assert (X := ln_slope 2 1 ltac:(lra) ltac:(lra)). rewrite ln_1 in X. lra. }
  assert (Ep : Rabs (ln p - s * ln 2) <= 37 / 10 ^ 15).
  { unfold p, Rpower. rewrite ln_exp. replace (fval sf * ln 2 - s * ln 2) with ((fval sf - s) * ln 2) by ring. rewrite Rabs_mult, (Rabs_pos_eq (ln 2)) by lra.
    apply Rle_trans with (37 / 10 ^ 15 * 1); [apply Rmult_le_compat; try apply Rabs_pos; lra|lra]. }
  assert (Eg : Rabs (ln (gs * fval sf) - ln (Gam (s + 1))) <= 48 / 10 ^ 14).
  { destruct (gam_shift (s + 1) (fval sf + 1) (uro * (202 / 100 * Rabs s + 102 / 100)) ltac:(lra)) as [_ L3].
    - replace (fval sf + 1 - (s + 1)) with (fval sf - s) by ring. exact Ds.
    - lra.
    - assert (IS : / (s + 1) <= 10 / 3). { replace (10 / 3) with (/ (3 / 10)) by lra. apply Rinv_le_contravar; lra. } assert (0 < / (s + 1)) by (apply Rinv_0_lt_compat; lra).
      assert (L4 : Rabs (ln (Gam (fval sf + 1)) - ln (Gam (s + 1))) <= 37 / 10 ^ 15 * (62 / 10 + 1002 / 1000 * (10 / 3))).
      { eapply Rle_trans; [exact L3|]. unfold Rdiv at 5. apply Rmult_le_compat; try lra. apply Rmult_le_pos; lra. }
      replace (ln (gs * fval sf) - ln (Gam (s + 1))) with ((ln (gs * fval sf) - ln (Gam (fval sf + 1))) + (ln (Gam (fval sf + 1)) - ln (Gam (s + 1)))) by ring. eapply Rle_trans; [apply Rabs_triang|]. lra. }
  (* sizes *)
  assert (PA0 : 0 < GA) by lra. assert (PB0 : 0 < GB) by lra. assert (Ba := log_bounds _ _ _ PA PA0 Ea ltac:(lra)). assert (Bb := log_bounds _ _ _ PB PB0 Eb ltac:(lra)).
  assert (Pt : 0 < Rpower 2 s) by apply exp_pos.
  assert (Bp : p <= 11 / 10 * Rpower 2 s). { assert (X := log_bounds p (Rpower 2 s) (37 / 10 ^ 15) ltac:(lra) Pt). unfold Rpower at 1 in X. rewrite ln_exp in X. specialize (X Ep ltac:(lra)). lra. }
  set (T := Rpower 2 s) in *. clearbody T.
  assert (Ba2 : 49 / 100 <= ga <= 11 / 10 * GA) by lra. assert (Bb2 : 49 / 100 <= gb <= 11 / 10 * GB) by lra.
  assert (M990 := bpow_gt_0 radix2 990). assert (TA : 0 < T * GA) by (apply Rmult_lt_0_compat; lra).
  assert (TA2 : T * GA <= 2 * bpow radix2 990). { assert (T * GA * / 2 <= T * GA * GB) by (apply Rmult_le_compat_l; lra). lra. }
  assert (S1 : 24 / 100 <= p * ga <= 121 / 100 * (T * GA)). { split; [apply Rle_trans with (1 / 2 * (49 / 100)); [lra|apply Rmult_le_compat; lra]|]. replace (121 / 100 * (T * GA)) with ((11 / 10 * T) * (11 / 10 * GA)) by field. apply Rmult_le_compat; lra. }
  assert (S2 : 11 / 100 <= p * ga * gb <= 134 / 100 * (T * GA * GB)). { split; [apply Rle_trans with (24 / 100 * (49 / 100)); [lra|apply Rmult_le_compat; lra]|]. apply Rle_trans with ((121 / 100 * (T * GA)) * (11 / 10 * GB)); [apply Rmult_le_compat; lra|]. assert (0 < T * GA * GB) by (apply Rmult_lt_0_compat; lra). lra. }
  assert (B0 : bpow radix2 (-1000) <= / 16). { apply Rle_trans with (bpow radix2 (-4)); [apply bpow_le; lia|simpl; lra]. }
  assert (B4 : 16 * bpow radix2 990 <= bpow radix2 1000). { change 16 with (bpow radix2 4). rewrite <- bpow_plus. apply bpow_le. lia. }
  assert (B5 : 1024 * bpow radix2 1000 <= bpow radix2 1020). { change 1024 with (bpow radix2 10). rewrite <- bpow_plus. apply bpow_le. lia. }
  assert (B6 : bpow radix2 1020 <= bpow radix2 1022) by (apply bpow_le; lia).
  assert (M1 := relx_mul be _ _ _ _ _ _ Rp Qa ltac:(split; lra) ltac:(split; lra)).
  assert (M2 := relx_mul be _ _ _ _ _ _ M1 Qb ltac:(split; lra) ltac:(split; lra)).
  set (q := p * ga * gb) in *. assert (Pq : 0 < q) by lra.
  assert (G0 : 0 < Rabs gs). { apply Rabs_pos_lt. intros Z. rewrite Z, Rmult_0_l in SG1. lra. }
  assert (Ngs : gs <> 0) by (intros Z; rewrite Z, Rabs_R0 in G0; lra).
  assert (AS : Rabs gs * Rabs (fval sf) = gs * fval sf) by (rewrite <- Rabs_mult; apply Rabs_pos_eq; change (0 <= gs * fval sf); lra).
  assert (Usf : Rabs (fval sf) <= 161) by (apply Rabs_le; lra).
  assert (S3 : bpow radix2 (-984) <= Rabs (q / gs) <= bpow radix2 1010).
  { unfold Rdiv. rewrite Rabs_mult, Rabs_inv, (Rabs_pos_eq q) by lra. split; apply Rmult_le_reg_r with (Rabs gs); try exact G0; rewrite Rmult_assoc, Rinv_l, Rmult_1_r by lra.
    - apply Rle_trans with (bpow radix2 (-984) * bpow radix2 980); [apply Rmult_le_compat_l; [apply bpow_ge_0|exact SG2]|]. rewrite <- bpow_plus. simpl. lra.
    - assert (GL : / 512 <= Rabs gs) by (assert (Rabs gs * Rabs (fval sf) <= Rabs gs * 161) by (apply Rmult_le_compat_l; [left; exact G0|exact Usf]); lra). apply Rle_trans with (bpow radix2 1010 * / 512); [|apply Rmult_le_compat_l; [apply bpow_ge_0|exact GL]].
      replace (bpow radix2 1010) with (512 * bpow radix2 1001) by (change 512 with (bpow radix2 9); rewrite <- bpow_plus; reflexivity). assert (bpow radix2 1000 <= bpow radix2 1001) by (apply bpow_le; lia). lra. }
  assert (W1 : bpow radix2 (-1000) <= bpow radix2 (-984)) by (apply bpow_le; lia). assert (W2 : bpow radix2 1010 <= bpow radix2 1020) by (apply bpow_le; lia).
  assert (M3 := relz_div be _ _ _ _ _ _ (relz_x _ _ _ M2) Qg ltac:(split; lra) ltac:(split; lra)).
  assert (EQ : q / gs / fval sf = q / (gs * fval sf)) by (field; split; assumption).
  assert (S4 : bpow radix2 (-1000) <= Rabs (q / gs / fval sf) <= bpow radix2 1020).
  { split.
    - unfold Rdiv at 1. rewrite Rabs_mult, Rabs_inv. apply Rmult_le_reg_r with (Rabs (fval sf)); [lra|]. rewrite Rmult_assoc, Rinv_l, Rmult_1_r by lra.
      apply Rle_trans with (bpow radix2 (-1000) * 161); [apply Rmult_le_compat_l; [apply bpow_ge_0|exact Usf]|]. apply Rle_trans with (bpow radix2 (-1000) * bpow radix2 8); [apply Rmult_le_compat_l; [apply bpow_ge_0|simpl; lra]|]. rewrite <- bpow_plus. eapply Rle_trans; [|apply S3]. apply bpow_le. lia.
    - rewrite EQ. assert (0 < q / (gs * fval sf)) by (apply Rdiv_lt_0_compat; assumption). rewrite Rabs_pos_eq by lra. apply Rmult_le_reg_r with (gs * fval sf); [exact PG|]. unfold Rdiv. rewrite Rmult_assoc, Rinv_l, Rmult_1_r by lra.
      apply Rle_trans with (bpow radix2 1020 * (49 / 100)); [|apply Rmult_le_compat_l; [apply bpow_ge_0|exact SG1]]. lra. }
  assert (M4 := relz_div be _ _ _ _ _ _ M3 (relz_self sf Fs Nsf) S4 ltac:(split; lra)).
  assert (Pr : 0 < q / gs / fval sf) by (rewrite EQ; apply Rdiv_lt_0_compat; assumption).
  apply relz_pos in M4; [|exact Pr]. split; [exact (proj1 M4)|]. split; [exact PM|].
  destruct (relx_log _ _ _ M4) as [PJ LJ].
  change (ndiv (ndiv (nmul (nmul (npow lit2 sf) (gamma xa)) (gamma xb)) (gamma sf)) sf : A) with (jacobi_scale al bt : A) in PJ, LJ.
  assert (EL : ln (q / gs / fval sf) = ln p + ln ga + ln gb - ln (gs * fval sf)).
  { rewrite EQ, ln_div by assumption. unfold q. rewrite !ln_mult by lra. ring. }
  apply Rle_trans with ((303 / 10 ^ 13 + 7389 / 1000 * kappa) * (1 + 2 * (303 / 10 ^ 13 + 7389 / 1000 * kappa)) * M).
  - apply log_rel; [exact PJ|exact PM| |lra]. rewrite EM.
    replace (ln (fval (jacobi_scale al bt : A)) - (s * ln 2 + ln GA + ln GB - ln (Gam (s + 1)))) with
      ((ln (fval (jacobi_scale al bt : A)) - ln (q / gs / fval sf)) + (ln p - s * ln 2) + (ln ga - ln GA) + (ln gb - ln GB) + - (ln (gs * fval sf) - ln (Gam (s + 1)))) by (rewrite EL; ring).
    eapply Rle_trans; [apply Rabs_triang|]. rewrite Rabs_Ropp. eapply Rle_trans; [apply Rplus_le_compat_r, Rabs_triang|]. eapply Rle_trans; [apply Rplus_le_compat_r, Rplus_le_compat_r, Rabs_triang|].
    eapply Rle_trans; [apply Rplus_le_compat_r, Rplus_le_compat_r, Rplus_le_compat_r, Rabs_triang|].
    apply total_num; try assumption; [|apply k]. eapply Rle_trans; [exact LJ|]. rewrite KE. apply count_num; [exact K0|left; apply uro_pos].
  - apply Rmult_le_compat_r; [left; exact PM|]. apply last_num, k.
Qed.
End F.
