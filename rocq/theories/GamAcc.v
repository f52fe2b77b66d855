(** The distance between the library's gamma function and Euler's integral, for arguments from 1/2 on. *)
From Coq Require Import Reals Lra Lia List ZArith.
From Coquelicot Require Import Coquelicot.
From Verif Require Import Arith RInst RInstProof Gamma GammaProof WeightSpec GammaTrue GamPoly GamRatio GamPsi.
Import ListNotations.
Local Open Scope R_scope.

Definition zz (x : R) : R := x - / 2 + gamma_g.
Definition ww (x : R) : R := / (T * zz x).
Lemma gnum_eval : forall x, peval gnum x = lanczos_num x.
Proof. intros x. unfold gnum, lanczos_num. cbn [peval]. ring. Qed.
Lemma lanczos_num_pos : forall x, 0 < x -> 0 < lanczos_num x.
Proof. intros y Hy. unfold lanczos_num. repeat (apply Rplus_lt_0_compat; [lra|apply Rmult_lt_0_compat; [exact Hy|]]). lra. Qed.
Lemma lanczos_den_pos : forall x, 0 < x -> 0 < lanczos_den x.
Proof. intros y Hy. unfold lanczos_den. repeat (apply Rmult_lt_0_compat; try lra). Qed.
Lemma zz_pos : forall x, / 2 <= x -> 10 < zz x. Proof. intros. unfold zz, gamma_g. lra. Qed.
Lemma ww_T : forall x, / 2 <= x -> T * ww x = / zz x.
Proof. intros x Hx. unfold ww. rewrite T_val. assert (Z := zz_pos x Hx). field. lra. Qed.
Lemma ww_pos : forall x, / 2 <= x -> 0 < ww x <= wmax.
Proof.
  intros x Hx. assert (Z := zz_pos x Hx). unfold ww, wmax. rewrite T_val. split; [apply Rinv_0_lt_compat; lra|].
  apply Rinv_le_contravar; [lra|]. unfold zz, gamma_g. lra.
Qed.
Lemma ww_S : forall x, / 2 <= x -> ww (x + 1) = ww x / (1 + T * ww x).
Proof.
  intros x Hx. rewrite (ww_T x Hx). unfold ww. replace (zz (x + 1)) with (zz x + 1) by (unfold zz; ring).
  assert (Z := zz_pos x Hx). rewrite T_val. field. lra.
Qed.
Lemma lin_eval : forall x k c, / 2 <= x -> IZR c = (/ 2 - gamma_g + k) * T -> peval [1%Z; c] (ww x) = peval [0%Z; gT] (ww x) * (x + k).
Proof.
  intros x k c Hx Hc. cbn [peval]. assert (Z := zz_pos x Hx). rewrite Hc.
  assert (E := ww_T x Hx). replace (0 + ww x * (T + ww x * 0)) with (T * ww x) by ring.
  replace (1 + ww x * ((/ 2 - gamma_g + k) * T + ww x * 0)) with (1 + (/ 2 - gamma_g + k) * (T * ww x)) by ring.
  rewrite E. replace (x + k) with (zz x + / 2 - gamma_g + k) by (unfold zz; ring). field. lra.
Qed.
Lemma y_eval : forall x, / 2 <= x -> peval [0%Z; gT] (ww x) = / zz x.
Proof. intros x Hx. rewrite <- (ww_T x Hx). cbn [peval]. ring. Qed.
Lemma pA_eval : forall x, / 2 <= x -> peval pA (ww x) = / zz x ^ 10 * lanczos_num (x + 1).
Proof.
  intros x Hx. unfold pA. assert (Z := zz_pos x Hx). assert (Y := y_eval x Hx).
  rewrite (peval_hom _ _ gnum (ww x) (x + 1)).
  - rewrite gnum_eval, Y, <- Rinv_pow by lra. reflexivity.
  - rewrite Y. apply Rinv_neq_0_compat. lra.
  - apply lin_eval; [exact Hx|]. unfold gamma_g. rewrite T_val. unfold gC, gT. simpl Z.add. lra.
Qed.
Lemma pA0_eval : forall x, / 2 <= x -> peval pA0 (ww x) = / zz x ^ 10 * lanczos_num x.
Proof.
  intros x Hx. unfold pA0. assert (Z := zz_pos x Hx). assert (Y := y_eval x Hx).
  rewrite (peval_hom _ _ gnum (ww x) (x + 0)).
  - rewrite gnum_eval, Y, Rplus_0_r, <- Rinv_pow by lra. reflexivity.
  - rewrite Y. apply Rinv_neq_0_compat. lra.
  - apply lin_eval; [exact Hx|]. unfold gamma_g. rewrite T_val. unfold gC. lra.
Qed.
Lemma pB_eval : forall x, / 2 <= x -> peval pB (ww x) = / zz x ^ 11 * lanczos_num x * (x + 10).
Proof.
  intros x Hx. unfold pB. assert (Z := zz_pos x Hx). rewrite peval_mul, pA0_eval by exact Hx.
  rewrite (lin_eval x 10) by (try exact Hx; unfold gamma_g; rewrite T_val; unfold gC, gT; simpl Z.add; simpl Z.mul; lra).
  rewrite y_eval by exact Hx. simpl pow. field. lra.
Qed.
Lemma ln_gamma : forall x, / 2 <= x -> ln (@gamma RA x) = ln (lanczos x) + ln gamma_c + (x - / 2) * (ln (zz x) - 1).
Proof.
  intros x Hx. rewrite gamma_hi by exact Hx. assert (L := lanczos_pos x ltac:(lra)). assert (C := gamma_c_pos). assert (Z := zz_pos x Hx).
  assert (R := Rpower_gt0 ((x - / 2 + gamma_g) / exp 1) (x - / 2)).
  assert (LC : 0 < lanczos x * gamma_c) by (apply Rmult_lt_0_compat; assumption).
  rewrite (ln_mult _ _ LC R), (ln_mult _ _ L C). unfold Rpower. rewrite ln_exp. fold (zz x).
  rewrite ln_div, ln_exp by (try apply exp_pos; lra). reflexivity.
Qed.
Lemma ln_lanczos : forall x, 0 < x -> ln (lanczos x) = ln (lanczos_num x) - ln (lanczos_den x).
Proof. intros x Hx. rewrite lanczos_frac by exact Hx. apply ln_div; [apply lanczos_num_pos|apply lanczos_den_pos]; exact Hx. Qed.
Lemma den_S : forall x, lanczos_den (x + 1) * x = lanczos_den x * (x + 10).
Proof. intros x. unfold lanczos_den. ring. Qed.

(** the defect of the functional equation *)
Lemma psi_eq : forall x, / 2 <= x ->
  ln (@gamma RA (x + 1)) - ln (@gamma RA x) - ln x + (vcorr (ww x) - vcorr (ww (x + 1))) = psi (ww x).
Proof.
  intros x Hx. assert (Z := zz_pos x Hx). rewrite !ln_gamma by lra. rewrite !ln_lanczos by lra.
  unfold psi. rewrite <- ww_S by exact Hx. rewrite pA_eval, pB_eval, ww_T by exact Hx.
  replace (zz (x + 1)) with (zz x + 1) by (unfold zz; ring).
  assert (N1 := lanczos_num_pos (x + 1) ltac:(lra)). assert (N0 := lanczos_num_pos x ltac:(lra)).
  assert (D1 := lanczos_den_pos (x + 1) ltac:(lra)). assert (D0 := lanczos_den_pos x ltac:(lra)).
  assert (Ed := den_S x). apply (f_equal ln) in Ed. rewrite !ln_mult in Ed by lra.
  assert (Zp : forall n, 0 < / zz x ^ n) by (intros n; apply Rinv_0_lt_compat, pow_lt; lra).
  assert (Lz : forall n, ln (/ zz x ^ n) = - (INR n * ln (zz x))).
  { intros n. rewrite ln_Rinv by (apply pow_lt; lra). f_equal. induction n as [|n IH]; [simpl; rewrite ln_1; ring|].
    change (zz x ^ S n) with (zz x * zz x ^ n). rewrite ln_mult, IH, S_INR by (try apply pow_lt; lra). ring. }
  assert (P1 := Rmult_lt_0_compat _ _ (Zp 11%nat) N0).
  rewrite (ln_mult _ _ P1) by lra. rewrite (ln_mult _ _ (Zp 11%nat) N0), (ln_mult _ _ (Zp 10%nat) N1), !Lz.
  replace (INR 11) with 11 by (simpl; lra). replace (INR 10) with 10 by (simpl; lra).
  replace (1 + / zz x) with ((zz x + 1) / zz x) by (field; lra). rewrite ln_div by lra.
  rewrite Rinv_inv. replace (x + 1 - / 2) with (zz x + (1 - gamma_g)) by (unfold zz; lra). replace (x - / 2) with (zz x - gamma_g) by (unfold zz; lra).
  match goal with |- ?a = ?b => enough (a - b = 0) by lra end.
  match goal with |- ?a = 0 => replace a with (ln (lanczos_den x) + ln (x + 10) - (ln (lanczos_den (x + 1)) + ln x)) by ring end.
  rewrite Ed. ring.
Qed.

Definition err (x : R) : R := ln (@gamma RA x) - ln (Gam x) - vcorr (ww x).
Lemma err_S : forall x, / 2 <= x -> err (x + 1) - err x = psi (ww x).
Proof.
  intros x Hx. unfold err. rewrite <- psi_eq by exact Hx. rewrite Gam_S by lra.
  rewrite ln_mult by (try apply Gam_pos; lra). ring.
Qed.
Definition kap : R := 28 / 10 ^ 15.
Lemma err_step : forall x, / 2 <= x -> Rabs (err (x + 1) - err x) <= kap / zz x ^ 2.
Proof.
  intros x Hx. rewrite err_S by exact Hx. eapply Rle_trans; [apply psi_bound, ww_pos, Hx|].
  right. unfold ww, kap. rewrite T_val. assert (Z := zz_pos x Hx). field. lra.
Qed.
Lemma err_far : forall n x, / 2 <= x -> Rabs (err (x + INR n) - err x) <= kap * (/ (zz x - 1) - / (zz x + INR n - 1)).
Proof.
  induction n as [|n IH]; intros x Hx; assert (Z := zz_pos x Hx).
  - simpl INR. rewrite !Rplus_0_r, Rminus_diag_eq, Rabs_R0, Rminus_diag_eq by reflexivity. lra.
  - rewrite S_INR. assert (Pn := pos_INR n). replace (err (x + (INR n + 1)) - err x) with ((err (x + INR n + 1) - err (x + INR n)) + (err (x + INR n) - err x)) by (rewrite Rplus_assoc; ring).
    eapply Rle_trans; [apply Rabs_triang|]. 
    assert (A := err_step (x + INR n) ltac:(lra)). specialize (IH x Hx).
    assert (E : zz (x + INR n) = zz x + INR n) by (unfold zz; ring). rewrite E in A. set (u := zz x + INR n) in *.
    assert (Hu : 10 < u) by (unfold u; lra). 
    assert (B : / u ^ 2 <= / (u - 1) - / u).
    { replace (/ (u - 1) - / u) with (/ ((u - 1) * u)) by (field; lra). apply Rinv_le_contravar; [apply Rmult_lt_0_compat; lra|]. simpl pow. nra. }
    replace (zz x + (INR n + 1) - 1) with u by (unfold u; ring).
    assert (K : 0 < kap) by (unfold kap; lra). assert (C := Rmult_le_compat_l kap _ _ ltac:(lra) B). unfold Rdiv in A. lra.
Qed.

(** ** The slow variation of the error at infinity *)
Definition tail (w : R) : R := ln (peval pA0 w) - vcorr w.
Lemma pA0_0 : 0 < peval pA0 0.
Proof.
  assert (H : forall p, peval p 0 = IZR (hd 0%Z p)) by (intros [|a p]; simpl; lra). rewrite H.
  apply IZR_lt. vm_compute. reflexivity.
Qed.
Lemma tail_cont : continuous tail 0.
Proof.
  assert (E : forall p t, ex_derive (fun x => peval p x) t) by (intros p t; exists (peval (pder p) t); apply peval_derive).
  assert (V := gV_pos).
  apply (ex_derive_continuous (V := R_NormedModule)). unfold tail, vcorr.
  set (fA := fun x : R => peval pA0 x). set (fv := fun x : R => peval pv x).
  apply (ex_derive_ext (fun w => ln (fA w) - fv w / IZR gV)); [reflexivity|].
  auto_derive. repeat split; try (apply E). change (0 < peval pA0 0). apply pA0_0.
Qed.
Lemma ln_sub_bound : forall a b, 0 < a -> a <= b -> 0 <= ln b - ln a <= (b - a) / a.
Proof.
  intros a b Ha Hb. split; [assert (ln a <= ln b) by (apply ln_le; lra); lra|].
  rewrite <- ln_div by lra. assert (0 < b / a) by (apply Rdiv_lt_0_compat; lra).
  apply Rle_trans with (ln (exp (b / a - 1))); [|rewrite ln_exp; right; field; lra].
  apply ln_le; [assumption|]. assert (X := exp_ineq1_le (b / a - 1)). lra.
Qed.
Lemma ln_sub_low : forall a b, 0 < a -> a <= b -> (b - a) / b <= ln b - ln a.
Proof.
  intros a b Ha Hb. assert (0 < a / b) by (apply Rdiv_lt_0_compat; lra).
  assert (L : ln (a / b) <= a / b - 1).
  { apply Rle_trans with (ln (exp (a / b - 1))); [|rewrite ln_exp; lra]. apply ln_le; [assumption|]. assert (X := exp_ineq1_le (a / b - 1)). lra. }
  rewrite ln_div in L by lra. replace ((b - a) / b) with (1 - a / b) by (field; lra). lra.
Qed.
Lemma inv_small : forall e, 0 < e -> exists U, 1 <= U /\ forall u, U <= u -> / u < e.
Proof.
  intros e He. exists (1 + / e). assert (0 < / e) by (apply Rinv_0_lt_compat; exact He). split; [lra|]. intros u Hu.
  rewrite <- (Rinv_inv e). apply Rinv_lt_contravar; [apply Rmult_lt_0_compat; lra|lra].
Qed.
(** logarithm of the product form minus its main term *)
Lemma stir_diff : forall u s c, 0 <= s <= 1 -> 1 <= u -> 0 <= c <= 11 ->
  Rabs ((u + s - / 2) * (ln (u + c + s) - 1) - (u - / 2) * (ln (u + c) - 1) - s * ln u) <= 13 * / u.
Proof.
  intros u s c Hs Hu Hc. set (z := u + c).
  replace ((u + s - / 2) * (ln (z + s) - 1) - (u - / 2) * (ln z - 1) - s * ln u)
    with (((u - / 2) * (ln (z + s) - ln z) - s) + s * (ln (z + s) - ln u)) by ring.
  assert (A := ln_sub_bound z (z + s) ltac:(unfold z; lra) ltac:(lra)). assert (B := ln_sub_low z (z + s) ltac:(unfold z; lra) ltac:(lra)).
  assert (C := ln_sub_bound u (z + s) ltac:(lra) ltac:(unfold z; lra)).
  replace (z + s - z) with s in A, B by ring.
  assert (iu : 0 < / u) by (apply Rinv_0_lt_compat; lra).
  assert (X1 : (u - / 2) * (ln (z + s) - ln z) - s <= 0).
  { apply Rle_trans with ((u - / 2) * (s / z) - s); [apply Rplus_le_compat_r, Rmult_le_compat_l; lra|].
    replace ((u - / 2) * (s / z) - s) with (- (s * ((z - u + / 2) * / z))) by (field; unfold z; lra).
    assert (0 <= s * ((z - u + / 2) * / z)); [|lra]. apply Rmult_le_pos; [lra|]. apply Rmult_le_pos; [unfold z; lra|]. left. apply Rinv_0_lt_compat. unfold z; lra. }
  assert (X2 : - (13 * / u) <= (u - / 2) * (ln (z + s) - ln z) - s).
  { apply Rle_trans with ((u - / 2) * (s / (z + s)) - s); [|apply Rplus_le_compat_r, Rmult_le_compat_l; lra].
    replace ((u - / 2) * (s / (z + s)) - s) with (- (s * (z + s - u + / 2) * / (z + s))) by (field; unfold z; lra).
    apply Ropp_le_contravar. apply Rmult_le_compat; [apply Rmult_le_pos; unfold z; lra|left; apply Rinv_0_lt_compat; unfold z; lra| |apply Rinv_le_contravar; unfold z; lra].
    assert (0 <= z + s - u + / 2 <= 13) by (unfold z; lra). nra. }
  assert (X3 : 0 <= s * (ln (z + s) - ln u)) by (apply Rmult_le_pos; lra).
  assert (X4 : s * (ln (z + s) - ln u) <= 13 * / u).
  { apply Rle_trans with (1 * ((z + s - u) / u)); [apply Rmult_le_compat; lra|]. rewrite Rmult_1_l. unfold Rdiv. apply Rmult_le_compat_r; [lra|unfold z; lra]. }
  apply Rabs_le. lra.
Qed.
Lemma err_slow : forall e, 0 < e -> exists U, 1 <= U /\ forall u s, U <= u -> 0 <= s <= 1 -> Rabs (err (u + s) - err u) < e.
Proof.
  intros e He.
  (* the rational part, as a function of w *)
  assert (L : locally (tail 0) (fun y => Rabs (y - tail 0) < e / 8)).
  { exists (mkposreal (e / 8) ltac:(lra)). intros y Hy. exact Hy. }
  destruct (tail_cont _ L) as [d Hd]. assert (Dp := cond_pos d).
  destruct (inv_small d Dp) as (U1 & HU1 & I1). destruct (inv_small (e / 400) ltac:(lra)) as (U2 & HU2 & I2).
  exists (Rmax U1 U2). split; [apply Rle_trans with U1; [exact HU1|apply Rmax_l]|].
  intros u s Hu Hs. assert (Hu1 : U1 <= u) by (apply Rle_trans with (2 := Hu), Rmax_l). assert (Hu2 : U2 <= u) by (apply Rle_trans with (2 := Hu), Rmax_r).
  specialize (I2 u Hu2). assert (iu : 0 < / u) by (apply Rinv_0_lt_compat; lra).
  assert (Tl : forall v, U1 <= v -> Rabs (tail (ww v) - tail 0) < e / 8).
  { intros v Hv. apply Hd. change (Rabs (ww v - 0) < d). destruct (ww_pos v ltac:(lra)) as [W1 _].
    rewrite Rminus_0_r, Rabs_pos_eq by lra. apply Rle_lt_trans with (/ v); [|apply I1, Hv].
    unfold ww. rewrite T_val. apply Rinv_le_contravar; [lra|]. unfold zz, gamma_g. lra. }
  assert (T1 := Tl u Hu1). assert (T2 := Tl (u + s) ltac:(lra)).
  (* decompose *)
  assert (Dec : forall v, 1 <= v -> err v = tail (ww v) + 10 * ln (zz v) - ln (lanczos_den v) + ln gamma_c + (v - / 2) * (ln (zz v) - 1) - ln (Gam v)).
  { intros v Hv. unfold err, tail. rewrite ln_gamma, ln_lanczos by lra. rewrite pA0_eval by lra. assert (Z := zz_pos v ltac:(lra)).
    rewrite ln_mult by (try (apply Rinv_0_lt_compat, pow_lt; lra); apply lanczos_num_pos; lra).
    rewrite ln_Rinv by (apply pow_lt; lra). 
    assert (E : ln (zz v ^ 10) = 10 * ln (zz v)) by (simpl pow; rewrite Rmult_1_r; rewrite !ln_mult by (repeat apply Rmult_lt_0_compat; lra); ring).
    rewrite E. ring. }
  rewrite !Dec by lra.
  assert (G := Gam_growth u s ltac:(lra) Hs).
  assert (St := stir_diff u s (gamma_g - / 2) Hs ltac:(lra) ltac:(unfold gamma_g; lra)).
  replace (u + (gamma_g - / 2) + s) with (zz (u + s)) in St by (unfold zz; ring).
  replace (u + (gamma_g - / 2)) with (zz u) in St by (unfold zz; ring).
  assert (Gs : Rabs (ln (Gam (u + s)) - ln (Gam u) - s * ln u) <= / u).
  { assert (A := ln_sub_bound u (u + s) ltac:(lra) ltac:(lra)). replace (u + s - u) with s in A by ring.
    assert (B : (1 - s) * (ln (u + s) - ln u) <= / u).
    { apply Rle_trans with (1 * (s / u)); [apply Rmult_le_compat; lra|]. rewrite Rmult_1_l. unfold Rdiv. rewrite <- (Rmult_1_l (/ u)) at 2. apply Rmult_le_compat_r; lra. }
    apply Rabs_le. lra. }
  (* ten logarithms *)
  set (q := fun v => 10 * ln (zz v) - ln (lanczos_den v)).
  assert (Q : forall v, 1 <= v -> q v = - ln 10000000000000000000000000 + ((ln (zz v) - ln v) + (ln (zz v) - ln (v + 1)) + (ln (zz v) - ln (v + 2)) + (ln (zz v) - ln (v + 3)) + (ln (zz v) - ln (v + 4))
      + (ln (zz v) - ln (v + 5)) + (ln (zz v) - ln (v + 6)) + (ln (zz v) - ln (v + 7)) + (ln (zz v) - ln (v + 8)) + (ln (zz v) - ln (v + 9)))).
  { intros v Hv. unfold q, lanczos_den. rewrite !ln_mult by (repeat apply Rmult_lt_0_compat; lra). ring. }
  assert (Qb : forall v, 1 <= v -> 0 <= q v + ln 10000000000000000000000000 <= 110 * / v).
  { intros v Hv. rewrite Q by exact Hv. assert (iv : 0 < / v) by (apply Rinv_0_lt_compat; lra).
    assert (R : forall k, 0 <= k <= 9 -> 0 <= ln (zz v) - ln (v + k) <= 11 * / v).
    { intros k Hk. assert (A := ln_sub_bound (v + k) (zz v) ltac:(lra) ltac:(unfold zz, gamma_g; lra)).
      split; [lra|]. apply Rle_trans with (1 := proj2 A). unfold Rdiv. apply Rmult_le_compat; [unfold zz, gamma_g; lra|left; apply Rinv_0_lt_compat; lra|unfold zz, gamma_g; lra|apply Rinv_le_contravar; lra]. }
    assert (R0 := R 0 ltac:(lra)). rewrite Rplus_0_r in R0.
    assert (R1 := R 1 ltac:(lra)). assert (R2 := R 2 ltac:(lra)). assert (R3 := R 3 ltac:(lra)). assert (R4 := R 4 ltac:(lra)).
    assert (R5 := R 5 ltac:(lra)). assert (R6 := R 6 ltac:(lra)). assert (R7 := R 7 ltac:(lra)). assert (R8 := R 8 ltac:(lra)). assert (R9 := R 9 ltac:(lra)).
    lra. }
  assert (Q1 := Qb u ltac:(lra)). assert (Q2 := Qb (u + s) ltac:(lra)).
  assert (ius : / (u + s) <= / u) by (apply Rinv_le_contravar; lra).
  assert (Qd : Rabs (q (u + s) - q u) <= 110 * / u) by (apply Rabs_le; lra).
  match goal with |- Rabs ?x < _ => replace x with ((tail (ww (u + s)) - tail 0) - (tail (ww u) - tail 0) + (q (u + s) - q u)
     + ((u + s - / 2) * (ln (zz (u + s)) - 1) - (u - / 2) * (ln (zz u) - 1) - s * ln u) - (ln (Gam (u + s)) - ln (Gam u) - s * ln u)) by (unfold q; ring) end.
  clear Q Qb Dec Q1 Q2. clearbody q.
  set (t1 := tail (ww (u + s)) - tail 0) in *. set (t2 := tail (ww u) - tail 0) in *. set (t3 := q (u + s) - q u) in *.
  set (t4 := (u + s - / 2) * (ln (zz (u + s)) - 1) - (u - / 2) * (ln (zz u) - 1) - s * ln u) in *.
  set (t5 := ln (Gam (u + s)) - ln (Gam u) - s * ln u) in *. clearbody t1 t2 t3 t4 t5.
  apply Rabs_def2 in T1, T2.
  assert (Y : forall a b, Rabs a <= b -> - b <= a <= b).
  { intros a b H. assert (X1 := Rle_abs a). assert (X2 := Rle_abs (- a)). rewrite Rabs_Ropp in X2. lra. }
  apply Y in Qd, St, Gs. apply Rabs_def1; lra.
Qed.

Lemma big_nat : forall t, exists n, t < INR n.
Proof.
  intros t. destruct (archimed (Rmax 0 t)) as [A _]. assert (M := Rmax_l 0 t). assert (M2 := Rmax_r 0 t).
  exists (Z.to_nat (up (Rmax 0 t))). rewrite INR_IZR_INZ, Z2Nat.id; [lra|]. apply le_IZR. lra.
Qed.
Lemma abs_bet : forall a b, Rabs a <= b -> - b <= a <= b.
Proof. intros a b H. assert (X1 := Rle_abs a). assert (X2 := Rle_abs (- a)). rewrite Rabs_Ropp in X2. lra. Qed.
(** the corrected error is almost constant *)
Lemma err_const : forall x x', / 2 <= x -> / 2 <= x' -> Rabs (err x - err x') <= kap * (/ (zz x - 1) + / (zz x' - 1)).
Proof.
  intros x x' Hx Hx'. apply Rnot_lt_le. intros N.
  set (e := Rabs (err x - err x') - kap * (/ (zz x - 1) + / (zz x' - 1))).
  destruct (err_slow (e / 2) ltac:(unfold e; lra)) as (U & HU & Sl).
  destruct (big_nat (U + x)) as [n Hn].
  set (t := x' + INR n - x).
  assert (Ht : 0 <= t) by (unfold t; lra).
  destruct (archimed t) as [A1 A2].
  assert (Pa : (0 <= up t)%Z) by (apply le_IZR; lra).
  set (a := Z.to_nat (up t)). assert (Ea : INR a = IZR (up t)) by (unfold a; rewrite INR_IZR_INZ, Z2Nat.id by exact Pa; reflexivity).
  assert (F1 := err_far a x Hx). assert (F2 := err_far n x' Hx').
  assert (S1 := Sl (x' + INR n) (INR a - t) ltac:(lra) ltac:(lra)).
  replace (x' + INR n + (INR a - t)) with (x + INR a) in S1 by (unfold t; ring).
  assert (K : 0 < kap) by (unfold kap; lra).
  assert (Z1 := zz_pos x Hx). assert (Z2 := zz_pos x' Hx').
  assert (P1 : 0 <= kap * / (zz x + INR a - 1)) by (apply Rmult_le_pos; [lra|left; apply Rinv_0_lt_compat; assert (X := pos_INR a); lra]).
  assert (P2 : 0 <= kap * / (zz x' + INR n - 1)) by (apply Rmult_le_pos; [lra|left; apply Rinv_0_lt_compat; assert (X := pos_INR n); lra]).
  apply abs_bet in F1, F2. apply Rabs_def2 in S1.
  assert (Fin : Rabs (err x - err x') <= kap * (/ (zz x - 1) + / (zz x' - 1)) + e / 2); [|unfold e in *; lra].
  apply Rabs_le. lra.
Qed.
