(** Numerical values for the error bound of the gamma function. *)
From Coq Require Import Reals Lra Lia List ZArith.
From Coquelicot Require Import Coquelicot.
From Verif Require Import Arith RInst RInstProof Gamma GammaProof WeightSpec GammaTrue GamPoly GamRatio GamPsi GamAcc.
Import ListNotations.
Local Open Scope R_scope.

(** ** Bounds on e *)
(** partial sums of the exponential series *)
Fixpoint rfact (n : nat) : R := match n with O => 1 | S m => IZR (Z.of_nat n) * rfact m end.
Lemma rfact_pos : forall n, 0 < rfact n.
Proof. induction n as [|n IH]; [simpl; lra|]. change (0 < IZR (Z.of_nat (S n)) * rfact n). apply Rmult_lt_0_compat; [apply IZR_lt; lia|exact IH]. Qed.
Fixpoint esum (n : nat) (x : R) : R := match n with O => 0 | S n => esum n x + x ^ n / rfact n end.
Lemma esum_der : forall n x, is_derive (esum (S n)) x (esum n x).
Proof.
  induction n as [|n IH]; intros x.
  - apply (is_derive_ext (fun _ => 1)); [intros; simpl; field|]. apply (is_derive_const (V := R_NormedModule)).
  - change (esum (S n) x) with (esum n x + x ^ n / rfact n).
    apply (is_derive_plus (K := R_AbsRing) (V := R_NormedModule) (esum (S n)) (fun x => x ^ S n / rfact (S n))); [apply IH|].
    assert (F : rfact n <> 0) by (assert (X := rfact_pos n); lra).
    assert (N : INR (S n) <> 0) by (apply not_0_INR; lia).
    replace (x ^ n / rfact n) with (/ rfact (S n) * (INR (S n) * x ^ n)).
    + apply (is_derive_ext (fun t => / rfact (S n) * t ^ S n)); [intros; unfold Rdiv; apply Rmult_comm|].
      apply (is_derive_scal (fun u => u ^ S n)). apply pow_der.
    + change (rfact (S n)) with (IZR (Z.of_nat (S n)) * rfact n). rewrite <- INR_IZR_INZ. field. split; assumption.
Qed.
Lemma esum_0 : forall n, esum (S n) 0 = 1.
Proof. induction n as [|n IH]; [simpl; field|]. change (esum (S n) 0 + 0 ^ S n / rfact (S n) = 1). rewrite IH, pow_i by lia. unfold Rdiv. ring. Qed.
Lemma exp_bounds : forall n, 1 - / rfact (S n) <= exp (- (1)) * esum (S n) 1 <= 1.
Proof.
  intros n.
  assert (D : forall x, is_derive (fun x => exp (- x) * esum (S n) x) x (- (exp (- x) * (x ^ n / rfact n)))).
  { intros x. replace (- (exp (- x) * (x ^ n / rfact n))) with (- exp (- x) * esum (S n) x + exp (- x) * esum n x) by (cbn [esum]; ring).
    apply (is_derive_mult (fun x => exp (- x)) (esum (S n))); [|apply esum_der|intros; apply Rmult_comm].
    auto_derive; [trivial|ring]. }
  assert (D2 : forall x, is_derive (fun x => x ^ S n / rfact (S n)) x (x ^ n / rfact n)).
  { intros x. assert (H := esum_der (S n) x). cbn [esum] in H. 
    assert (F : rfact n <> 0) by (assert (X := rfact_pos n); lra).
    assert (N : INR (S n) <> 0) by (apply not_0_INR; lia).
    replace (x ^ n / rfact n) with (/ rfact (S n) * (INR (S n) * x ^ n)).
    + apply (is_derive_ext (fun t => / rfact (S n) * t ^ S n)); [intros; unfold Rdiv; apply Rmult_comm|].
      apply (is_derive_scal (fun u => u ^ S n)). apply pow_der.
    + change (rfact (S n)) with (IZR (Z.of_nat (S n)) * rfact n). rewrite <- INR_IZR_INZ. field. split; assumption. }
  assert (Fp : 0 < / rfact n) by (apply Rinv_0_lt_compat, rfact_pos).
  split.
  - assert (M := mono (fun x => exp (- x) * esum (S n) x + x ^ S n / rfact (S n)) (fun x => - (exp (- x) * (x ^ n / rfact n)) + x ^ n / rfact n) 0 1 ltac:(lra)).
    cbv beta in M. rewrite esum_0, Ropp_0, exp_0, pow_i, pow1 in M by lia. unfold Rdiv at 1 2 in M.
    assert (Q : 1 * 1 + 0 * / rfact (S n) <= exp (- (1)) * esum (S n) 1 + 1 * / rfact (S n)); [|lra].
    apply M. intros x Hx. split.
    + apply (is_derive_plus (K := R_AbsRing) (V := R_NormedModule) (fun x => exp (- x) * esum (S n) x) (fun x => x ^ S n / rfact (S n))); [apply D|apply D2].
    + assert (exp (- x) <= 1) by (rewrite <- exp_0; destruct (Req_dec x 0) as [->|Ne]; [rewrite Ropp_0; lra|left; apply exp_increasing; lra]).
      assert (0 <= x ^ n / rfact n) by (apply Rmult_le_pos; [apply pow_le; lra|lra]). nra.
  - assert (M := mono (fun x => - (exp (- x) * esum (S n) x)) (fun x => exp (- x) * (x ^ n / rfact n)) 0 1 ltac:(lra)).
    cbv beta in M. rewrite esum_0, Ropp_0, exp_0 in M. 
    assert (Q : - (1 * 1) <= - (exp (- (1)) * esum (S n) 1)); [|lra].
    apply M. intros x Hx. split.
    + assert (O := is_derive_opp (K := R_AbsRing) (V := R_NormedModule) _ x _ (D x)). change opp with Ropp in O. cbv beta in O.
      rewrite Ropp_involutive in O. exact O.
    + apply Rmult_le_pos; [left; apply exp_pos|]. apply Rmult_le_pos; [apply pow_le; lra|lra].
Qed.
Lemma esum_20 : esum 20 1 = 82666416490601 / 30411275102208.
Proof. cbn [esum]. rewrite !pow1. cbn [rfact]. simpl Z.of_nat. field. Qed.
Lemma e_bounds : 82666416490601 / 30411275102208 <= exp 1 <= 82666416490601 / 30411275102208 * (1 + 5 / 10 ^ 19).
Proof.
  assert (H := exp_bounds 19). rewrite esum_20 in H.
  assert (F : 1 - / rfact 20 >= 1 - 45 / 10 ^ 20).
  { cbn [rfact]. simpl Z.of_nat. lra. }
  assert (E : exp (- (1)) * exp 1 = 1) by (rewrite <- exp_plus; replace (- (1) + 1) with 0 by ring; apply exp_0).
  assert (P := exp_pos 1). assert (P2 := exp_pos (- (1))).
  set (a := exp (- (1))) in *. set (b := exp 1) in *. set (c := 82666416490601 / 30411275102208) in *. 
  assert (Hc : 2 < c < 3) by (unfold c; lra). clearbody a b c.
  split.
  - assert (a * c * b <= 1 * b) by (apply Rmult_le_compat_r; lra). replace (a * c * b) with (a * b * c) in H0 by ring. rewrite E in H0. lra.
  - assert (H0 : (1 - 45 / 10 ^ 20) * b <= a * c * b) by (apply Rmult_le_compat_r; lra). replace (a * c * b) with (a * b * c) in H0 by ring. rewrite E in H0.
    apply (Rmult_le_reg_l (1 - 45 / 10 ^ 20)); [lra|]. nra.
Qed.

(** ** The value at 1 *)
Lemma exp_ln_bound : forall a b, 0 < a -> 0 < b -> 0 <= a / b - 1 <= 1 -> 0 <= ln a - ln b <= a / b - 1.
Proof.
  intros a b Ha Hb H. assert (L := ln_sub_bound b a Hb). 
  assert (b <= a). { apply (Rmult_le_reg_r (/ b)); [apply Rinv_0_lt_compat; exact Hb|]. rewrite Rinv_r by lra. unfold Rdiv in H. lra. }
  specialize (L H0). replace ((a - b) / b) with (a / b - 1) in L by (field; lra). exact L.
Qed.
Lemma gamma_one : - (8 / 10 ^ 16) <= ln (@gamma RA 1) <= - (6 / 10 ^ 16).
Proof.
  assert (E : 2 * ln (@gamma RA 1) = ln ((lanczos 1 * gamma_c) ^ 2 * zz 1) - ln (exp 1)).
  { rewrite ln_gamma by lra. assert (L := lanczos_pos 1 ltac:(lra)). assert (C := gamma_c_pos). assert (Z := zz_pos 1 ltac:(lra)).
    assert (LC : 0 < lanczos 1 * gamma_c) by (apply Rmult_lt_0_compat; assumption).
    simpl pow. rewrite Rmult_1_r. rewrite (ln_mult (lanczos 1 * gamma_c * (lanczos 1 * gamma_c))) by (try (apply Rmult_lt_0_compat); lra).
    rewrite (ln_mult (lanczos 1 * gamma_c)) by lra. rewrite (ln_mult (lanczos 1)) by lra. rewrite ln_exp. field. }
  assert (V : (lanczos 1 * gamma_c) ^ 2 * zz 1 = 82666416490601 / 30411275102208 * (1 - 13978 / 10 ^ 19) +
     ((lanczos 1 * gamma_c) ^ 2 * zz 1 - 82666416490601 / 30411275102208 * (1 - 13978 / 10 ^ 19))) by ring.
  assert (B : 82666416490601 / 30411275102208 * (1 - 13979 / 10 ^ 19) <= (lanczos 1 * gamma_c) ^ 2 * zz 1 <= 82666416490601 / 30411275102208 * (1 - 13975 / 10 ^ 19)).
  { rewrite lanczos_frac by lra. unfold lanczos_num, lanczos_den, zz, gamma_c, gamma_g. split; lra. }
  clear V. set (X := (lanczos 1 * gamma_c) ^ 2 * zz 1) in *. clearbody X. assert (Eb := e_bounds). set (ee := exp 1) in *. clearbody ee.
  assert (L1 := ln_sub_bound X ee ltac:(lra) ltac:(lra)). assert (L2 := ln_sub_low X ee ltac:(lra) ltac:(lra)).
  assert (U : (ee - X) / X <= 14 / 10 ^ 16).
  { apply (Rmult_le_reg_r X); [lra|]. unfold Rdiv at 1. rewrite Rmult_assoc, Rinv_l by lra. lra. }
  assert (W : 13 / 10 ^ 16 <= (ee - X) / ee).
  { apply (Rmult_le_reg_r ee); [lra|]. unfold Rdiv at 2. rewrite Rmult_assoc, Rinv_l by lra. lra. }
  lra.
Qed.

(** ** The correction *)
Local Open Scope Z_scope.
Definition gQ := 697632704.
Fixpoint cells (n : nat) (p : list Z) (b : Z) : bool :=
  match n with O => true | S n => (pabs p <=? b) && cells n (pshift (pshift p)) b end.
Definition check_v := cells 32 (pshift (pscale gQ pv)) (1120000000 * gQ ^ 10).
Lemma check_v_true : check_v = true. Proof. vm_compute. reflexivity. Qed.
Local Close Scope Z_scope.
Lemma cells_ok : forall n p b t, cells n p b = true -> -1 <= t <= 2 * INR n - 1 -> (0 < n)%nat -> Rabs (peval p t) <= IZR b.
Proof.
  induction n as [|n IH]; intros p b t H Ht Hn; [lia|]. cbn [cells] in H. apply Bool.andb_true_iff in H. destruct H as [H1 H2].
  apply Z.leb_le, IZR_le in H1. rewrite S_INR in Ht.
  destruct (Rle_or_lt t 1) as [L|L].
  - eapply Rle_trans; [apply peval_abs; lra|exact H1].
  - destruct n as [|n]; [simpl in Ht; lra|]. assert (Y := IH _ _ (t - 2) H2 ltac:(lra) ltac:(lia)). rewrite !peval_shift in Y.
    replace (1 + (1 + (t - 2))) with t in Y by ring. exact Y.
Qed.
Lemma vcorr_bound : forall w, 0 <= w <= wmax -> Rabs (vcorr w) <= 112 / 10 ^ 15.
Proof.
  intros w Hw. assert (C := cells_ok _ _ _ (IZR gQ * w - 1) check_v_true). unfold check_v in C.
  assert (Y : Rabs (peval (pshift (pscale gQ pv)) (IZR gQ * w - 1)) <= IZR (1120000000 * gQ ^ 10)).
  { apply C; [|lia]. replace (INR 32) with 32 by (simpl; lra). unfold wmax in Hw. unfold gQ. lra. }
  rewrite peval_shift in Y. replace (1 + (IZR gQ * w - 1)) with (IZR gQ * w) in Y by ring. rewrite peval_scale in Y.
  change (pred (length pv)) with 10%nat in Y. rewrite mult_IZR in Y. change (gQ ^ 10)%Z with (gQ ^ Z.of_nat 10)%Z in Y. rewrite <- pow_IZR in Y.
  assert (Q : 0 < IZR gQ ^ 10) by (apply pow_lt, IZR_lt; reflexivity).
  rewrite Rabs_mult, (Rabs_pos_eq (IZR gQ ^ 10)) in Y by lra.
  assert (B : Rabs (peval pv w) <= 1120000000) by (apply (Rmult_le_reg_l _ _ _ Q); lra).
  unfold vcorr. unfold Rdiv at 1. rewrite Rabs_mult, (Rabs_pos_eq (/ IZR gV)) by (left; apply Rinv_0_lt_compat, gV_pos).
  rewrite gV_val. lra.
Qed.
(** values at single points *)
Lemma vcorr_at : forall q lo hi, (0 < q)%Z -> (let s := fold_right Z.add 0 (pscale q pv) in ((lo * q ^ 10 <=? s) && (s <=? hi * q ^ 10))%bool)%Z = true ->
  IZR lo / 10 ^ 22 <= vcorr (/ IZR q) <= IZR hi / 10 ^ 22.
Proof.
  intros q lo hi Hq H. cbv zeta in H. apply Bool.andb_true_iff in H. destruct H as [H1 H2]. apply Z.leb_le, IZR_le in H1, H2.
  assert (Qp : 0 < IZR q) by (apply IZR_lt, Hq).
  assert (E : peval (pscale q pv) 1 = IZR (fold_right Z.add 0%Z (pscale q pv))).
  { generalize (pscale q pv). induction l as [|a l IH]; [reflexivity|]. cbn [peval fold_right]. rewrite plus_IZR, IH. ring. }
  assert (S := peval_scale q pv (/ IZR q)). rewrite Rinv_r in S by lra. rewrite S in E. change (pred (length pv)) with 10%nat in E.
  rewrite <- E, mult_IZR in H1, H2. change (q ^ 10)%Z with (q ^ Z.of_nat 10)%Z in H1, H2. rewrite <- pow_IZR in H1, H2.
  assert (Q : 0 < IZR q ^ 10) by (apply pow_lt, Qp).
  unfold vcorr. rewrite gV_val. split; (apply Rmult_le_compat_r; [lra|]); apply (Rmult_le_reg_l _ _ _ Q); lra.
Qed.
Lemma vcorr_one : - (7 / 10 ^ 16) <= vcorr (ww 1) <= - (6 / 10 ^ 16).
Proof.
  assert (H := vcorr_at 11400511 (-7000000) (-6000000) ltac:(lia) ltac:(vm_compute; reflexivity)).
  replace (ww 1) with (/ 11400511) by (unfold ww, zz, gamma_g; rewrite T_val; field). lra.
Qed.
Lemma vcorr_fifty : vcorr (ww 50) <= - (109 / 10 ^ 15).
Proof.
  assert (H := vcorr_at 60400511 (-2000000000) (-1090000000) ltac:(lia) ltac:(vm_compute; reflexivity)).
  replace (ww 50) with (/ 60400511) by (unfold ww, zz, gamma_g; rewrite T_val; field). lra.
Qed.

(** ** The bound *)
Lemma log_ratio : forall x, / 2 <= x -> exists t, Rabs t <= kap * (/ (zz x - 1) + / (zz 1 - 1)) /\ ln (@gamma RA x) - ln (Gam x) = vcorr (ww x) - vcorr (ww 1) + ln (@gamma RA 1) + t.
Proof.
  intros x Hx. exists (err x - err 1). split; [apply err_const; lra|]. unfold err. rewrite Gam_1, ln_1. ring.
Qed.
Lemma log_bound : forall x, / 2 <= x -> Rabs (ln (@gamma RA x) - ln (Gam x)) <= 1195 / 10 ^ 16.
Proof.
  intros x Hx. destruct (log_ratio x Hx) as (t & Ht & ->). assert (Z := zz_pos x Hx).
  assert (V := vcorr_bound (ww x) ltac:(assert (W := ww_pos x Hx); lra)). assert (V1 := vcorr_one). assert (G := gamma_one).
  apply abs_bet in V, Ht.
  assert (K : kap * (/ (zz x - 1) + / (zz 1 - 1)) <= 57 / 10 ^ 16).
  { assert (A : / (zz x - 1) <= / (99 / 10)) by (apply Rinv_le_contravar; [lra|unfold zz, gamma_g; lra]).
    assert (B : / (zz 1 - 1) <= / (104 / 10)) by (apply Rinv_le_contravar; [lra|unfold zz, gamma_g; lra]). unfold kap. lra. }
  apply Rabs_le. lra.
Qed.
Lemma ratio_of_log : forall a b d, 0 < a -> 0 < b -> 0 <= d <= / 1000 -> Rabs (ln a - ln b) <= d -> Rabs (a - b) <= (d + 2 * (d * d)) * b.
Proof.
  intros a b d Ha Hb Hd H. apply abs_bet in H.
  assert (E : a = exp (ln a - ln b) * b) by (rewrite <- ln_div by assumption; rewrite exp_ln by (apply Rdiv_lt_0_compat; assumption); field; lra).
  set (t := ln a - ln b) in *. clearbody t.
  assert (L : 1 + t <= exp t) by apply exp_ineq1_le.
  assert (U : exp t * (1 - t) <= 1).
  { assert (X := exp_ineq1_le (- t)). assert (P := exp_pos t). assert (Y : exp t * exp (- t) = 1) by (rewrite <- exp_plus, Rplus_opp_r; apply exp_0).
    assert (exp t * (1 + - t) <= exp t * exp (- t)) by (apply Rmult_le_compat_l; lra). lra. }
  assert (U2 : exp t <= 1 + d + 2 * (d * d)).
  { apply (Rmult_le_reg_r (1 - t)); [lra|]. apply Rle_trans with (1 := U). apply Rle_trans with ((1 + d + 2 * (d * d)) * (1 - d)); [|apply Rmult_le_compat_l; nra].
    assert (0 <= d * d) by nra. assert (d * (d * d) <= / 1000 * (d * d)) by (apply Rmult_le_compat_r; lra). nra. }
  rewrite E. replace (exp t * b - b) with ((exp t - 1) * b) by ring. rewrite Rabs_mult, (Rabs_pos_eq b) by lra.
  apply Rmult_le_compat_r; [lra|]. apply Rabs_le. nra.
Qed.
Lemma gamma_accurate_half : forall x, / 2 <= x -> Rabs (@gamma RA x - Gam x) <= 12 / 10 ^ 14 * Gam x.
Proof.
  intros x Hx. assert (P := Gam_pos x ltac:(lra)).
  assert (R := ratio_of_log (@gamma RA x) (Gam x) (1195 / 10 ^ 16) (gamma_pos x ltac:(lra)) P ltac:(lra) (log_bound x Hx)).
  apply Rle_trans with (1 := R). apply Rmult_le_compat_r; [lra|]. lra.
Qed.
Lemma gamma_fifty : @gamma RA 50 < (1 - 1 / 10 ^ 13) * Gam 50.
Proof.
  destruct (log_ratio 50 ltac:(lra)) as (t & Ht & E). assert (P := Gam_pos 50 ltac:(lra)). assert (Pg := gamma_pos 50 ltac:(lra)).
  assert (V := vcorr_fifty). assert (V1 := vcorr_one). assert (G := gamma_one). apply abs_bet in Ht.
  assert (K : kap * (/ (zz 50 - 1) + / (zz 1 - 1)) <= 33 / 10 ^ 16).
  { assert (A : / (zz 50 - 1) <= / (594 / 10)) by (apply Rinv_le_contravar; [lra|unfold zz, gamma_g; lra]).
    assert (B : / (zz 1 - 1) <= / (104 / 10)) by (apply Rinv_le_contravar; [lra|unfold zz, gamma_g; lra]). unfold kap. lra. }
  assert (Q : ln (@gamma RA 50) < ln ((1 - 1 / 10 ^ 13) * Gam 50)).
  { rewrite ln_mult by lra. assert (L := ln_sub_bound (1 - 1 / 10 ^ 13) 1 ltac:(lra) ltac:(lra)). rewrite ln_1 in L.
    assert ((1 - (1 - 1 / 10 ^ 13)) / (1 - 1 / 10 ^ 13) <= 101 / 10 ^ 15) by lra. lra. }
  apply ln_lt_inv; [exact Pg| |exact Q]. apply Rmult_lt_0_compat; lra.
Qed.
