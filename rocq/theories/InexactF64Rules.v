(** Gauss-Hermite and Gauss-Laguerre rules in double arithmetic. *)
From Coq Require Import Reals List Lia Lra Arith ZArith Permutation.
From Coquelicot Require Import Coquelicot.
From Flocq Require Import Core IEEE754.Binary.
From Verif Require Import Arith F64 F64Spec F64Proof RInst RInstProof Machine Param Rules RSum PolySpec RoundSpec RoundProof GolubWelsch GWSpec EigenSpec WeightSpec InexactSpec InexactF64Spec
  EigenProof GWProof Inexact InexactF64 Gamma Hermite Laguerre GammaProof LegBig GaussExact.
Import ListNotations.
Local Open Scope R_scope.

Lemma moment_error_mono : forall n tau rho rho' phi j, 0 <= tau -> 0 <= phi -> rho <= rho' -> moment_error n tau rho phi j <= moment_error n tau rho' phi j.
Proof.
  intros n tau rho rho' phi j T P H. unfold moment_error. apply Rplus_le_compat_l. apply Rmult_le_compat_r.
  - apply Rmult_le_pos; [apply pos_INR|apply pow_le, T].
  - apply Rmult_le_compat_r; [apply sqrt_pos|exact H].
Qed.
Lemma sqrt_diff : forall x y, 0 < x -> 0 <= y -> Rabs (sqrt y - sqrt x) <= Rabs (y - x) / sqrt x.
Proof.
  intros x y Hx Hy. assert (S := sqrt_lt_R0 x Hx). assert (S' := sqrt_pos y).
  apply Rmult_le_reg_r with (sqrt x); [exact S|]. replace (Rabs (y - x) / sqrt x * sqrt x) with (Rabs (y - x)) by (field; lra).
  replace (y - x) with ((sqrt y - sqrt x) * (sqrt y + sqrt x)) by (replace y with (sqrt y * sqrt y) at 3 by (apply sqrt_sqrt; lra); replace x with (sqrt x * sqrt x) at 3 by (apply sqrt_sqrt; lra); ring).
  rewrite Rabs_mult, (Rabs_right (sqrt y + sqrt x)) by lra. apply Rmult_le_compat_l; [apply Rabs_pos|lra].
Qed.
Lemma tiny : forall x, x <= IZR (2 ^ 53) -> x * eta <= 1 / 10 ^ 200.
Proof.
  intros x Hx. assert (E0 := eta_pos). assert (E1 := eta_val). apply Rle_trans with (IZR (2 ^ 53) * (1 / 10 ^ 300)).
  - apply Rle_trans with (IZR (2 ^ 53) * eta); [apply Rmult_le_compat_r; lra|apply Rmult_le_compat_l; [apply IZR_le; lia|exact E1]].
  - apply Rmult_le_reg_r with (10 ^ 300); [apply pow_lt; lra|]. replace (IZR (2 ^ 53) * (1 / 10 ^ 300) * 10 ^ 300) with (IZR (2 ^ 53)) by (field; apply pow_nonzero; lra).
    replace (1 / 10 ^ 200 * 10 ^ 300) with (10 ^ 100).
    + rewrite pow_IZR. apply IZR_le. vm_compute. discriminate.
    + replace 300%nat with (200 + 100)%nat by reflexivity. rewrite pow_add. set (t := 10 ^ 200). assert (t <> 0) by (apply pow_nonzero; lra). field. exact H.
Qed.
Lemma tiny_small : 1 / 10 ^ 200 <= 1 / 10 ^ 30.
Proof. unfold Rdiv. rewrite !Rmult_1_l. apply Rinv_le_contravar; [apply pow_lt; lra|]. apply Rle_pow; [lra|lia]. Qed.

Section Rules.
Context {be : Backend}.
Notation A := (F64 be).

Lemma count_val : forall i, (Z.of_nat i < 2 ^ 53)%Z -> ffin (@nadd A lit1 (nofZ (Z.of_nat i))) /\ fval (@nadd A lit1 (nofZ (Z.of_nat i))) = INR (S i).
Proof.
  intros i Hi. destruct (ofZ_exact (Z.of_nat i) ltac:(lia)) as [F1 E1]. destruct (lit_int_exact 1 ltac:(vm_compute; discriminate)) as [F2 E2].
  assert (E : fval (@lit1 A) + fval (@nofZ A (Z.of_nat i)) = IZR (Z.of_nat (S i))).
  { change (fval (@lit1 A)) with (fval (f64_lit 1 0)). change (@nofZ A) with f64_of_Z. rewrite E1, E2, <- plus_IZR. f_equal. lia. }
  destruct (add_finite be lit1 (nofZ (Z.of_nat i)) F2 F1) as [F3 E3].
  - rewrite E. apply no_overflow_small, abs_IZR_bound. lia.
  - split; [exact F3|]. etransitivity; [exact E3|]. rewrite E, rnd_IZR by lia. rewrite INR_IZR_INZ. reflexivity.
Qed.

(** ** Hermite *)
Lemma hermite_off_val : forall i, (Z.of_nat i < 2 ^ 53)%Z ->
  Rabs (fval (@hermite_off_diag A i) - @hermite_off_diag RA i) <= uro * sqrt (INR (S i) / 2) + eta.
Proof.
  intros i Hi. destruct (count_val i Hi) as [F1 E1]. unfold hermite_off_diag at 1.
  assert (N : 1 <= INR (S i)) by (rewrite INR_IZR_INZ; apply IZR_le; lia).
  assert (M : INR (S i) * fval (@lit_half A) = INR (S i) / 2) by (change (fval (@lit_half A)) with (fval (f64_lit 5 (-1))); rewrite (proj2 half_exact); lra).
  assert (Ff : generic_format radix2 (FLT_exp (-1074) 53) (INR (S i) / 2)).
  { replace (INR (S i) / 2) with (IZR (Z.of_nat (S i)) * bpow radix2 (-1)) by (rewrite INR_IZR_INZ; simpl; lra).
    apply generic_format_FLT. destruct (Z.eq_dec (Z.of_nat (S i)) (2 ^ 53)) as [E|E].
    - exists (Float radix2 1 52); cbn [Fnum Fexp]; [|simpl; lia|lia]. rewrite E. unfold F2R; cbn [Fnum Fexp]. rewrite Rmult_1_l.
      replace (IZR (2 ^ 53)) with (bpow radix2 53) by (rewrite <- (IZR_Zpower radix2 53) by lia; reflexivity). rewrite <- bpow_plus. reflexivity.
    - exists (Float radix2 (Z.of_nat (S i)) (-1)); cbn [Fnum Fexp]; [reflexivity| |lia]. change (Z.abs (Z.of_nat (S i)) < 2 ^ 53)%Z. lia. }
  destruct (mul_finite be _ lit_half F1 (proj1 half_exact)) as [F2 E2].
  { rewrite E1, M. apply no_overflow_small. rewrite Rabs_right by (apply Rle_ge; lra). rewrite INR_IZR_INZ. assert (B := abs_IZR_bound (Z.of_nat (S i)) ltac:(lia)).
    rewrite Rabs_right in B by (apply Rle_ge, IZR_le; lia). assert (0 <= IZR (Z.of_nat (S i))) by (apply IZR_le; lia). lra. }
  rewrite E1, M in E2. assert (Rf : rnd (INR (S i) / 2) = INR (S i) / 2) by (unfold rnd; apply round_generic; [apply valid_rnd_N|exact Ff]). rewrite Rf in E2.
  destruct (sqrt_val (be := be) _ F2 ltac:(rewrite E2; lra)) as [_ E3].
  rewrite E2 in E3. rewrite E3. replace (@hermite_off_diag RA i) with (sqrt (INR (S i) / 2)).
  - assert (X := rnd_err (sqrt (INR (S i) / 2))). rewrite (Rabs_right (sqrt (INR (S i) / 2))) in X by (apply Rle_ge, sqrt_pos). exact X.
  - unfold hermite_off_diag. ra_simpl. ra_lits. rewrite IZR_INR, S_INR. f_equal. field.
Qed.
Lemma pi_val : ffin (@npi A) /\ Rabs (fval (@npi A) - PI) <= 12 / 10 ^ 16.
Proof.
  destruct (lit_neg_correct 314159265358979323846264338327950288 (-35)) as [F E]; [lia| |].
  - apply no_overflow_small. apply Rle_trans with (bpow radix2 2); [|apply bpow_le; lia].
    rewrite Rabs_right; [|apply Rle_ge; apply Rmult_le_pos; [apply IZR_le; lia|left; apply Rinv_0_lt_compat, IZR_lt; reflexivity]].
    simpl bpow. apply Rmult_le_reg_r with (IZR (10 ^ (- -35))); [apply IZR_lt; reflexivity|]. unfold Rdiv. rewrite Rmult_assoc, Rinv_l by (apply IZR_neq; discriminate).
    rewrite Rmult_1_r, <- mult_IZR. apply IZR_le. vm_compute. discriminate.
  - split; [exact F|]. change (fval (@npi A)) with (fval (f64_lit 314159265358979323846264338327950288 (-35))). rewrite E.
    assert (X := rnd_err (IZR 314159265358979323846264338327950288 / IZR (10 ^ (- -35)))). set (q := IZR 314159265358979323846264338327950288 / IZR (10 ^ (- -35))) in *.
    assert (Q : q = 314159265358979323846264338327950288 / 100000000000000000000000000000000000) by reflexivity.
    assert (Qb : 31415926535897932 / 10000000000000000 <= q <= 31415926535897933 / 10000000000000000) by (rewrite Q; lra).
    rewrite (Rabs_right q) in X by lra. assert (UV := uro_val). assert (U0 := uro_pos).
    assert (EV : eta <= 1 / 10 ^ 30). { apply Rle_trans with (1 * eta); [lra|]. eapply Rle_trans; [apply tiny; apply IZR_le; lia|apply tiny_small]. }
    assert (PL := PI_lower). assert (PU := PI_upper). replace (rnd q - PI) with ((rnd q - q) + (q - PI)) by ring.
    eapply Rle_trans; [apply Rabs_triang|]. 
    assert (uro * q <= 36 / 10 ^ 17) by nra. 
    assert (Rabs (q - PI) <= 8 / 10 ^ 16) by (apply Rabs_le; lra). lra.
Qed.
Lemma sqrt_pi_bounds : 177 / 100 <= sqrt PI <= 178 / 100.
Proof.
  assert (PL := PI_lower). assert (PU := PI_upper). split.
  - rewrite <- (sqrt_square (177 / 100)) by lra. apply sqrt_le_1_alt. lra.
  - rewrite <- (sqrt_square (178 / 100)) by lra. apply sqrt_le_1_alt. lra.
Qed.
Lemma sqrt_pi_val : ffin (@nsqrt A npi) /\ Rabs (fval (@nsqrt A npi) - sqrt PI) <= 9 / 10 ^ 16.
Proof.
  destruct pi_val as [F E]. assert (PL := PI_lower). assert (PU := PI_upper). assert (SB := sqrt_pi_bounds).
  assert (Rp : 3 <= fval (@npi A) <= 4).
  { assert (X := Rle_abs (fval (@npi A) - PI)). assert (Y := Rle_abs (- (fval (@npi A) - PI))). rewrite Rabs_Ropp in Y. lra. }
  destruct (sqrt_val (be := be) npi F ltac:(lra)) as [F' E']. split; [exact F'|]. rewrite E'.
  assert (D := sqrt_diff PI (fval (@npi A)) ltac:(lra) ltac:(lra)).
  set (q := sqrt (fval (@npi A))) in *. set (d := fval (@npi A) - PI) in *.
  assert (D' : Rabs d / sqrt PI <= 68 / 10 ^ 17).
  { apply Rmult_le_reg_r with (sqrt PI); [lra|]. unfold Rdiv at 1. rewrite Rmult_assoc, Rinv_l by lra. lra. }
  assert (X := rnd_err q). assert (UV := uro_val). assert (U0 := uro_pos).
  assert (EV : eta <= 1 / 10 ^ 30). { apply Rle_trans with (1 * eta); [lra|]. eapply Rle_trans; [apply tiny; apply IZR_le; lia|apply tiny_small]. }
  assert (Qb : Rabs q <= 179 / 100).
  { replace q with ((q - sqrt PI) + sqrt PI) by ring. eapply Rle_trans; [apply Rabs_triang|]. rewrite (Rabs_right (sqrt PI)) by lra. lra. }
  assert (uro * Rabs q <= 201 / 10 ^ 18) by (apply Rle_trans with (112 / 10 ^ 18 * (179 / 100)); [apply Rmult_le_compat; try lra; apply Rabs_pos|lra]).
  replace (rnd q - sqrt PI) with ((rnd q - q) + (q - sqrt PI)) by ring. eapply Rle_trans; [apply Rabs_triang|]. lra.
Qed.
Lemma sqrt_two : sqrt 2 <= 1415 / 1000.
Proof. rewrite <- (sqrt_square (1415 / 1000)) by lra. apply sqrt_le_1_alt. lra. Qed.

Section HermiteFloat.
Variables (ext : Linalg A) (n : Z) (r : GaussHermite A) (tau rho phi : R).
Hypothesis Hn : (1 <= n <= 2 ^ 53)%Z.
Hypothesis So : sorts ext.
Hypothesis Ht : sqrt (2 * IZR n) <= tau.
Hypothesis Ex : float_solver ext (Z.to_nat n) hermite_diag hermite_off_diag tau rho phi.
Hypothesis Hphi : phi < 1.
Hypothesis Hr : hermite_new ext n = Ok r.
Let N := Z.to_nat n.
Let del := uro * sqrt (INR N / 2) + eta.

Lemma hf_run : golub_welsch ext N hermite_diag hermite_off_diag (nsqrt npi) = Ok (hermite_pairs r).
Proof. unfold hermite_new in Hr. fold N in Hr. destruct (golub_welsch ext N hermite_diag hermite_off_diag (nsqrt npi)); [|discriminate]. cbn [bind] in Hr. injection Hr; intros <-. reflexivity. Qed.
Lemma hf_N : INR N = IZR n. Proof. unfold N. rewrite INR_IZR_INZ, Z2Nat.id by lia. reflexivity. Qed.
Lemma hf_scale : Rabs (fval (@nsqrt A npi)) <= 1781 / 1000.
Proof.
  destruct sqrt_pi_val as [_ E]. assert (SB := sqrt_pi_bounds). replace (fval (@nsqrt A npi)) with ((fval (@nsqrt A npi) - sqrt PI) + sqrt PI) by ring.
  eapply Rle_trans; [apply Rabs_triang|]. rewrite (Rabs_right (sqrt PI)) by lra. lra.
Qed.
Lemma hf_big : Rabs (fval (@nsqrt A npi)) <= bpow radix2 1000.
Proof. apply Rle_trans with (bpow radix2 1); [|apply bpow_le; lia]. simpl bpow. assert (X := hf_scale). lra. Qed.
Lemma hf_Hn : (1 <= N)%nat. Proof. unfold N. lia. Qed.
Lemma hf_phi : 0 <= phi.
Proof.
  destruct (float_pairs ext N _ _ _ tau rho phi _ hf_Hn So Ex Hphi (proj1 sqrt_pi_val) hf_big hf_run) as (lam & V & w & _ & He & _).
  apply (phi_pos N _ lam V _ phi hf_Hn He).
Qed.
Lemma hf_tau : 0 <= tau. Proof. eapply Rle_trans; [apply sqrt_pos|exact Ht]. Qed.
Lemma hf_del : 3 * del * sqrt (1 + phi) <= 4 / 10 ^ 16 * sqrt (IZR n).
Proof.
  unfold del. rewrite hf_N. assert (P := hf_phi). assert (N1 : 1 <= IZR n) by (apply IZR_le; lia).
  assert (S1 : 1 <= sqrt (IZR n)) by (rewrite <- sqrt_1; apply sqrt_le_1_alt; exact N1).
  assert (S2 : sqrt (1 + phi) <= 1415 / 1000) by (eapply Rle_trans; [apply sqrt_le_1_alt|apply sqrt_two]; lra).
  assert (S3 : sqrt (IZR n / 2) <= sqrt (IZR n) * (7072 / 10000)).
  { rewrite <- (sqrt_square (7072 / 10000)), <- sqrt_mult by lra. apply sqrt_le_1_alt. lra. }
  assert (UV := uro_val). assert (U0 := uro_pos). assert (E0 := eta_pos).
  assert (EV : eta <= 1 / 10 ^ 30). { apply Rle_trans with (1 * eta); [lra|]. eapply Rle_trans; [apply tiny; apply IZR_le; lia|apply tiny_small]. }
  assert (S4 := sqrt_pos (IZR n / 2)). assert (S5 := sqrt_pos (1 + phi)).
  set (s := sqrt (IZR n)) in *. set (t := sqrt (IZR n / 2)) in *.
  assert (D : uro * t + eta <= 8 / 10 ^ 17 * s).
  { apply Rle_trans with (112 / 10 ^ 18 * (s * (7072 / 10000)) + 1 / 10 ^ 30); [|lra]. apply Rplus_le_compat; [apply Rmult_le_compat; lra|lra]. }
  apply Rle_trans with (3 * (8 / 10 ^ 17 * s) * (1415 / 1000)); [|lra].
  apply Rmult_le_compat; [nra|exact S5|lra|exact S2].
Qed.
Lemma hf_close : forall i, (i < N - 1)%nat -> Rabs (fval (@hermite_off_diag A i) - @hermite_off_diag RA i) <= del.
Proof.
  intros i Hi. eapply Rle_trans; [apply hermite_off_val; unfold N in Hi; lia|]. unfold del. apply Rplus_le_compat_r. apply Rmult_le_compat_l; [apply Rlt_le, uro_pos|].
  apply sqrt_le_1_alt. assert (INR (S i) <= INR N) by (apply le_INR; lia). lra.
Qed.
Lemma hf_diag : forall i, (i < N)%nat -> Rabs (fval (@hermite_diag A i) - @hermite_diag RA i) <= del.
Proof.
  intros i _. unfold hermite_diag. rewrite lit0_val, ra_lit0, Rminus_0_r, Rabs_R0. unfold del. assert (U0 := uro_pos). assert (E0 := eta_pos). assert (S4 := sqrt_pos (INR N / 2)). nra.
Qed.
Lemma hf_rows : row_sums N (@hermite_diag RA) (@hermite_off_diag RA) tau.
Proof.
  apply (row_sums_bound N _ _ 0 (sqrt (INR N / 2)) tau hf_Hn).
  - intros i _. unfold hermite_diag. rewrite ra_lit0, Rabs_R0. lra.
  - intros i Hi. replace (@hermite_off_diag RA i) with (sqrt (INR (S i) / 2)).
    + rewrite Rabs_right by (apply Rle_ge, sqrt_pos). apply sqrt_le_1_alt. assert (INR (S i) <= INR N) by (apply le_INR; lia). lra.
    + unfold hermite_off_diag. ra_simpl. ra_lits. rewrite IZR_INR, S_INR. f_equal. field.
  - apply sqrt_pos.
  - rewrite hf_N. assert (N1 : 1 <= IZR n) by (apply IZR_le; lia). replace (0 + 2 * sqrt (IZR n / 2)) with (sqrt (2 * IZR n)); [exact Ht|].
    rewrite Rplus_0_l. rewrite <- (sqrt_square 2) at 2 by lra. rewrite <- sqrt_mult by lra. f_equal. field.
Qed.
Lemma hermite_float_values : forall c f, (forall x, f x = rsum (2 * N) (fun j => c j * x ^ j)) -> exists v, hermite_integral f v /\
  Rabs (apply_rule (real_pairs (hermite_pairs r)) f - v) <=
    rsum (2 * N) (fun j => Rabs (c j) * (sqrt PI * moment_error N tau (rho + 4 / 10 ^ 16 * sqrt (IZR n)) phi j + 3 / 10 ^ 15 * tau ^ j)).
Proof.
  intros c f Hf. destruct hermite_coeffs as (Ca & Cb & Cz). assert (Hn' := hf_Hn). exists (hermite_L f). split.
  { apply (hermite_gen (2 * N - 1)). exists c. intros x. replace (S (2 * N - 1)) with (2 * N)%nat by lia. apply Hf. }
  assert (HO : orthogonal_up_to N hermite_L (monic (@hermite_diag RA) (@hermite_off_diag RA))) by (intros i k Hik _; apply hermite_orth; [exact Ca|exact Cb|lia]).
  eapply Rle_trans; [exact (float_values ext N _ _ _ tau rho phi _ Hn' So Ex Hphi (proj1 sqrt_pi_val) hf_big hf_run _ _ del hermite_L hf_diag hf_close hf_rows (fun i _ => Cz i) hermite_linear HO c f Hf)|].
  rewrite hermite_one. apply rsum_le. intros j _. apply Rmult_le_compat_l; [apply Rabs_pos|].
  assert (SB := sqrt_pi_bounds). rewrite (Rabs_right (sqrt PI)) by lra. assert (T0 := hf_tau). assert (P0 := hf_phi).
  apply Rplus_le_compat.
  - apply Rmult_le_compat_l; [lra|]. apply moment_error_mono; [exact T0|exact P0|]. apply Rplus_le_compat_l, hf_del.
  - apply Rmult_le_compat_r; [apply pow_le, T0|].
    assert (X := hf_scale). destruct sqrt_pi_val as [_ D]. assert (UV := uro_val). assert (U0 := uro_pos). assert (E0 := eta_pos).
    set (S := Rabs (fval (@nsqrt A npi))) in *. assert (S0 : 0 <= S) by apply Rabs_pos. set (d := Rabs (fval (@nsqrt A npi) - sqrt PI)) in *. assert (d0 : 0 <= d) by apply Rabs_pos.
    assert (T1 : INR N * (((1 + uro) * S + 1) * eta) <= 1 / 10 ^ 20).
    { assert (Y := tiny (INR N) ltac:(rewrite hf_N; apply IZR_le; lia)). assert (Z := tiny_small). assert (N0 : 0 <= INR N) by apply pos_INR.
      replace (INR N * (((1 + uro) * S + 1) * eta)) with (((1 + uro) * S + 1) * (INR N * eta)) by ring.
      assert (W : (1 + uro) * S <= 2 * 2) by (apply Rmult_le_compat; lra).
      apply Rle_trans with (5 * (1 / 10 ^ 30)); [|lra]. apply Rmult_le_compat; [|apply Rmult_le_pos; lra|lra|lra]. assert (0 <= (1 + uro) * S) by (apply Rmult_le_pos; lra). lra. }
    assert (T2 : (2 * uro + uro * uro) * S <= 4 / 10 ^ 16).
    { apply Rle_trans with ((2 * (112 / 10 ^ 18) + 1 / 10 ^ 20) * (1781 / 1000)); [|lra]. apply Rmult_le_compat; [nra|exact S0| |exact X]. assert (uro * uro <= 112 / 10 ^ 18 * (112 / 10 ^ 18)) by (apply Rmult_le_compat; lra). lra. }
    assert (T3 : (1 + phi) * ((2 * uro + uro * uro) * S + d) <= 2 * (13 / 10 ^ 16)).
    { apply Rmult_le_compat; [lra| |lra|lra]. assert (0 <= (2 * uro + uro * uro) * S) by (apply Rmult_le_pos; nra). lra. }
    lra.
Qed.
Lemma hermite_float_nodes : forall p, In p (hermite_pairs r) -> ffin (fst p) /\ ffin (snd p) /\
  exists x, monic (@hermite_diag RA) (@hermite_off_diag RA) N x = 0 /\
    Rabs (fval (fst p) - x) <= (rho + 4 / 10 ^ 16 * sqrt (IZR n)) * sqrt (IZR n / (1 - phi)).
Proof.
  intros p Hp. destruct hermite_coeffs as (Ca & Cb & Cz). assert (Hn' := hf_Hn).
  assert (HO : orthogonal_up_to N hermite_L (monic (@hermite_diag RA) (@hermite_off_diag RA))) by (intros i k Hik _; apply hermite_orth; [exact Ca|exact Cb|lia]).
  destruct (float_nodes ext N _ _ _ tau rho phi _ Hn' So Ex Hphi (proj1 sqrt_pi_val) hf_big hf_run _ _ del hermite_L hf_diag hf_close (fun i _ => Cz i) hermite_linear HO p Hp) as (A1 & A2 & x & E & B).
  split; [exact A1|]. split; [exact A2|]. exists x. split; [exact E|]. eapply Rle_trans; [exact B|]. rewrite hf_N.
  apply Rmult_le_compat_r; [apply sqrt_pos|]. apply Rplus_le_compat_l, hf_del.
Qed.
End HermiteFloat.
(** ** Laguerre *)
Lemma sqrt_close : forall x y e t, 0 <= x -> 0 <= y -> 0 <= e <= 1 -> 0 <= t -> Rabs (y - x) <= e * x + t -> Rabs (sqrt y - sqrt x) <= e * sqrt x + sqrt t.
Proof.
  intros x y e t Hx Hy He Ht H. assert (Y1 := Rle_abs (y - x)). assert (Y2 := Rle_abs (- (y - x))). rewrite Rabs_Ropp in Y2.
  assert (SX := sqrt_pos x). assert (SY := sqrt_pos y). assert (ST := sqrt_pos t).
  assert (QX := sqrt_sqrt x Hx). assert (QY := sqrt_sqrt y Hy). assert (QT := sqrt_sqrt t Ht).
  set (p := sqrt x) in *. set (q := sqrt y) in *. set (w := sqrt t) in *.
  apply Rabs_le. split.
  - destruct (Rle_lt_dec ((1 - e) * p) (q + w)) as [Q|Q]; [lra|exfalso].
    assert ((q + w) * (q + w) < (1 - e) * p * ((1 - e) * p)) by (apply Rmult_le_0_lt_compat; lra).
    assert (q * q + w * w <= (q + w) * (q + w)) by (assert (0 <= q * w) by (apply Rmult_le_pos; assumption); lra).
    assert ((1 - e) * p * ((1 - e) * p) <= (1 - e) * (p * p)) by (replace ((1 - e) * p * ((1 - e) * p)) with ((1 - e) * ((1 - e) * (p * p))) by ring; apply Rmult_le_compat_l; [lra|]; assert (0 <= e * (p * p)) by (apply Rmult_le_pos; [lra|apply Rle_0_sqr]); lra).
    rewrite QX, QY, QT in *. lra.
  - destruct (Rle_lt_dec q ((1 + e) * p + w)) as [Q|Q]; [lra|exfalso].
    assert (0 <= (1 + e) * p) by (apply Rmult_le_pos; lra).
    assert (((1 + e) * p + w) * ((1 + e) * p + w) < q * q) by (apply Rmult_le_0_lt_compat; lra).
    assert ((1 + e) * (p * p) + w * w <= ((1 + e) * p + w) * ((1 + e) * p + w)).
    { assert (0 <= (1 + e) * p * w) by (apply Rmult_le_pos; assumption).
      assert ((1 + e) * (p * p) <= (1 + e) * p * ((1 + e) * p)) by (replace ((1 + e) * p * ((1 + e) * p)) with ((1 + e) * ((1 + e) * (p * p))) by ring; apply Rmult_le_compat_l; [lra|]; assert (0 <= e * (p * p)) by (apply Rmult_le_pos; [lra|apply Rle_0_sqr]); lra).
      lra. }
    rewrite QX, QY, QT in *. lra.
Qed.
Lemma eta_sqrt : sqrt eta <= 1 / 10 ^ 100.
Proof.
  rewrite <- (sqrt_square (1 / 10 ^ 100)) by (apply Rlt_le, Rdiv_lt_0_compat; [lra|apply pow_lt; lra]). apply sqrt_le_1_alt.
  apply Rle_trans with (1 * eta); [lra|]. eapply Rle_trans; [apply tiny; apply IZR_le; lia|]. right.
  replace 200%nat with (100 + 100)%nat by reflexivity. rewrite pow_add. set (t := 10 ^ 100). assert (t <> 0) by (apply pow_nonzero; lra). field. exact H.
Qed.
Lemma ffin_format : forall x : f64, generic_format radix2 (FLT_exp (-1074) 53) (fval x).
Proof. intros x. apply (generic_format_B2R 53 1024). Qed.

Section LaguerreFloat.
Variables (ext : Linalg A) (n : Z) (al : Param A) (r : GaussLaguerre A) (G tau rho phi : R).
Notation av := (fval (param_get al)).
Notation sf := (@gamma A (nadd (param_get al) lit1)).
Hypothesis Hn : (1 <= n <= 2 ^ 52)%Z.
Hypothesis Fa : ffin (param_get al).
Hypothesis Ba : -1 < av <= bpow radix2 500.
Hypothesis So : sorts ext.
Hypothesis Ht : 4 * IZR n + 3 * Rabs av + 1 <= tau.
Hypothesis Fs : ffin sf.
Hypothesis Bs : Rabs (fval sf) <= bpow radix2 1000.
Hypothesis HGam : is_Gamma (av + 1) G.
Hypothesis Ex : float_solver ext (Z.to_nat n) (laguerre_diag (param_get al)) (laguerre_off_diag (param_get al)) tau rho phi.
Hypothesis Hphi : phi < 1.
Hypothesis Hr : laguerre_new ext n al = Ok r.
Let N := Z.to_nat n.
Let K := 2 * IZR n + Rabs av + 1.
Let del := 4 / 10 ^ 16 * K.

Lemma lf_run : golub_welsch ext N (laguerre_diag (param_get al)) (laguerre_off_diag (param_get al)) sf = Ok (laguerre_pairs r).
Proof. unfold laguerre_new in Hr. fold N in Hr. destruct (golub_welsch ext N _ _ sf); [|discriminate]. cbn [bind] in Hr. injection Hr; intros <-. reflexivity. Qed.
Lemma lf_N : INR N = IZR n. Proof. unfold N. rewrite INR_IZR_INZ, Z2Nat.id by lia. reflexivity. Qed.
Lemma lf_Hn : (1 <= N)%nat. Proof. unfold N. lia. Qed.
Lemma lf_small : forall x, Rabs x <= 4 * bpow radix2 500 -> no_overflow x.
Proof.
  intros x Hx. apply no_overflow_small. eapply Rle_trans; [exact Hx|]. replace 4 with (bpow radix2 2) by (simpl; lra). rewrite <- bpow_plus. apply bpow_le. lia.
Qed.
Lemma lf_pow : IZR (2 ^ 53) <= bpow radix2 500.
Proof. replace (IZR (2 ^ 53)) with (bpow radix2 53) by (rewrite <- (IZR_Zpower radix2 53) by lia; reflexivity). apply bpow_le. lia. Qed.
Lemma lf_uro : 0 < uro <= 112 / 10 ^ 18. Proof. split; [apply uro_pos|apply uro_val]. Qed.
Lemma lf_eta : 0 < eta <= 1 / 10 ^ 30.
Proof. split; [apply eta_pos|]. apply Rle_trans with (1 * eta); [lra|]. eapply Rle_trans; [apply tiny; apply IZR_le; lia|apply tiny_small]. Qed.

Lemma lf_diag : forall i, (i < N)%nat -> Rabs (fval (@laguerre_diag A (param_get al) i) - @laguerre_diag RA av i) <= del.
Proof.
  intros i Hi. assert (Hz : (Z.of_nat i < n)%Z) by (unfold N in Hi; lia). assert (U := lf_uro).
  destruct (laguerre_coeffs av (proj1 Ba)) as (Ca & _ & _). rewrite Ca. unfold laguerre_diag.
  destruct (lit_int_exact 1 ltac:(vm_compute; discriminate)) as [F1 E1]. destruct (lit_int_exact 2 ltac:(vm_compute; discriminate)) as [F2 E2].
  destruct (ofZ_exact (Z.of_nat i) ltac:(lia)) as [F3 E3].
  assert (PW := lf_pow). assert (PW' : 1 <= IZR (2 ^ 53)) by (apply IZR_le; lia). assert (Va : Rabs av <= bpow radix2 500) by (apply Rabs_le; lra).
  destruct (add_finite be (param_get al) lit1 Fa F1) as [F4 E4].
  { apply lf_small. change (fval (@lit1 A)) with (fval (f64_lit 1 0)). rewrite E1. eapply Rle_trans; [apply Rabs_triang|]. rewrite (Rabs_right (IZR 1)) by lra. lra. }
  assert (R4 := rnd_add_err av (fval (@lit1 A)) (ffin_format _) (ffin_format _)). rewrite <- E4 in R4.
  change (fval (@lit1 A)) with (fval (f64_lit 1 0)) in R4. rewrite E1 in R4.
  set (p := fval (@nadd A (param_get al) lit1)) in *.
  destruct (mul_finite be lit2 (nofZ (Z.of_nat i)) F2 F3) as [F5 E5].
  { change (@nofZ A) with f64_of_Z. change (fval (@lit2 A)) with (fval (f64_lit 2 0)). rewrite E3, E2, <- mult_IZR. apply no_overflow_small, abs_IZR_bound. lia. }
  change (@nofZ A) with f64_of_Z in *. change (fval (@lit2 A)) with (fval (f64_lit 2 0)) in *. rewrite E3, E2, <- mult_IZR, rnd_IZR in E5 by lia.
  assert (A1 : 0 <= av + 1) by lra. rewrite (Rabs_right (av + 1)) in R4 by lra.
  assert (pb : Rabs (p - (av + 1)) <= av + 1) by (eapply Rle_trans; [exact R4|]; nra).
  assert (Pb : 0 <= p <= 2 * (av + 1)) by (assert (X := Rle_abs (p - (av + 1))); assert (Y := Rle_abs (- (p - (av + 1)))); rewrite Rabs_Ropp in Y; lra).
  assert (Nb : 0 <= IZR (2 * Z.of_nat i) <= IZR (2 ^ 53)) by (split; apply IZR_le; lia).
  assert (Nn : IZR (2 * Z.of_nat i) + 2 <= 2 * IZR n) by (rewrite <- plus_IZR, <- mult_IZR; apply IZR_le; lia).
  destruct (add_finite be _ _ F4 F5) as [F6 E6].
  { fold p. rewrite E5. apply lf_small. rewrite Rabs_right by lra. lra. }
  assert (R6 := rnd_add_err p (fval (@nmul A lit2 (f64_of_Z (Z.of_nat i)))) (ffin_format _) (ffin_format _)). fold p in E6. rewrite <- E6 in R6. rewrite E5 in R6.
  rewrite (Rabs_right (p + _)) in R6 by lra.
  set (z := fval (@nadd A (@nadd A (param_get al) lit1) (@nmul A lit2 (f64_of_Z (Z.of_nat i))))) in *.
  rewrite INR_IZR_INZ. rewrite <- mult_IZR. set (m := IZR (2 * Z.of_nat i)) in *.
  replace (z - (av + 1 + m)) with ((z - (p + m)) + (p - (av + 1))) by ring. eapply Rle_trans; [apply Rabs_triang|].
  assert (Av := Rle_abs av). unfold del, K.
  assert (uro * (av + 1) <= 112 / 10 ^ 18 * (av + 1)) by (apply Rmult_le_compat_r; lra).
  assert (Pc : p <= (1 + 1 / 10 ^ 10) * (av + 1)) by (assert (X := Rle_abs (p - (av + 1))); nra).
  assert (uro * (p + m) <= 112 / 10 ^ 18 * (p + m)) by (apply Rmult_le_compat_r; lra).
  lra.
Qed.
Lemma lf_real_off : forall i, @laguerre_off_diag RA av i = sqrt (INR (S i) * (INR (S i) + av)).
Proof. intros i. unfold laguerre_off_diag. ra_simpl. ra_lits. rewrite IZR_INR, S_INR. f_equal. ring. Qed.
Lemma lf_prod : forall k, 1 <= k <= IZR n -> 0 <= k * (k + av) /\ sqrt (k * (k + av)) <= IZR n + Rabs av.
Proof.
  intros k Hk. assert (X := Rle_abs av). assert (X' := Rabs_pos av). split; [apply Rmult_le_pos; lra|].
  rewrite <- (sqrt_square (IZR n + Rabs av)) by lra. apply sqrt_le_1_alt. apply Rmult_le_compat; lra.
Qed.
Lemma lf_off : forall i, (i < N - 1)%nat -> Rabs (fval (@laguerre_off_diag A (param_get al) i) - @laguerre_off_diag RA av i) <= del.
Proof.
  intros i Hi. assert (Hz : (Z.of_nat (S i) < n)%Z) by (unfold N in Hi; lia). assert (U := lf_uro). assert (E0 := lf_eta).
  rewrite lf_real_off. unfold laguerre_off_diag.
  destruct (count_val i ltac:(lia)) as [F1 E1]. set (kf := @nadd A lit1 (nofZ (Z.of_nat i))) in *. clearbody kf.
  assert (Kb : 1 <= INR (S i) <= IZR n) by (rewrite INR_IZR_INZ; split; apply IZR_le; lia).
  assert (Kc : INR (S i) <= IZR (2 ^ 52)) by (rewrite INR_IZR_INZ; apply IZR_le; lia).
  destruct (lf_prod _ Kb) as [P0 P1]. set (k := INR (S i)) in *. clearbody k.
  assert (PW := lf_pow). assert (PW' : IZR (2 ^ 52) <= IZR (2 ^ 53)) by (apply IZR_le; lia).
  destruct (add_finite be kf (param_get al) F1 Fa) as [F2 E2].
  { rewrite E1. apply lf_small. rewrite Rabs_right by lra. lra. }
  assert (R2 := rnd_add_err (fval kf) av (ffin_format _) (ffin_format _)). rewrite <- E2, E1 in R2. rewrite (Rabs_right (k + av)) in R2 by lra.
  set (q := fval (@nadd A kf (param_get al))) in *.
  assert (Qb : 0 <= q <= 2 * (k + av)).
  { assert (Rabs (q - (k + av)) <= k + av) by (eapply Rle_trans; [exact R2|]; nra). assert (X := Rle_abs (q - (k + av))). assert (Y := Rle_abs (- (q - (k + av)))). rewrite Rabs_Ropp in Y. lra. }
  destruct (mul_finite be kf _ F1 F2) as [F3 E3].
  { rewrite E1. fold q. apply no_overflow_small. rewrite Rabs_right by (apply Rle_ge, Rmult_le_pos; lra).
    apply Rle_trans with (bpow radix2 52 * (4 * bpow radix2 500)).
    - apply Rmult_le_compat; try lra. eapply Rle_trans; [exact Kc|]. right. rewrite <- (IZR_Zpower radix2 52) by lia. reflexivity.
    - replace 4 with (bpow radix2 2) by (simpl; lra). rewrite <- !bpow_plus. apply bpow_le. lia. }
  rewrite E1 in E3. fold q in E3. assert (R3 := rnd_err (k * q)). rewrite <- E3 in R3. rewrite (Rabs_right (k * q)) in R3 by (apply Rle_ge, Rmult_le_pos; lra).
  set (p' := fval (@nmul A kf (@nadd A kf (param_get al)))) in *.
  assert (P'0 : 0 <= p'). { rewrite E3. unfold rnd. apply round_ge_generic; [apply FLT_exp_valid; reflexivity|apply valid_rnd_N|apply generic_format_0|]. apply Rmult_le_pos; lra. }
  destruct (sqrt_val (be := be) _ F3 P'0) as [_ E4]. fold p' in E4. rewrite E4. clear E4.
  assert (R4 := rnd_err (sqrt p')). rewrite (Rabs_right (sqrt p')) in R4 by (apply Rle_ge, sqrt_pos).
  assert (C : Rabs (p' - k * (k + av)) <= (2 * uro + uro * uro) * (k * (k + av)) + eta).
  { replace (p' - k * (k + av)) with ((p' - k * q) + k * (q - (k + av))) by ring. eapply Rle_trans; [apply Rabs_triang|]. rewrite (Rabs_mult k), (Rabs_right k) by lra.
    assert (k * Rabs (q - (k + av)) <= k * (uro * (k + av))) by (apply Rmult_le_compat_l; lra).
    assert (q <= (1 + uro) * (k + av)) by (assert (X := Rle_abs (q - (k + av))); lra).
    assert (uro * (k * q) <= uro * (k * ((1 + uro) * (k + av)))) by (apply Rmult_le_compat_l; [lra|]; apply Rmult_le_compat_l; lra).
    lra. }
  set (p := k * (k + av)) in *.
  assert (UU : uro * uro <= 1 / 10 ^ 20). { apply Rle_trans with (112 / 10 ^ 18 * (112 / 10 ^ 18)); [apply Rmult_le_compat; lra|lra]. }
  assert (UU0 : 0 <= uro * uro) by (apply Rmult_le_pos; lra).
  assert (D := sqrt_close p p' (2 * uro + uro * uro) eta P0 P'0 ltac:(lra) ltac:(lra) C). assert (SE := eta_sqrt). assert (SE0 := sqrt_pos eta).
  assert (T30 : 1 / 10 ^ 100 <= 1 / 10 ^ 30). { unfold Rdiv. rewrite !Rmult_1_l. apply Rinv_le_contravar; [apply pow_lt; lra|]. apply Rle_pow; [lra|lia]. }
  set (t := sqrt p) in *. assert (t0 : 0 <= t) by apply sqrt_pos. set (t' := sqrt p') in *. 
  assert (D' : (2 * uro + uro * uro) * t <= 225 / 10 ^ 18 * t) by (apply Rmult_le_compat_r; lra).
  assert (T' : t' <= t * 2 + 1) by (assert (X := Rle_abs (t' - t)); lra).
  assert (T'' : t' <= t * (1 + 1 / 10 ^ 10) + 1 / 10 ^ 30) by (assert (X := Rle_abs (t' - t)); lra).
  assert (uro * t' <= 112 / 10 ^ 18 * t') by (apply Rmult_le_compat_r; [apply sqrt_pos|lra]).
  replace (rnd t' - t) with ((rnd t' - t') + (t' - t)) by ring. eapply Rle_trans; [apply Rabs_triang|].
  assert (Av := Rabs_pos av). assert (N1 : 1 <= IZR n) by lra. unfold del, K. clear - Av N1 R4 D D' T'' H P1 E0 SE T30 t0. lra.
Qed.
Lemma lf_rows : row_sums N (@laguerre_diag RA av) (@laguerre_off_diag RA av) tau.
Proof.
  destruct (laguerre_coeffs av (proj1 Ba)) as (Ca & _ & _). assert (Av := Rabs_pos av). assert (Av' := Rle_abs av). assert (N1 : 1 <= IZR n) by (apply IZR_le; lia).
  apply (row_sums_bound N _ _ (2 * IZR n + Rabs av + 1) (IZR n + Rabs av) tau lf_Hn).
  - intros i Hi. rewrite Ca. assert (0 <= INR i <= INR N) by (split; [apply pos_INR|apply le_INR; lia]). rewrite lf_N in H. rewrite Rabs_right by lra. lra.
  - intros i Hi. rewrite lf_real_off. rewrite Rabs_right by (apply Rle_ge, sqrt_pos). apply lf_prod. rewrite <- lf_N, S_INR. assert (0 <= INR i) by apply pos_INR. split; [lra|]. rewrite <- S_INR. apply le_INR. lia.
  - lra.
  - lra.
Qed.
Lemma lf_phi : 0 <= phi.
Proof.
  destruct (float_pairs ext N _ _ _ tau rho phi _ lf_Hn So Ex Hphi Fs Bs lf_run) as (lam & V & w & _ & He & _).
  apply (phi_pos N _ lam V _ phi lf_Hn He).
Qed.
Lemma lf_del : 3 * del * sqrt (1 + phi) <= 2 / 10 ^ 15 * K.
Proof.
  assert (P := lf_phi). assert (S2 : sqrt (1 + phi) <= 1415 / 1000) by (eapply Rle_trans; [apply sqrt_le_1_alt|apply sqrt_two]; lra).
  assert (K0 : 0 <= K) by (unfold K; assert (N1 : 1 <= IZR n) by (apply IZR_le; lia); assert (Av := Rabs_pos av); lra).
  unfold del. apply Rle_trans with (3 * (4 / 10 ^ 16 * K) * (1415 / 1000)); [|lra]. apply Rmult_le_compat_l; lra.
Qed.
Lemma lf_tau : 0 <= tau. Proof. assert (N1 : 1 <= IZR n) by (apply IZR_le; lia). assert (Av := Rabs_pos av). lra. Qed.

Let L := fun f => fval sf / G * laguerre_L av f.
Lemma lf_G : 0 < G.
Proof. rewrite (gamma_mass av G (proj1 Ba) HGam). apply laguerre_one_pos, Ba. Qed.
Lemma lf_lin : linear_on_polynomials L. Proof. apply scaled_linear, laguerre_linear, Ba. Qed.
Lemma lf_one : L (fun _ => 1) = fval sf.
Proof. unfold L. rewrite <- (gamma_mass av G (proj1 Ba) HGam). assert (X := lf_G). field. lra. Qed.
Lemma lf_orth : orthogonal_up_to N L (monic (@laguerre_diag RA av) (@laguerre_off_diag RA av)).
Proof.
  destruct (laguerre_coeffs av (proj1 Ba)) as (Ca & Cb & _). intros i k Hik _. unfold L. rewrite laguerre_orth; [ring|apply Ba|exact Ca|exact Cb|lia].
Qed.
Lemma laguerre_float_values : forall c f, (forall x, f x = rsum (2 * N) (fun j => c j * x ^ j)) -> exists v, laguerre_integral av f v /\
  Rabs (apply_rule (real_pairs (laguerre_pairs r)) f - fval sf / G * v) <=
    rsum (2 * N) (fun j => Rabs (c j) * (Rabs (fval sf) * moment_error N tau (rho + 2 / 10 ^ 15 * (2 * IZR n + Rabs av + 1)) phi j +
      (1 / 10 ^ 15 * Rabs (fval sf) + 1 / 10 ^ 200) * tau ^ j)).
Proof.
  intros c f Hf. destruct (laguerre_coeffs av (proj1 Ba)) as (Ca & Cb & Cz). assert (Hn' := lf_Hn). exists (laguerre_L av f). split.
  { apply (laguerre_gen av (proj1 Ba) (2 * N - 1)). exists c. intros x. replace (S (2 * N - 1)) with (2 * N)%nat by lia. apply Hf. }
  eapply Rle_trans; [exact (float_values ext N _ _ _ tau rho phi _ Hn' So Ex Hphi Fs Bs lf_run _ _ del L lf_diag lf_off lf_rows (fun i _ => Cz i) lf_lin lf_orth c f Hf)|].
  rewrite lf_one. apply rsum_le. intros j _. apply Rmult_le_compat_l; [apply Rabs_pos|].
  assert (T0 := lf_tau). assert (P0 := lf_phi). apply Rplus_le_compat.
  - apply Rmult_le_compat_l; [apply Rabs_pos|]. apply moment_error_mono; [exact T0|exact P0|]. apply Rplus_le_compat_l, lf_del.
  - apply Rmult_le_compat_r; [apply pow_le, T0|]. rewrite Rminus_eq_0, Rabs_R0, Rplus_0_r. assert (U := lf_uro). assert (E0 := eta_pos).
    set (S := Rabs (fval sf)). assert (S0 : 0 <= S) by apply Rabs_pos.
    assert (Y := tiny (INR N) ltac:(rewrite lf_N; apply IZR_le; lia)). assert (Z := tiny_small). assert (N0 : 0 <= INR N) by apply pos_INR.
    replace (INR N * (((1 + uro) * S + 1) * eta)) with ((1 + uro) * (INR N * eta) * S + INR N * eta) by ring.
    set (w := INR N * eta) in *. assert (w0 : 0 <= w) by (apply Rmult_le_pos; lra).
    assert (W : (1 + uro) * w <= 2 * (1 / 10 ^ 30)) by (apply Rmult_le_compat; lra).
    assert (UU : uro * uro <= 1 / 10 ^ 20). { apply Rle_trans with (112 / 10 ^ 18 * (112 / 10 ^ 18)); [apply Rmult_le_compat; lra|lra]. }
    assert (UU0 : 0 <= uro * uro) by (apply Rmult_le_pos; lra).
    assert (T1 : (1 + phi) * (2 * uro + uro * uro) <= 2 * (225 / 10 ^ 18)) by (apply Rmult_le_compat; lra).
    rewrite <- Rmult_assoc, <- Rplus_assoc, <- Rmult_plus_distr_r. apply Rplus_le_compat; [|exact Y]. apply Rmult_le_compat_r; [exact S0|]. lra.
Qed.
Lemma laguerre_float_nodes : forall p, In p (laguerre_pairs r) -> ffin (fst p) /\ ffin (snd p) /\
  exists x, monic (@laguerre_diag RA av) (@laguerre_off_diag RA av) N x = 0 /\
    Rabs (fval (fst p) - x) <= (rho + 2 / 10 ^ 15 * (2 * IZR n + Rabs av + 1)) * sqrt (IZR n / (1 - phi)).
Proof.
  intros p Hp. destruct (laguerre_coeffs av (proj1 Ba)) as (Ca & Cb & Cz). assert (Hn' := lf_Hn).
  destruct (float_nodes ext N _ _ _ tau rho phi _ Hn' So Ex Hphi Fs Bs lf_run _ _ del L lf_diag lf_off (fun i _ => Cz i) lf_lin lf_orth p Hp) as (A1 & A2 & x & E & B).
  split; [exact A1|]. split; [exact A2|]. exists x. split; [exact E|]. eapply Rle_trans; [exact B|]. rewrite lf_N.
  apply Rmult_le_compat_r; [apply sqrt_pos|]. apply Rplus_le_compat_l, lf_del.
Qed.
End LaguerreFloat.
End Rules.
