(** In double arithmetic: which points the integrand is called at. *)
From Coq Require Import Reals ZArith List Lra Lia Psatz.
From Flocq Require Import Core Mult_error Relative IEEE754.Binary.
From Verif Require Import Arith F64 F64Spec F64Proof Machine Iter Rules NewtonCotes Chebyshev Legendre Jacobi
  IntegrateSpec IntegrateProof GaussSpec GaussProof NCSpec TraceProof RoundSpec RoundProof RoundRules RoundNC InsideSpec.
Import ListNotations.
Local Open Scope R_scope.

Lemma uro_val : uro = / 9007199254740992.
Proof. unfold uro. simpl. reflexivity. Qed.
Lemma rnd_le : forall x y, x <= y -> rnd x <= rnd y.
Proof. intros x y H. unfold rnd. apply round_le; [apply valid_exp_f64|apply valid_rnd_N|exact H]. Qed.
Lemma rnd_opp : forall x, rnd (- x) = - rnd x.
Proof. intros x. unfold rnd. apply round_NE_opp. Qed.
Lemma rnd_abs : forall x, Rabs (rnd x) = rnd (Rabs x).
Proof.
  intros x. unfold Rabs at 2. destruct (Rcase_abs x) as [H|H].
  - rewrite rnd_opp, Rabs_left1; [reflexivity|]. rewrite <- (rnd_fmt 0 (generic_format_0 _ _)). apply rnd_le. lra.
  - rewrite Rabs_pos_eq; [reflexivity|]. rewrite <- (rnd_fmt 0 (generic_format_0 _ _)). apply rnd_le. lra.
Qed.
Lemma rnd_abs_le : forall x y, Rabs x <= Rabs y -> Rabs (rnd x) <= Rabs (rnd y).
Proof. intros x y H. rewrite !rnd_abs. apply rnd_le. exact H. Qed.
Lemma between_rnd : forall a b x, fmt a -> fmt b -> between a b x -> between a b (rnd x).
Proof.
  intros a b x Fa Fb [H1 H2]. assert (Fm : fmt (Rmin a b)) by (unfold Rmin; destruct (Rle_dec a b); assumption).
  assert (FM : fmt (Rmax a b)) by (unfold Rmax; destruct (Rle_dec a b); assumption).
  split; [rewrite <- (rnd_fmt _ Fm)|rewrite <- (rnd_fmt _ FM)]; apply rnd_le; assumption.
Qed.
Lemma between_abs : forall a b x, between a b x -> Rabs x <= Rabs a \/ Rabs x <= Rabs b.
Proof.
  intros a b x [H1 H2]. unfold Rmin, Rmax in *. destruct (Rle_dec a b) as [O|O]; destruct (Rle_dec 0 x) as [P|P].
  - right. rewrite !Rabs_pos_eq; lra.
  - left. rewrite (Rabs_left1 x), (Rabs_left1 a); lra.
  - left. rewrite !Rabs_pos_eq; lra.
  - right. rewrite (Rabs_left1 x), (Rabs_left1 b); lra.
Qed.
(** * One step of a Newton-Cotes rule *)
Section Step.
Variables (n : Z) (a b : R).
Hypothesis Hn : (1 <= n < 2 ^ 32)%Z.
Hypothesis Fa : fmt a.
Hypothesis Fb : fmt b.
Hypothesis W : wide n a b.
Let D := b - a.
Let d := rnd D.
Let h := rnd (d / IZR n).
Lemma n_real : 1 <= IZR n <= 4294967296.
Proof. split; apply IZR_le; lia. Qed.
Lemma d_upper : Rabs d <= (1 + uro) * Rabs D.
Proof.
  pose proof (rnd_add_err b (- a) Fb (generic_format_opp _ _ _ Fa)) as H. change (b + - a) with D in H. fold d in H.
  replace d with ((d - D) + D) by ring. eapply Rle_trans; [apply Rabs_triang|]. lra.
Qed.
Lemma same_sign : 0 <= D * d /\ 0 <= D * h.
Proof.
  pose proof n_real as N. assert (S : forall x y, 0 <= x * y -> 0 <= x * rnd y).
  { intros x y H. assert (Z : rnd 0 = 0) by (apply rnd_fmt, generic_format_0). destruct (Rtotal_order x 0) as [X|[X|X]].
    - assert (Hy : y <= 0) by nra. pose proof (rnd_le y 0 Hy). rewrite Z in H0. nra.
    - subst x. lra.
    - assert (Hy : 0 <= y) by nra. pose proof (rnd_le 0 y Hy). rewrite Z in H0. nra. }
  assert (S1 : 0 <= D * d) by (apply S; nra). split; [exact S1|]. apply S. replace (D * (d / IZR n)) with (D * d * / IZR n) by (field; lra).
  apply Rmult_le_pos; [exact S1|]. left. apply Rinv_0_lt_compat. lra.
Qed.
Lemma h_cases : (D = 0 /\ h = 0) \/ (bpow radix2 (-1022) <= Rabs h /\ (1 - uro) * Rabs h <= (1 + uro) ^ 2 * (Rabs D / IZR n)).
Proof.
  pose proof n_real as N. destruct W as [E|E].
  - left. assert (ED : D = 0) by (unfold D; lra). split; [exact ED|]. unfold h, d. rewrite ED. assert (Z : rnd 0 = 0) by (apply rnd_fmt, generic_format_0). rewrite Z. unfold Rdiv. rewrite Rmult_0_l. exact Z.
  - right. fold D in E. assert (E1 : IZR n * bpow radix2 (-1022) <= Rabs d).
    { unfold d. rewrite rnd_abs. rewrite <- (rnd_fmt (IZR n * bpow radix2 (-1022))).
      - apply rnd_le. replace (Rabs D) with (IZR n * (Rabs D / IZR n)) by (field; lra). apply Rmult_le_compat_l; lra.
      - apply generic_format_FLT. exists (Float radix2 n (-1022)); simpl; [reflexivity|lia|lia]. }
    assert (E2 : bpow radix2 (-1022) <= Rabs (d / IZR n)).
    { unfold Rdiv. rewrite Rabs_mult, (Rabs_pos_eq (/ IZR n)) by (left; apply Rinv_0_lt_compat; lra).
      apply (Rmult_le_reg_l (IZR n)); [lra|]. replace (IZR n * (Rabs d * / IZR n)) with (Rabs d) by (field; lra). exact E1. }
    assert (E3 : bpow radix2 (-1022) <= Rabs h).
    { unfold h. rewrite rnd_abs. rewrite <- (rnd_fmt (bpow radix2 (-1022))); [apply rnd_le; exact E2|]. apply generic_format_bpow. unfold FLT_exp. lia. }
    split; [exact E3|]. pose proof (rnd_err (d / IZR n)) as R. fold h in R.
    assert (ET : eta <= uro * Rabs h).
    { unfold eta, uro. replace (bpow radix2 (-1075)) with (bpow radix2 (-53) * bpow radix2 (-1022)) by (rewrite <- bpow_plus; reflexivity). apply Rmult_le_compat_l; [apply bpow_ge_0|exact E3]. }
    assert (Rabs h <= Rabs (h - d / IZR n) + Rabs (d / IZR n)). { replace h with ((h - d / IZR n) + d / IZR n) at 1 by ring. apply Rabs_triang. }
    assert (Q : Rabs (d / IZR n) <= (1 + uro) * (Rabs D / IZR n)).
    { unfold Rdiv. rewrite Rabs_mult, (Rabs_pos_eq (/ IZR n)) by (left; apply Rinv_0_lt_compat; lra). rewrite <- Rmult_assoc. apply Rmult_le_compat_r; [left; apply Rinv_0_lt_compat; lra|apply d_upper]. }
    pose proof uro_pos as U. replace ((1 + uro) ^ 2 * (Rabs D / IZR n)) with ((1 + uro) * ((1 + uro) * (Rabs D / IZR n))) by ring.
    assert ((1 + uro) * Rabs (d / IZR n) <= (1 + uro) * ((1 + uro) * (Rabs D / IZR n))) by (apply Rmult_le_compat_l; lra). lra.
Qed.
(** A displacement of the same sign and of size at most (q (1+u) + 2u) |h| with q <= n - 1/2. *)
Lemma displaced : forall q p, 0 <= q <= IZR n - / 2 -> 0 <= D * p -> Rabs p <= (q * (1 + uro) + 2 * uro) * Rabs h ->
  Rabs p <= Rabs D /\ between a b (a + p).
Proof.
  intros q p Hq S B. pose proof n_real as N. pose proof (Rabs_pos D) as PD.
  assert (G : Rabs p <= Rabs D).
  { destruct h_cases as [[ED Eh]|[_ Hh]].
    - rewrite Eh, Rabs_R0, Rmult_0_r in B. pose proof (Rabs_pos D). lra.
    - assert (U : 0 < uro <= / 9007199254740992) by (rewrite uro_val; lra). pose proof (Rabs_pos h) as Ph.
      assert (K : (q * (1 + uro) + 2 * uro) * (1 + uro) ^ 2 <= (1 - uro) * IZR n).
      { apply Rle_trans with (((IZR n - / 2) * (1 + uro) + 2 * uro) * (1 + uro) ^ 2); [apply Rmult_le_compat_r; [apply pow_le; lra|apply Rplus_le_compat_r, Rmult_le_compat_r; lra]|].
        assert (U2 : (1 + uro) ^ 2 <= 1 + 3 * uro) by nra. assert (U3 : (1 + uro) * (1 + 3 * uro) <= 1 + 5 * uro) by nra.
        apply Rle_trans with (((IZR n - / 2) * (1 + uro) + 2 * uro) * (1 + 3 * uro)); [apply Rmult_le_compat_l; [nra|exact U2]|].
        assert (uro * IZR n <= / 100) by nra. nra. }
      assert (B2 : (1 - uro) * Rabs p <= (1 - uro) * Rabs D).
      { apply Rle_trans with ((q * (1 + uro) + 2 * uro) * ((1 - uro) * Rabs h)); [replace ((q * (1 + uro) + 2 * uro) * ((1 - uro) * Rabs h)) with ((1 - uro) * ((q * (1 + uro) + 2 * uro) * Rabs h)) by ring; apply Rmult_le_compat_l; lra|].
        apply Rle_trans with ((q * (1 + uro) + 2 * uro) * ((1 + uro) ^ 2 * (Rabs D / IZR n))); [apply Rmult_le_compat_l; [nra|exact Hh]|].
        replace ((q * (1 + uro) + 2 * uro) * ((1 + uro) ^ 2 * (Rabs D / IZR n))) with (((q * (1 + uro) + 2 * uro) * (1 + uro) ^ 2) * / IZR n * Rabs D) by (field; lra).
        apply Rmult_le_compat_r; [exact PD|]. apply (Rmult_le_reg_r (IZR n)); [lra|]. rewrite Rmult_assoc, Rinv_l by lra. lra. }
      apply (Rmult_le_reg_l (1 - uro)); lra. }
  split; [exact G|]. unfold between, Rmin, Rmax. destruct (Rle_dec a b) as [O|O].
  - assert (PDD : 0 <= D) by (unfold D; lra). rewrite (Rabs_pos_eq D PDD) in G. destruct PDD as [PDD|E].
    + assert (0 <= p) by nra. rewrite Rabs_pos_eq in G by assumption. unfold D in *. lra.
    + rewrite <- E in G. pose proof (Rabs_pos p). assert (p = 0) by (destruct (Req_dec p 0); [assumption|pose proof (Rabs_pos_lt p H0); lra]). unfold D in *. lra.
  - assert (ND : D < 0) by (unfold D; lra). rewrite (Rabs_left D ND) in G. assert (p <= 0) by nra. rewrite Rabs_left1 in G by assumption. unfold D in *. lra.
Qed.
(** Rounded product with a factor q. *)
Lemma product_step : forall q, 0 <= q -> Rabs (rnd (h * q)) <= (q * (1 + uro) + uro) * Rabs h /\ 0 <= D * rnd (h * q).
Proof.
  intros q Hq. pose proof uro_pos as U. split.
  - destruct h_cases as [[_ E]|[E _]].
    + rewrite E, Rmult_0_l. assert (Z : rnd 0 = 0) by (apply rnd_fmt, generic_format_0). rewrite Z, Rabs_R0. lra.
    + pose proof (rnd_err (h * q)) as R. assert (ET : eta <= uro * Rabs h).
      { unfold eta, uro. replace (bpow radix2 (-1075)) with (bpow radix2 (-53) * bpow radix2 (-1022)) by (rewrite <- bpow_plus; reflexivity). apply Rmult_le_compat_l; [apply bpow_ge_0|exact E]. }
      assert (Rabs (rnd (h * q)) <= Rabs (rnd (h * q) - h * q) + Rabs (h * q)). { replace (rnd (h * q)) with ((rnd (h * q) - h * q) + h * q) at 1 by ring. apply Rabs_triang. }
      rewrite (Rabs_mult h q), (Rabs_pos_eq q) in * by exact Hq. lra.
  - destruct same_sign as [_ S]. assert (Z : rnd 0 = 0) by (apply rnd_fmt, generic_format_0). destruct (Rtotal_order D 0) as [X|[X|X]].
    + assert (h <= 0) by nra. pose proof (rnd_le (h * q) 0 ltac:(nra)). rewrite Z in H0. nra.
    + rewrite X. lra.
    + assert (0 <= h) by nra. pose proof (rnd_le 0 (h * q) ltac:(nra)). rewrite Z in H0. nra.
Qed.
End Step.

Section F.
Variable be : Backend.
Notation A := (F64 be).
Local Open Scope num_scope.
Lemma step_inside : forall a b p : A, ffin a -> ffin b -> ffin p -> between (fval a) (fval b) (fval a + fval p)%R -> inside a b (a [+] p).
Proof.
  intros a b p Ha Hb Hp B. destruct (add_finite be a p Ha Hp) as [F E].
  - unfold no_overflow. destruct (between_abs _ _ _ (between_rnd _ _ _ (fval_format a) (fval_format b) B)) as [H|H]; eapply Rle_lt_trans; try exact H; apply fval_bound.
  - split; [exact F|]. rewrite E. apply between_rnd; [apply fval_format|apply fval_format|exact B].
Qed.
Section NC.
Variables (n : Z) (a b : A).
Hypothesis Hn : (1 <= n < 2 ^ 32)%Z.
Hypothesis Ha : ffin a.
Hypothesis Hb : ffin b.
Hypothesis HO : no_overflow (fval b - fval a).
Hypothesis W : wide n (fval a) (fval b).
Let h : A := (b [-] a) [/] nofZ n.
Lemma h_value : ffin h /\ fval h = rnd (rnd (fval b - fval a) / IZR n).
Proof.
  destruct (sub_finite be b a Hb Ha HO) as [F1 E1]. destruct (ofZ_exact n ltac:(lia)) as [F2 E2].
  assert (NZ : fval (f64_of_Z n) <> 0%R) by (rewrite E2; apply IZR_neq; lia).
  pose proof (n_real n Hn) as N.
  destruct (div_finite be (b [-] a) (nofZ n) F1 NZ) as [F3 E3].
  - rewrite E1. refine (eq_ind_r (fun z => no_overflow (_ / z)) _ E2). unfold no_overflow in *. eapply Rle_lt_trans; [apply rnd_abs_le|rewrite rnd_fmt by apply rnd_format; exact HO].
    unfold Rdiv. rewrite Rabs_mult, (Rabs_pos_eq (/ IZR n)) by (left; apply Rinv_0_lt_compat; lra). rewrite <- (Rmult_1_r (Rabs (rnd _))) at 2.
    apply Rmult_le_compat_l; [apply Rabs_pos|]. rewrite <- Rinv_1. apply Rinv_le_contravar; lra.
  - split; [exact F3|]. unfold h. rewrite E3, E1. refine (eq_ind_r (fun z => rnd (_ / z) = _) _ E2). reflexivity.
Qed.
Lemma product_ok : forall (c : A) q, ffin c -> fval c = q -> (0 <= q <= IZR n - / 2)%R ->
  inside a b (a [+] h [*] c) /\ inside a b (a [+] c [*] h).
Proof.
  intros c q Hc Ec Hq. destruct h_value as [Fh Eh].
  destruct (product_step n (fval a) (fval b) Hn (fval_format _) (fval_format _) W q (proj1 Hq)) as [P1 P2].
  destruct (displaced n (fval a) (fval b) Hn (fval_format _) (fval_format _) W q _ Hq P2) as [P3 P4].
  { eapply Rle_trans; [exact P1|]. apply Rmult_le_compat_r; [apply Rabs_pos|]. pose proof uro_pos. lra. }
  rewrite <- Eh in P3, P4.
  assert (OV : no_overflow (fval h * q)).
  { unfold no_overflow in *. rewrite <- (rnd_fmt _ (rnd_format (fval h * q))). eapply Rle_lt_trans; [apply rnd_abs_le; exact P3|exact HO]. }
  destruct (mul_finite be h c Fh Hc) as [F1 E1]; [rewrite Ec; exact OV|]. destruct (mul_finite be c h Hc Fh) as [F2 E2]; [rewrite Ec, Rmult_comm; exact OV|].
  split; apply step_inside; try assumption.
  - rewrite E1, Ec. exact P4.
  - rewrite E2, Ec, Rmult_comm. exact P4.
Qed.
Lemma half_point : forall i, (0 <= i <= n - 1)%Z -> ffin (@lit_half A [+] nofZ i) /\ fval (@lit_half A [+] nofZ i) = (IZR i + / 2)%R.
Proof.
  intros i Hi. destruct half_exact as [F1 E1]. destruct (ofZ_exact i ltac:(lia)) as [F2 E2].
  assert (G : fmt (/ 2 + IZR i)%R).
  { apply generic_format_FLT. exists (Float radix2 (2 * i + 1) (-1)); [|cbn [Fnum]; change (Z.pow radix2 53) with (2 ^ 53)%Z; lia|cbn [Fexp]; lia]. unfold F2R. cbn [Fnum Fexp]. rewrite plus_IZR, mult_IZR. change (bpow radix2 (-1)) with (/ 2)%R. field. }
  destruct (add_finite be (@lit_half A) (nofZ i) F1 F2) as [F3 E3].
  - refine (eq_ind_r (fun z => no_overflow (z + _)) _ E1). refine (eq_ind_r (fun z => no_overflow (_ + z)) _ E2).
    apply no_overflow_small. rewrite Rabs_pos_eq by (apply Rplus_le_le_0_compat; [lra|apply IZR_le; lia]).
    apply Rle_trans with (IZR (2 ^ 33)); [|change (IZR (2 ^ 33)) with (IZR (Zpower radix2 33)); rewrite (IZR_Zpower radix2 33) by lia; apply bpow_le; lia].
    apply Rle_trans with (1 + IZR i)%R; [lra|]. rewrite <- plus_IZR. apply IZR_le. lia.
  - split; [exact F3|]. rewrite E3. refine (eq_ind_r (fun z => rnd (z + _) = _) _ E1). refine (eq_ind_r (fun z => rnd (_ + z) = _) _ E2). rewrite rnd_fmt by exact G. ring.
Qed.
Lemma in_ints : forall lo k z, In z (ints lo k) -> (lo <= z < lo + Z.of_nat k)%Z.
Proof. intros lo k z H. unfold ints in H. apply in_map_iff in H. destruct H as (i & <- & Hi). apply in_seq in Hi. lia. Qed.
Lemma ends_inside : inside a b a /\ inside a b b.
Proof. unfold inside, between, Rmin, Rmax. destruct (Rle_dec (fval a) (fval b)); repeat split; try assumption; lra. Qed.
Theorem midpoint_float : forall g : A -> A, Forall (inside a b) (snd (midpoint_integrate (A := A) (traced g) (midpoint_new n) a b [])).
Proof.
  intros g. rewrite midpoint_calls by lia. rewrite call_all_traced. cbn [snd]. rewrite app_nil_l. apply Forall_forall. intros x Hx. apply in_map_iff in Hx. destruct Hx as (i & <- & Hi).
  apply in_ints in Hi. destruct (half_point i ltac:(lia)) as [F E]. apply (product_ok _ (IZR i + / 2) F E).
  assert (0 <= IZR i)%R by (apply IZR_le; lia). assert (IZR i <= IZR n - 1)%R by (rewrite <- minus_IZR; apply IZR_le; lia). lra.
Qed.
Lemma edge_inside : forall i, (0 <= i <= n - 1)%Z -> inside a b (a [+] nofZ i [*] h).
Proof.
  intros i Hi. destruct (ofZ_exact i ltac:(lia)) as [F E]. apply (product_ok _ (IZR i) F E).
  assert (0 <= IZR i)%R by (apply IZR_le; lia). assert (IZR i <= IZR n - 1)%R by (rewrite <- minus_IZR; apply IZR_le; lia). lra.
Qed.
Theorem trapezoid_float : forall g : A -> A, Forall (inside a b) (snd (trapezoid_integrate (A := A) (traced g) (trapezoid_new n) a b [])).
Proof.
  intros g. rewrite trapezoid_calls by lia. rewrite !call_all_traced. cbn [snd]. rewrite app_nil_l. apply Forall_app. split.
  - apply Forall_cons; [apply ends_inside|apply Forall_cons; [apply ends_inside|apply Forall_nil]].
  - apply Forall_forall. intros x Hx. apply in_map_iff in Hx. destruct Hx as (i & <- & Hi). apply in_ints in Hi. apply edge_inside. lia.
Qed.
Hypothesis HS : (Rabs (fval b - fval a) <= bpow radix2 1022)%R.
Lemma odd_value : forall i, (1 <= i <= n)%Z -> ffin (@lit2 A [*] nofZ i [-] lit1) /\ fval (@lit2 A [*] nofZ i [-] lit1) = IZR (2 * i - 1).
Proof.
  intros i Hi. destruct (lit_int_exact 2 ltac:(lia)) as [F2 E2]. destruct (lit_int_exact 1 ltac:(lia)) as [F1 E1]. destruct (ofZ_exact i ltac:(lia)) as [Fi Ei].
  assert (M : (fval (@lit2 A) * fval (@nofZ A i) = IZR (2 * i))%R) by (rewrite mult_IZR; f_equal; assumption).
  destruct (mul_finite be (@lit2 A) (nofZ i) F2 Fi) as [F3 E3]; [rewrite M; apply no_overflow_small, abs_IZR_bound; lia|]. rewrite M, rnd_IZR in E3 by lia.
  assert (Q : (fval (@lit2 A [*] nofZ i) - fval (@lit1 A) = IZR (2 * i - 1))%R) by (rewrite minus_IZR; rewrite E3; f_equal; assumption).
  destruct (sub_finite be (@lit2 A [*] nofZ i) lit1 F3 F1) as [F4 E4]; [rewrite Q; apply no_overflow_small, abs_IZR_bound; lia|]. rewrite Q, rnd_IZR in E4 by lia. split; assumption.
Qed.
Lemma mid_inside : forall i, (1 <= i <= n)%Z -> inside a b (a [+] (lit2 [*] nofZ i [-] lit1) [*] h [/] lit2).
Proof.
  intros i Hi. destruct (odd_value i Hi) as [Fc Ec]. set (c := (lit2 [*] nofZ i [-] lit1) : A) in *. destruct h_value as [Fh Eh].
  assert (Q1 : (0 <= IZR (2 * i - 1))%R) by (apply IZR_le; lia).
  destruct (product_step n (fval a) (fval b) Hn (fval_format _) (fval_format _) W _ Q1) as [P1 P2]. rewrite <- Eh in P1, P2.
  pose proof (half_err _ (rnd_format (fval h * IZR (2 * i - 1)))) as HE.
  assert (Q2 : (IZR (2 * i - 1) <= 2 * IZR n - 1)%R) by (rewrite <- (mult_IZR 2), <- minus_IZR; apply IZR_le; lia).
  set (q := IZR (2 * i - 1)) in *. pose proof uro_pos as U.
  assert (P3 : (0 <= (fval b - fval a) * rnd (/ 2 * rnd (fval h * q)))%R).
  { assert (Z : rnd 0 = 0%R) by (apply rnd_fmt, generic_format_0). set (p := rnd (fval h * q)) in *. set (D := (fval b - fval a)%R) in *. destruct (Rtotal_order D 0) as [X|[X|X]].
    - assert (p <= 0)%R by nra. pose proof (rnd_le (/ 2 * p) 0 ltac:(lra)). rewrite Z in H0. nra.
    - rewrite X. lra.
    - assert (0 <= p)%R by nra. pose proof (rnd_le 0 (/ 2 * p) ltac:(lra)). rewrite Z in H0. nra. }
  assert (P4 : (Rabs (rnd (/ 2 * rnd (fval h * q))) <= (q / 2 * (1 + uro) + 2 * uro) * Rabs (fval h))%R).
  { destruct (h_cases n (fval a) (fval b) Hn (fval_format _) (fval_format _) W) as [[_ E]|[E _]]; rewrite <- Eh in E.
    - rewrite E, Rmult_0_l. assert (Z : rnd 0 = 0%R) by (apply rnd_fmt, generic_format_0). rewrite Z, Rmult_0_r, Z, Rabs_R0, Rmult_0_r. lra.
    - assert (ET : (eta <= uro * Rabs (fval h))%R).
      { unfold eta, uro. replace (bpow radix2 (-1075)) with (bpow radix2 (-53) * bpow radix2 (-1022))%R by (rewrite <- bpow_plus; reflexivity). apply Rmult_le_compat_l; [apply bpow_ge_0|exact E]. }
      set (p := rnd (fval h * q)) in *.
      assert (Rabs (rnd (/ 2 * p)) <= Rabs (rnd (/ 2 * p) - / 2 * p) + Rabs (/ 2 * p))%R. { replace (rnd (/ 2 * p)) with ((rnd (/ 2 * p) - / 2 * p) + / 2 * p)%R at 1 by ring. apply Rabs_triang. }
      rewrite (Rabs_mult (/ 2) p), (Rabs_pos_eq (/ 2)) in H by lra. pose proof (Rabs_pos (fval h)). nra. }
  rewrite Eh in P3, P4.
  destruct (displaced n (fval a) (fval b) Hn (fval_format _) (fval_format _) W (q / 2) _ ltac:(lra) P3 P4) as [P5 P6]. rewrite <- Eh in P5, P6.
  assert (OV : no_overflow (fval c * fval h)).
  { rewrite Ec, Rmult_comm. unfold no_overflow. apply Rle_lt_trans with (2 * (bpow radix2 1022 + eta))%R.
    - set (p := rnd (fval h * q)) in *. assert (Rabs (/ 2 * p) <= Rabs (rnd (/ 2 * p)) + Rabs (rnd (/ 2 * p) - / 2 * p))%R.
      { replace (/ 2 * p)%R with (rnd (/ 2 * p) + - (rnd (/ 2 * p) - / 2 * p))%R at 1 by ring. eapply Rle_trans; [apply Rabs_triang|]. rewrite Rabs_Ropp. lra. }
      rewrite (Rabs_mult (/ 2) p), (Rabs_pos_eq (/ 2)) in H by lra. lra.
    - replace (bpow radix2 1024) with (4 * bpow radix2 1022)%R by (change 4%R with (bpow radix2 2); rewrite <- bpow_plus; reflexivity).
      assert (eta < bpow radix2 1022)%R by (apply bpow_lt; lia). lra. }
  destruct (mul_finite be c h Fc Fh OV) as [F1 E1]. destruct (lit_int_exact 2 ltac:(lia)) as [F2 E2].
  assert (DV : (fval (c [*] h) / fval (@lit2 A) = / 2 * rnd (fval h * q))%R).
  { rewrite E1, Ec, (Rmult_comm q). refine (eq_ind_r (fun z => (_ / z = _)%R) _ E2). field. }
  assert (NZ : fval (@lit2 A) <> 0%R) by (intros X; assert (2 = 0)%R by (rewrite <- E2; exact X); lra).
  destruct (div_finite be (c [*] h) lit2 F1 NZ) as [F3 E3].
  { rewrite DV. unfold no_overflow in *. rewrite <- (rnd_fmt _ (rnd_format (/ 2 * _))). eapply Rle_lt_trans; [apply rnd_abs_le; exact P5|exact HO]. }
  rewrite DV in E3. apply step_inside; try assumption. rewrite E3. exact P6.
Qed.
Theorem simpson_float : forall g : A -> A, Forall (inside a b) (snd (simpson_integrate (A := A) (traced g) (simpson_new n) a b [])).
Proof.
  intros g. rewrite simpson_calls by lia. rewrite !call_all_traced. cbn [snd]. rewrite app_nil_l, <- app_assoc. apply Forall_app. split; [|apply Forall_app; split].
  - apply Forall_forall. intros x Hx. apply in_map_iff in Hx. destruct Hx as (i & <- & Hi). apply in_ints in Hi. apply edge_inside. lia.
  - apply Forall_forall. intros x Hx. apply in_map_iff in Hx. destruct Hx as (i & <- & Hi). apply in_ints in Hi. apply mid_inside. lia.
  - apply Forall_cons; [apply mid_inside; lia|apply Forall_cons; [apply ends_inside|apply Forall_cons; [apply ends_inside|apply Forall_nil]]].
Qed.
End NC.
End F.
