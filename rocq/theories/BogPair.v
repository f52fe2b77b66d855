(** Each computed pair of angle and weight of the expansion is close to an exact one. *)
From Coq Require Import Reals ZArith List Lra Lia Psatz.
From Coquelicot Require Import Coquelicot.
From Verif Require Import Arith RInst Machine Legendre TM SinSer Ode Bessel BesselJ BesselTab LegOde BogPoly BogT BogLeg BogCmp McRule BogMap BogRoot.
Import ListNotations.
Local Open Scope R_scope.

Lemma sin_lo : forall t, 0 < t <= PI -> t - t * t * t / 6 <= sin t.
Proof. intros t Ht. destruct (sin_bound t 0 ltac:(lra) ltac:(lra)) as [L _]. unfold sin_approx, sin_term in L. simpl in L. lra. Qed.
Lemma cos_lo : forall t, 0 <= t <= PI -> 1 - t * t / 2 <= cos t.
Proof.
  intros t Ht. pose proof (cos_2a_sin (t / 2)) as E. replace (2 * (t / 2)) with t in E by field. assert (0 <= sin (t / 2) <= t / 2). { pose proof PI_RGT_0. split; [apply sin_ge_0; lra|]. destruct (Req_dec t 0) as [-> |Ne]; [replace (0 / 2) with 0 by field; rewrite sin_0; lra|]. left. apply sin_lt_x. lra. } rewrite E. nra.
Qed.
Definition Sc (t : R) : R := sin t / t.
Lemma Sc_d : forall t, 0 < t -> is_derive Sc t ((cos t * t - sin t * 1) / (t * t)).
Proof. intros t Ht. unfold Sc. apply (div_d sin (fun t => t)); [lra|apply is_derive_Reals; apply derivable_pt_lim_sin|apply (is_derive_id (K := R_AbsRing))]. Qed.
Lemma Sc_d_bd : forall t, 0 < t <= 158 / 100 -> Rabs ((cos t * t - sin t * 1) / (t * t)) <= 8 / 10.
Proof.
  intros t Ht. pose proof PI2_3_2. pose proof (sin_lo t ltac:(lra)) as A. pose proof (cos_lo t ltac:(lra)) as B. pose proof (sin_lt_x t ltac:(lra)) as C. pose proof (COS_bound t) as D. assert (T2 : 0 < t * t) by nra. unfold Rdiv. rewrite Rabs_mult, (Rabs_pos_eq (/ (t * t))) by (left; apply Rinv_0_lt_compat; exact T2).
  apply Rmult_le_reg_r with (t * t); [exact T2|]. rewrite Rmult_assoc, Rinv_l, Rmult_1_r by lra. assert (K : Rabs (cos t * t - sin t * 1) <= t * t * t / 2). { apply Rabs_le. split; [|nra]. assert ((1 - t * t / 2) * t <= cos t * t) by (apply Rmult_le_compat_r; lra). nra. } eapply Rle_trans; [exact K|]. nra.
Qed.
Lemma sinc_c : forall t, 0 < t -> t * t <= 25 / 10 -> Rabs (Sc t - horner (alt 1 0 14) (t * t)) <= IZR 1 / IZR (10 ^ 24).
Proof.
  intros t Ht B. pose proof PI2_3_2. eapply Rle_trans; [apply sinc_close; split; nra|]. apply Rle_trans with ((25 / 10) ^ 14 / IZR (zfact 29)); [apply Rmult_le_compat_r; [left; apply Rinv_0_lt_compat; apply zfact_pos|apply pow_incr; nra]|].
  replace (zfact 29) with 8841761993739701954543616000000%Z by (vm_compute; reflexivity). change (10 ^ 24)%Z with 1000000000000000000000000%Z. lra.
Qed.

Section P.
Variables nu b : R. Hypothesis Hp : bessel_pair (6 / 10 ^ 15) (2 / 10 ^ 15) nu b. Hypothesis Hnu : 24 / 10 <= nu.
Variable n : nat. Hypothesis Hn : (101 <= n)%nat.
Notation N := (Nn n). Notation al := (nu / N). Notation h := (hh n). Notation rho := (rho n).
Hypothesis Hal : al <= 157097 / 100000.
Definition uu (a : R) : R := 1 + h * phi h (a * a).
Definition G (a : R) : R := Sc (T n a) * (uu a * T1 n a).
Lemma al_self : Rabs (al - al) <= rho. Proof. replace (al - al) with 0 by ring. rewrite Rabs_R0. pose proof (rho0 n Hn). lra. Qed.
Lemma T_sq : forall a, dom a -> T n a * T n a <= 25 / 10. Proof. intros a Ha. pose proof (T_pos n Hn a Ha). nra. Qed.
Lemma G_eq : forall a, dom a -> G a = sin (T n a) * T1 n a / a.
Proof. intros a Ha. pose proof (T_pos n Hn a Ha) as TP. destruct Ha as [Ap _]. unfold G, Sc. assert (E : uu a = T n a / a) by (unfold uu, T; field; lra). rewrite E. field. lra. Qed.
Lemma Sc_rng : forall a, dom a -> 58 / 100 <= Sc (T n a) <= 1.
Proof.
  intros a Ha. pose proof (T_pos n Hn a Ha) as TP. pose proof (T_pi n Hn a Ha) as TQ. pose proof (T_sq a Ha) as TT. pose proof (sin_lo (T n a) ltac:(lra)) as A. pose proof (sin_lt_x (T n a) ltac:(lra)) as C. unfold Sc. set (t := T n a) in *. split; apply Rmult_le_reg_r with t; try lra; unfold Rdiv; rewrite (Rmult_assoc (sin t)), Rinv_l by lra; nra.
Qed.
Lemma G_rng : forall a, dom a -> 579 / 1000 <= G a <= 1001 / 1000.
Proof. intros a Ha. pose proof (Sc_rng a Ha) as S. pose proof (u_pos n Hn a Ha) as U. fold (uu a) in U. pose proof (v_pos n Hn a Ha) as V. unfold G. assert (9999 / 10000 <= uu a * T1 n a <= 10001 / 10000) by (split; nra). split; nra. Qed.
Section X.
Variable x : R. Hypothesis Hx : Rabs (x - al) <= rho.
Notation dx := (x_dom nu Hnu n Hn Hal).
Lemma inter : forall y, al - rho <= y <= al + rho -> dom y. Proof. intros y Hy. apply dx. apply Rabs_le. lra. Qed.
Lemma x_in : al - rho <= x <= al + rho. Proof. pose proof Hx as H. apply abs_both in H. lra. Qed.
Lemma al_in : al - rho <= al <= al + rho. Proof. pose proof (rho0 n Hn). lra. Qed.
Lemma T_close : Rabs (T n x - T n al) <= 10001 / 10000 * rho.
Proof.
  apply Rle_trans with (10001 / 10000 * Rabs (x - al)); [|apply Rmult_le_compat_l; lra]. apply (mvt_lip (T n) (T1 n) (al - rho) (al + rho)); [|exact x_in|exact al_in]. intros y Hy. split; [apply T_d|]. pose proof (v_pos n Hn y (inter y Hy)). rewrite Rabs_pos_eq; lra.
Qed.
Lemma T1_close : Rabs (T1 n x - T1 n al) <= / 1000 * rho.
Proof.
  apply Rle_trans with (/ 1000 * Rabs (x - al)); [|apply Rmult_le_compat_l; lra]. apply (mvt_lip (T1 n) (T2 n) (al - rho) (al + rho)); [|exact x_in|exact al_in]. intros y Hy. split; [apply T1_d|]. pose proof (inter y Hy) as D. pose proof (A1_small h (y * y) (xd y D) (hd n Hn)) as A. pose proof (hd n Hn) as H. pose proof (a_le y D) as AL. destruct D as [Y0 _].
  unfold T2. rewrite Rabs_mult, (Rabs_pos_eq (2 * y * h)) by nra. apply Rle_trans with (2 * y * h * (1 / 4)); [apply Rmult_le_compat_l; [nra|exact A]|]. nra.
Qed.
Lemma uu_close : Rabs (uu x - uu al) <= / 1000 * rho.
Proof.
  apply Rle_trans with (/ 1000 * Rabs (x - al)); [|apply Rmult_le_compat_l; lra]. apply (mvt_lip uu (fun a => h * (2 * a * phi1 h (a * a))) (al - rho) (al + rho)); [|exact x_in|exact al_in]. intros y Hy. split; [unfold uu; apply (one_h_d n (fun a => phi h (a * a))); apply csq_d; apply phi_d|]. pose proof (inter y Hy) as D. pose proof (phi1_small h (y * y) (xd y D) (hd n Hn)) as A. pose proof (hd n Hn) as H. pose proof (a_le y D) as AL. destruct D as [Y0 _].
  rewrite !Rabs_mult, (Rabs_pos_eq h), (Rabs_pos_eq 2), (Rabs_pos_eq y) by lra. apply Rle_trans with (h * (2 * y * (1 / 10))); [apply Rmult_le_compat_l; [lra|]; apply Rmult_le_compat_l; [lra|exact A]|]. nra.
Qed.
Lemma Sc_close : Rabs (Sc (T n x) - Sc (T n al)) <= 81 / 100 * rho.
Proof.
  pose proof (T_pos n Hn x (inter x x_in)) as A. pose proof (T_pos n Hn al (inter al al_in)) as B. pose proof T_close as C. pose proof (rho0 n Hn) as R0.
  apply Rle_trans with (8 / 10 * Rabs (T n x - T n al)); [|lra]. apply (mvt_lip Sc (fun t => (cos t * t - sin t * 1) / (t * t)) (Rmin (T n x) (T n al)) (158 / 100)).
  - intros t Ht. assert (0 < t) by (unfold Rmin in Ht; destruct (Rle_dec (T n x) (T n al)); lra). split; [apply Sc_d; assumption|apply Sc_d_bd; lra].
  - split; [apply Rmin_l|lra].
  - split; [apply Rmin_r|lra].
Qed.
Lemma G_close : Rabs (G x - G al) <= 3 / 10 ^ 15 * G al.
Proof.
  pose proof (G_rng al (inter al al_in)) as GR. pose proof Sc_close as A. pose proof uu_close as B. pose proof T1_close as C. pose proof (rho0 n Hn) as R0. pose proof (Sc_rng al (inter al al_in)) as S0. pose proof (u_pos n Hn al (inter al al_in)) as U0. fold (uu al) in U0. pose proof (u_pos n Hn x (inter x x_in)) as U1. fold (uu x) in U1. pose proof (v_pos n Hn al (inter al al_in)) as V0. pose proof (v_pos n Hn x (inter x x_in)) as V1.
  apply Rle_trans with (17 / 10 ^ 16); [|lra]. unfold G.
  replace (Sc (T n x) * (uu x * T1 n x) - Sc (T n al) * (uu al * T1 n al)) with ((Sc (T n x) - Sc (T n al)) * (uu x * T1 n x) + Sc (T n al) * ((uu x - uu al) * T1 n x + uu al * (T1 n x - T1 n al))) by ring.
  eapply Rle_trans; [apply Rabs_triang|]. rewrite !Rabs_mult. assert (UV : Rabs (uu x) * Rabs (T1 n x) <= 10001 / 10000) by (rewrite !Rabs_pos_eq by lra; nra).
  assert (P1 : Rabs (Sc (T n x) - Sc (T n al)) * (Rabs (uu x) * Rabs (T1 n x)) <= 81 / 100 * rho * (10001 / 10000)) by (apply Rmult_le_compat; try apply Rabs_pos; try assumption; apply Rmult_le_pos; apply Rabs_pos).
  assert (P2 : Rabs ((uu x - uu al) * T1 n x + uu al * (T1 n x - T1 n al)) <= 3 / 1000 * rho).
  { eapply Rle_trans; [apply Rabs_triang|]. rewrite !Rabs_mult, (Rabs_pos_eq (T1 n x)), (Rabs_pos_eq (uu al)) by lra. pose proof (Rabs_pos (uu x - uu al)). pose proof (Rabs_pos (T1 n x - T1 n al)). nra. }
  rewrite (Rabs_pos_eq (Sc (T n al))) by lra. assert (Sc (T n al) * Rabs ((uu x - uu al) * T1 n x + uu al * (T1 n x - T1 n al)) <= 1 * (3 / 1000 * rho)) by (apply Rmult_le_compat; try apply Rabs_pos; lra). lra.
Qed.
End X.
Notation s := (/ (sin al / al)).
Lemma da : dom al. Proof. apply inter. apply al_in. Qed.
Lemma sal : 0 < sin al. Proof. pose proof (al0 nu Hnu n Hn) as A. pose proof PI2_3_2. apply sin_gt_0; lra. Qed.
Lemma Sal : Rabs (sin al / al - horner (alt 1 0 14) (al * al)) <= IZR 1 / IZR (10 ^ 24). Proof. apply sinc_c; [apply (al0 nu Hnu n Hn)|]. pose proof (xd al da). lra. Qed.
Lemma STal : Rabs (Sc (T n al) - horner (alt 1 0 14) (al * al * ((1 + h * phi h (al * al)) * (1 + h * phi h (al * al))))) <= IZR 1 / IZR (10 ^ 24).
Proof. replace (al * al * ((1 + h * phi h (al * al)) * (1 + h * phi h (al * al)))) with (T n al * T n al) by (unfold T; ring). apply sinc_c; [apply (T_pos n Hn al da)|apply T_sq; exact da]. Qed.
Lemma W_code : Rabs (G al * (s * wcf h (al * al) s) - 1) <= 4 / 10 ^ 15.
Proof. exact (weight_code h (al * al) (sin al / al) (Sc (T n al)) (xd al da) (hd n Hn) Sal STal). Qed.
Lemma s_pos : 0 < s. Proof. apply Rinv_0_lt_compat. apply Rdiv_lt_0_compat; [apply sal|apply (al0 nu Hnu n Hn)]. Qed.
Lemma w_pos : 0 < wcf h (al * al) s.
Proof. pose proof W_code as W. apply abs_both in W. pose proof (G_rng al da) as GR. pose proof s_pos as SP. set (w := wcf h (al * al) s) in *. destruct (Rle_or_lt w 0) as [L|L]; [|exact L]. assert (s * w <= 0) by nra. nra. Qed.
Theorem pair_near : exists t, 0 < t < PI /\ F n t = 0 /\ 0 < F1 n t * F1 n t /\ Rabs (fst (@expansion RA (Z.of_nat n) nu b) - t) <= 71 / 10 ^ 15 / N /\
  Rabs (snd (@expansion RA (Z.of_nat n) nu b) - 2 / (F1 n t * F1 n t)) <= 24 / 10 ^ 14 * (2 / (F1 n t * F1 n t)).
Proof.
  pose proof (N_big n Hn) as NB. destruct (root_near nu b Hp Hnu n Hn Hal) as (x & Hx & Px). assert (Dx : dom x) by (apply inter; apply x_in; exact Hx). pose proof Hp as (_ & Bp & _). rewrite (exp_eq n nu b Hn ltac:(lra) Bp sal w_pos). cbn [fst snd].
  pose proof (M_pos n Hn x Dx) as MP. assert (m0 : 0 < m n x) by (apply sqrt_lt_R0; exact MP). assert (mm : m n x * m n x = Mm n x) by (apply sqrt_sqrt; lra). assert (F0 : F n (T n x) = 0). { unfold p, lp in Px. apply Rmult_integral in Px. destruct Px; [lra|assumption]. }
  pose proof (p1_sq nu b Hp Hnu n Hn Hal x Hx) as PS. pose proof (G_rng x Dx) as GX. pose proof (G_rng al da) as GA. pose proof (G_close x Hx) as GC. pose proof W_code as W. pose proof s_pos as SP. pose proof w_pos as WP.
  assert (NNb : 0 < N * N * b) by (apply Rmult_lt_0_compat; nra). assert (Ep : p1 n x * p1 n x = G x * (F1 n (T n x) * F1 n (T n x))).
  { rewrite (G_eq x Dx). unfold p1, lp1. rewrite F0. transitivity (m n x * m n x * (F1 n (T n x) * F1 n (T n x) * (T1 n x * T1 n x))); [ring|]. rewrite mm. unfold Mm. pose proof (v_pos n Hn x Dx) as V. destruct Dx as [X0 _]. field. split; lra. }
  rewrite Ep in PS. set (q := F1 n (T n x) * F1 n (T n x)) in *. apply abs_both in PS. apply abs_both in GC. apply abs_both in W.
  assert (q0 : 0 < q). { destruct (Rle_or_lt q 0); [nra|assumption]. }
  exists (T n x). fold q. split; [apply (T_pi n Hn x Dx)|]. split; [exact F0|]. split; [exact q0|]. split.
  - pose proof (T_close x Hx) as TC. pose proof (phi_code h (al * al) (sin al / al) (xd al da) (hd n Hn) Sal) as PC. pose proof (al0 nu Hnu n Hn) as A0. set (f := phc h (al * al) s) in *. replace (al * (1 + h * f) - T n x) with (al * h * (f - phi h (al * al)) + - (T n x - T n al)) by (unfold T; ring).
    eapply Rle_trans; [apply Rabs_triang|]. rewrite Rabs_Ropp, Rabs_mult. rewrite Rabs_minus_sym in PC. assert (Eh : h = / N * / N) by (unfold hh; rewrite Rinv_mult_distr; lra). assert (IN : 0 < / N <= / 101) by (split; [apply Rinv_0_lt_compat; lra|apply Rinv_le_contravar; lra]). assert (H2 : 0 <= al * h <= 2 / 100 * / N) by (rewrite Eh; split; nra). rewrite (Rabs_pos_eq (al * h)) by lra.
    assert (al * h * Rabs (f - phi h (al * al)) <= 2 / 100 * / N * (2 / 10 ^ 16)) by (apply Rmult_le_compat; try apply Rabs_pos; lra). unfold BogRoot.rho, del in TC. unfold Rdiv in *. lra.
  - set (w := s * wcf h (al * al) s) in *. assert (w0 : 0 < w) by (unfold w; apply Rmult_lt_0_compat; assumption). assert (Eh : h = / (N * N)) by reflexivity. set (M := N * N * b) in *. assert (E1 : 2 * h / (b * w) = 2 / (M * w)) by (rewrite Eh; unfold M; field; repeat split; lra). rewrite E1. clear E1 Eh.
    set (g := G al) in *. set (gx := G x) in *. clearbody q w M g gx.
    assert (K : Rabs (q - M * w) <= 24 / 10 ^ 14 * (M * w)).
    { assert (A : (1 - 3 / 10 ^ 15) * g * q <= (1 + 22 / 10 ^ 14) * M) by nra. assert (B : (1 - 22 / 10 ^ 14) * M <= (1 + 3 / 10 ^ 15) * g * q) by nra.
      assert (C : (1 - 4 / 10 ^ 15) * M <= g * (M * w) <= (1 + 4 / 10 ^ 15) * M) by (split; nra).
      assert (D : g * q <= g * ((1 + 24 / 10 ^ 14) * (M * w))) by lra. assert (E : g * ((1 - 24 / 10 ^ 14) * (M * w)) <= g * q) by lra. apply Rmult_le_reg_l in D; [|lra]. apply Rmult_le_reg_l in E; [|lra]. apply Rabs_le. lra. }
    assert (MW : 0 < M * w) by (apply Rmult_lt_0_compat; assumption). replace (2 / (M * w) - 2 / q) with ((q - M * w) * (2 / (M * w * q))) by (field; repeat split; lra). rewrite Rabs_mult, (Rabs_pos_eq (2 / (M * w * q))) by (left; apply Rdiv_lt_0_compat; [lra|apply Rmult_lt_0_compat; assumption]).
    apply Rle_trans with (24 / 10 ^ 14 * (M * w) * (2 / (M * w * q))); [apply Rmult_le_compat_r; [left; apply Rdiv_lt_0_compat; [lra|apply Rmult_lt_0_compat; assumption]|exact K]|]. right. field. repeat split; lra.
Qed.
End P.
