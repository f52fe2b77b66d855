(** The energy estimate of the difference p - J, from 0. *)
From Coq Require Import Reals Ratan ZArith List Lra Lia Psatz.
From Coquelicot Require Import Coquelicot.
From Verif Require Import TM SinSer BogPoly BogT Ode LegOde Bessel BesselJ BogLeg.
Local Open Scope R_scope.

Lemma sin_small : forall t, 0 < t <= 1 -> t - t * t * t / 6 <= sin t <= t /\ 1 - t * t / 2 <= cos t <= 1.
Proof.
  intros t Ht. pose proof PI2_3_2. split.
  - destruct (SIN t ltac:(lra) ltac:(lra)) as [S1 S2]. split; [|left; apply sin_lt_x; lra]. eapply Rle_trans; [|exact S1]. unfold sin_lb, sin_approx, sin_term. cbn [sum_f_R0]. simpl fact. simpl INR. cbn [pow Nat.mul Nat.add].
    assert (0 <= t ^ 5 / 120 - t ^ 7 / 5040). { replace (t ^ 5 / 120 - t ^ 7 / 5040) with (t ^ 5 * (/ 120 - t * t / 5040)) by field. apply Rmult_le_pos; [apply pow_le; lra|nra]. } lra.
  - split; [|apply COS_bound]. destruct (COS t ltac:(lra) ltac:(lra)) as [S1 _]. eapply Rle_trans; [|exact S1]. unfold cos_lb, cos_approx, cos_term. cbn [sum_f_R0]. simpl fact. simpl INR. cbn [pow Nat.mul Nat.add].
    assert (0 <= t ^ 4 / 24 - t ^ 6 / 720). { replace (t ^ 4 / 24 - t ^ 6 / 720) with (t ^ 4 * (/ 24 - t * t / 720)) by field. apply Rmult_le_pos; [apply pow_le; lra|nra]. } lra.
Qed.
Lemma cont_at : forall (f f' : R -> R) x e, is_derive f x (f' x) -> 0 < e -> exists d, 0 < d /\ forall y, Rabs (y - x) < d -> Rabs (f y - f x) < e.
Proof.
  intros f f' x e D He. assert (C : continuity_pt f x) by (apply derivable_continuous_pt; exists (f' x); apply is_derive_Reals; exact D).
  destruct (C e He) as (d & Hd & P). exists d. split; [exact Hd|]. intros y Hy. destruct (Req_dec x y) as [->|Ne]; [unfold Rminus; rewrite Rplus_opp_r, Rabs_R0; exact He|].
  apply (P y). split; [split; [exact I|exact Ne]|exact Hy].
Qed.
Lemma sqrt_near1 : forall M, 0 <= M -> Rabs (sqrt M - 1) <= Rabs (M - 1).
Proof.
  intros M HM. pose proof (sqrt_pos M) as S0. pose proof (sqrt_sqrt M HM) as E. set (s := sqrt M) in *. rewrite <- E. replace (s * s - 1) with ((s - 1) * (s + 1)) by ring. rewrite Rabs_mult, (Rabs_pos_eq (s + 1)) by lra. pose proof (Rabs_pos (s - 1)). nra.
Qed.

Section C.
Variable n : nat. Hypothesis Hn : (101 <= n)%nat.
Notation N := (Nn n). Notation h := (hh n). Notation T := (T n). Notation T1 := (T1 n). Notation T2 := (T2 n).
Section S.
Variable a : R. Hypothesis Ha : 0 < a <= / 2.
Lemma s_dom : dom a. Proof. split; [lra|nra]. Qed.
Lemma s_T : a * (1 - / 101000) <= T a <= a * (1 + / 101000). Proof. pose proof (u_pos n Hn a s_dom). unfold BogLeg.T. split; apply Rmult_le_compat_l; lra. Qed.
Lemma s_small : Rabs (2 * h * (a * a) * phi1 h (a * a)) <= a * a / 1000 /\ Rabs (T2 a) <= a / 1000.
Proof.
  pose proof (phi1_small h (a * a) (xd a s_dom) (hd n Hn)) as P. pose proof (A1_small h (a * a) (xd a s_dom) (hd n Hn)) as A. pose proof (h_ok n Hn) as H. split.
  - rewrite !Rabs_mult, (Rabs_pos_eq 2), (Rabs_pos_eq h), (Rabs_pos_eq a) by lra. pose proof (Rabs_pos (phi1 h (a * a))). set (f := Rabs (phi1 h (a * a))) in *. replace (2 * h * (a * a) * f) with (a * a * (2 * h * f)) by ring. apply Rle_trans with (a * a * (2 * / 10100 * (1 / 10))); [|nra]. apply Rmult_le_compat_l; [nra|]. apply Rmult_le_compat; lra.
  - unfold BogLeg.T2. rewrite !Rabs_mult, (Rabs_pos_eq 2), (Rabs_pos_eq h), (Rabs_pos_eq a) by lra. pose proof (Rabs_pos (Af1 h (a * a))). set (f := Rabs (Af1 h (a * a))) in *. replace (2 * a * h * f) with (a * (2 * h * f)) by ring. apply Rle_trans with (a * (2 * / 10100 * (1 / 4))); [|nra]. apply Rmult_le_compat_l; [lra|]. apply Rmult_le_compat; lra.
Qed.
Lemma s_m : Rabs (m n a - 1) <= a * a.
Proof.
  unfold m. pose proof (M_pos n Hn a s_dom) as MP. eapply Rle_trans; [apply sqrt_near1; lra|]. unfold Mm.
  pose proof s_T as ST. set (t := T a) in *. assert (Tp : 0 < t <= 1) by (split; nra). destruct (sin_small t Tp) as [S1 _].
  pose proof (u_pos n Hn a s_dom) as U. pose proof (v_pos n Hn a s_dom) as V. destruct s_small as [Q _]. apply abs_both in Q. set (u := 1 + h * phi h (a * a)) in *. assert (Et : t = a * u) by reflexivity.
  assert (Ev : T1 a = u + 2 * h * (a * a) * phi1 h (a * a)) by (unfold BogLeg.T1, u; rewrite Af_eq; ring). set (q := 2 * h * (a * a) * phi1 h (a * a)) in *. set (v := T1 a) in *.
  assert (Vi : 0 < / v) by (apply Rinv_0_lt_compat; lra). clearbody q u v.
  replace (sin t / (a * v) - 1) with ((sin t - a * v) * / (a * v)) by (field; lra). rewrite Rabs_mult, (Rabs_pos_eq (/ (a * v))) by (left; apply Rinv_0_lt_compat; nra).
  apply Rmult_le_reg_r with (a * v); [nra|]. rewrite Rmult_assoc, Rinv_l, Rmult_1_r by nra. apply Rabs_le. assert (T3 : t * t * t <= 11 / 10 * (a * a * a)). { assert (t <= a * (1 + / 101000)) by lra. assert (t * t <= a * a * (1 + / 1000)) by nra. apply Rle_trans with (a * a * (1 + / 1000) * (a * (1 + / 101000))); [apply Rmult_le_compat; nra|nra]. }
  assert (C0 : 0 <= a * a * a) by (apply Rmult_le_pos; nra). assert (C1 : a * a * (a * v) >= a * a * a * (9 / 10)) by nra. split; [|nra].
  assert (a * q <= a * (a * a / 1000)) by nra. nra.
Qed.
Lemma s_L : Rabs (L n a) <= a.
Proof.
  unfold L. pose proof s_T as ST. set (t := T a) in *. assert (Tp : 0 < t <= 1) by (split; nra). destruct (sin_small t Tp) as [S1 S2].
  pose proof (u_pos n Hn a s_dom) as U. pose proof (v_pos n Hn a s_dom) as V. destruct s_small as [Q Q2]. set (u := 1 + h * phi h (a * a)) in *. assert (Et : t = a * u) by reflexivity.
  assert (Ev : T1 a = u + 2 * h * (a * a) * phi1 h (a * a)) by (unfold BogLeg.T1, u; rewrite Af_eq; ring). set (q := 2 * h * (a * a) * phi1 h (a * a)) in *. set (v := T1 a) in *. set (s := sin t) in *. set (c := cos t) in *. clearbody q u v s c.
  assert (C0 : 0 < t * t) by nra. assert (Sp : t / 2 <= s) by nra. 
  assert (K : Rabs (t * c / s - 1) <= t * t).
  { replace (t * c / s - 1) with ((t * c - s) * / s) by (field; lra). rewrite Rabs_mult, (Rabs_pos_eq (/ s)) by (left; apply Rinv_0_lt_compat; lra). apply Rmult_le_reg_r with s; [lra|]. rewrite Rmult_assoc, Rinv_l, Rmult_1_r by lra. apply Rabs_le. assert (0 <= t * t * (s - t / 2)) by (apply Rmult_le_pos; nra). split; nra. }
  set (k := t * c / s) in *. assert (Ek : c / s = k / t) by (unfold k; field; lra). rewrite Ek. clearbody k.
  replace (/ 2 * (v * (k / t) - / a - T2 a / v)) with (/ 2 * ((k - 1) / a + q * / (a * u) * k - T2 a * / v)). 2: { rewrite Ev, Et. field. repeat split; lra. }
  assert (T2b : t * t <= a * a * (101 / 100)) by nra.
  assert (X1 : Rabs ((k - 1) / a) <= a * (101 / 100)). { unfold Rdiv. rewrite Rabs_mult, (Rabs_pos_eq (/ a)) by (left; apply Rinv_0_lt_compat; lra). apply Rmult_le_reg_r with a; [lra|]. rewrite Rmult_assoc, Rinv_l, Rmult_1_r by lra. lra. }
  assert (Kb : Rabs k <= 2). { apply abs_both in K. apply Rabs_le. nra. }
  assert (X2 : Rabs (q * / (a * u) * k) <= a / 100).
  { rewrite !Rabs_mult, (Rabs_pos_eq (/ (a * u))) by (left; apply Rinv_0_lt_compat; nra). apply Rle_trans with (a * a / 1000 * / (a * u) * 2); [apply Rmult_le_compat; [apply Rmult_le_pos; [apply Rabs_pos|left; apply Rinv_0_lt_compat; nra]|apply Rabs_pos| |exact Kb]; apply Rmult_le_compat_r; [left; apply Rinv_0_lt_compat; nra|exact Q]|].
    replace (a * a / 1000 * / (a * u) * 2) with (a * (/ 500 * / u)) by (field; lra). assert (/ u <= 2) by (rewrite <- (Rinv_inv 2); apply Rinv_le_contravar; lra). nra. }
  assert (X3 : Rabs (T2 a * / v) <= a / 100). { rewrite Rabs_mult, (Rabs_pos_eq (/ v)) by (left; apply Rinv_0_lt_compat; lra). assert (/ v <= 2) by (rewrite <- (Rinv_inv 2); apply Rinv_le_contravar; lra). assert (0 < / v) by (apply Rinv_0_lt_compat; lra). apply Rle_trans with (a / 1000 * 2); [apply Rmult_le_compat; [apply Rabs_pos|lra|exact Q2|lra]|lra]. }
  apply abs_both in X1. apply abs_both in X2. apply abs_both in X3. apply Rabs_le. lra.
Qed.
End S.

Notation p := (p n). Notation p1 := (p1 n). Notation p2 := (p2 n). Notation J := (J N). Notation Jd := (Jd N). Notation Jdd := (Jdd N).
Lemma s_start : forall eta, 0 < eta -> exists x0, 0 < x0 < 0 + eta /\ sqrt ((p1 x0 - Jd x0) * (p1 x0 - Jd x0) + N * (p x0 - J x0) * (N * (p x0 - J x0))) <= 0 + eta.
Proof.
  intros eta He. pose proof (N_big n Hn) as HN. set (e := Rmin (eta / (20 * N)) (/ 4)).
  assert (e0 : 0 < e) by (apply Rmin_pos; [apply Rdiv_lt_0_compat; lra|lra]). assert (e1 : e <= / 4) by apply Rmin_r. assert (e2 : e * (20 * N) <= eta). { pose proof (Rmin_l (eta / (20 * N)) (/ 4)) as Q. fold e in Q. apply Rmult_le_reg_r with (/ (20 * N)); [apply Rinv_0_lt_compat; lra|]. rewrite Rmult_assoc, Rinv_r, Rmult_1_r by lra. exact Q. }
  destruct (cont_at (F n) (F1 n) 0 e (F_d n 0) e0) as (d1 & D1 & C1). destruct (cont_at (F1 n) (F2 n) 0 e (F1_d n 0) e0) as (d2 & D2 & C2). destruct (cont_at J Jd 0 e (J_d N 0) e0) as (d3 & D3 & C3). destruct (cont_at Jd Jdd 0 e (J_d1 N 0) e0) as (d4 & D4 & C4).
  rewrite F_0 in C1. rewrite F1_0 in C2. rewrite (J_0 N) in C3. rewrite (Jd_0 N) in C4.
  set (dd := Rmin (Rmin d1 d2) (Rmin d3 d4)). assert (dd0 : 0 < dd) by (repeat apply Rmin_pos; assumption).
  assert (G1 : dd <= d1 /\ dd <= d2 /\ dd <= d3 /\ dd <= d4). { unfold dd. pose proof (Rmin_l (Rmin d1 d2) (Rmin d3 d4)). pose proof (Rmin_r (Rmin d1 d2) (Rmin d3 d4)). pose proof (Rmin_l d1 d2). pose proof (Rmin_r d1 d2). pose proof (Rmin_l d3 d4). pose proof (Rmin_r d3 d4). lra. }
  set (a := Rmin (dd / 2) e). assert (a0 : 0 < a) by (apply Rmin_pos; lra). assert (a1 : a <= dd / 2) by apply Rmin_l. assert (a2 : a <= e) by apply Rmin_r.
  assert (Sa : 0 < a <= / 2) by lra. pose proof (s_T a Sa) as ST. pose proof (s_m a Sa) as SM. pose proof (s_L a Sa) as SL. pose proof (v_pos n Hn a (s_dom a Sa)) as V.
  set (t := T a) in *. assert (t0 : 0 < t) by nra. assert (t1 : Rabs (t - 0) < dd) by (rewrite Rminus_0_r, Rabs_pos_eq; nra). assert (t2 : Rabs (a - 0) < dd) by (rewrite Rminus_0_r, Rabs_pos_eq; lra).
  specialize (C1 t ltac:(lra)). specialize (C2 t ltac:(lra)). specialize (C3 a ltac:(lra)). specialize (C4 a ltac:(lra)). rewrite Rminus_0_r in C2, C4.
  exists a. assert (eN : e <= eta / 20 / 100) by nra. split; [nra|].
  set (d := p a - J a). set (dp := p1 a - Jd a).
  assert (mm : 0 <= m n a <= 2). { split; [apply sqrt_pos|]. apply abs_both in SM. nra. } assert (FF : Rabs (F n t) <= 2). { replace (F n t) with ((F n t - 1) + 1) by ring. eapply Rle_trans; [apply Rabs_triang|]. rewrite Rabs_R1. lra. }
  assert (B0 : Rabs d <= 2 * (a * a) + 2 * e).
  { unfold d, BogLeg.p, lp. fold t. replace (m n a * F n t - J a) with ((m n a - 1) * F n t + (F n t - 1) - (J a - 1)) by ring. eapply Rle_trans; [apply Rabs_triang|]. rewrite Rabs_Ropp. apply Rle_trans with (Rabs ((m n a - 1) * F n t) + Rabs (F n t - 1) + Rabs (J a - 1)); [apply Rplus_le_compat_r; apply Rabs_triang|]. rewrite Rabs_mult.
    assert (Rabs (m n a - 1) * Rabs (F n t) <= a * a * 2) by (apply Rmult_le_compat; try apply Rabs_pos; assumption). lra. }
  assert (B1 : Rabs dp <= 2 * (e * 2 + a * 2) + e).
  { unfold dp, BogLeg.p1, lp1. fold t. eapply Rle_trans; [apply Rabs_triang|]. rewrite Rabs_Ropp, Rabs_mult, (Rabs_pos_eq (m n a)) by lra. apply Rplus_le_compat; [|lra]. apply Rmult_le_compat; [lra|apply Rabs_pos|lra|]. eapply Rle_trans; [apply Rabs_triang|]. rewrite !Rabs_mult. apply Rplus_le_compat; apply Rmult_le_compat; try apply Rabs_pos; try lra. rewrite Rabs_pos_eq; lra. }
  apply Rle_trans with (Rabs dp + N * Rabs d). { set (u := Rabs dp). set (w := N * Rabs d). replace (dp * dp) with (u * u) by (unfold u; rewrite <- Rabs_mult; apply Rabs_pos_eq; nra). replace (N * d * (N * d)) with (w * w). 2: { unfold w. replace (N * Rabs d * (N * Rabs d)) with (N * N * (Rabs d * Rabs d)) by ring. rewrite <- Rabs_mult, (Rabs_pos_eq (d * d)) by nra. ring. } apply sqrt_sum_le; [apply Rabs_pos|apply Rmult_le_pos; [lra|apply Rabs_pos]]. }
  assert (Nd : N * Rabs d <= N * (3 * e)). { apply Rmult_le_compat_l; [lra|]. nra. } lra.
Qed.

Definition eps : R := 17 / 10 ^ 13.
Definition Amax : R := 157098 / 100000.
Definition Gam (a : R) : R := eps * (91 / 100) * (2 / N) * sqrt (N * a).
Definition Ee (a : R) : R := 31 / 10 ^ 13 / N * sqrt (N * a).
Lemma dom_A : forall a, 0 < a < Amax -> dom a. Proof. unfold Amax. intros a Ha. split; [lra|nra]. Qed.
Theorem compare : forall a, 0 < a < Amax -> Rabs (p1 a - Jd a) <= Ee a /\ N * Rabs (p a - J a) <= Ee a.
Proof.
  pose proof (N_big n Hn) as HN. 
  set (d := fun a => p a - J a). set (dp := fun a => p1 a - Jd a). set (ddp := fun a => p2 a - Jdd a). set (G := fun a => eps * (91 / 100) * / sqrt (N * a)). set (k := fun _ : R => eps / N). set (K := fun a => eps / N * a).
  assert (X : forall a, 0 < a < Amax -> exp (K a) * (0 + Gam a) <= Ee a).
  { intros a Ha. rewrite Rplus_0_l. assert (E : exp (K a) <= 1001 / 1000).
    { assert (K1 : K a <= / 1002). { unfold K. unfold eps, Amax in *. assert (0 < / N <= / 101) by (split; [apply Rinv_0_lt_compat; lra|apply Rinv_le_contravar; lra]). unfold Rdiv at 1. nra. }
      pose proof (exp_ineq1_le (- K a)) as I. rewrite exp_Ropp in I. pose proof (exp_pos (K a)) as P. assert (I2 : 1001 / 1002 <= / exp (K a)) by lra. apply Rinv_le_contravar in I2; [|lra]. rewrite Rinv_inv in I2. lra. }
    unfold Gam, Ee, eps. pose proof (sqrt_pos (N * a)) as S0. assert (Ni : 0 < / N) by (apply Rinv_0_lt_compat; lra). pose proof (exp_pos (K a)) as P.
    replace (exp (K a) * (17 / 10 ^ 13 * (91 / 100) * (2 / N) * sqrt (N * a))) with (exp (K a) * (17 / 10 ^ 13 * (91 / 100) * 2) * (/ N * sqrt (N * a))) by (field; lra). replace (31 / 10 ^ 13 / N * sqrt (N * a)) with (31 / 10 ^ 13 * (/ N * sqrt (N * a))) by (field; lra).
    apply Rmult_le_compat_r; [apply Rmult_le_pos; lra|]. lra. }
  assert (Hd : forall x, 0 < x < Amax -> is_derive d x (dp x) /\ is_derive dp x (ddp x)).
  { intros x Hx. destruct (p_d n Hn x (dom_A x Hx)) as [P1 P2]. split; [apply (is_derive_minus p J); [exact P1|apply J_d]|apply (is_derive_minus p1 Jd); [exact P2|apply J_d1]]. }
  assert (HG : forall x, 0 < x < Amax -> is_derive Gam x (G x) /\ 0 <= G x /\ 0 <= Gam x).
  { intros x Hx. assert (Px : 0 < N * x) by nra. pose proof (sqrt_lt_R0 _ Px) as S0. split; [|split].
    - unfold Gam, G. auto_derive; [exact Px|]. field. lra.
    - unfold G, eps. apply Rmult_le_pos; [lra|left; apply Rinv_0_lt_compat; lra].
    - unfold Gam, eps. apply Rmult_le_pos; [|lra]. apply Rmult_le_pos; [lra|]. apply Rmult_le_pos; [lra|left; apply Rinv_0_lt_compat; lra]. }
  assert (k0 : 0 < eps / N) by (unfold eps; apply Rdiv_lt_0_compat; lra).
  assert (HK : forall x, 0 < x < Amax -> is_derive K x (k x) /\ 0 <= k x /\ 0 <= K x).
  { intros x Hx. split; [|split]; [unfold K, k; auto_derive; [trivial|ring]|unfold k; lra|unfold K; apply Rmult_le_pos; lra]. }
  assert (Ho : forall x, 0 < x < Amax -> dp x * (ddp x + N * N * d x) <= Rabs (dp x) * (G x + k x * (N * Rabs (d x)))).
  { intros x Hx. pose proof (p_ode n Hn x (dom_A x Hx)) as O1. pose proof (J_ode N x ltac:(lra)) as O2. pose proof (Q_ok n Hn x (dom_A x Hx)) as Q. pose proof (J_sqrt N x ltac:(lra) ltac:(lra)) as JB. set (q := Qq n x) in *.
    assert (E : ddp x + N * N * d x = - (/ x * dp x) + - q * (d x + J x)). { unfold ddp, dp, d. lra. } rewrite E.
    assert (Xi : 0 < / x) by (apply Rinv_0_lt_compat; lra). rewrite Rmult_plus_distr_l. apply Rle_trans with (0 + Rabs (dp x) * (Rabs q * (Rabs (d x) + Rabs (J x)))).
    - apply Rplus_le_compat. { replace (dp x * - (/ x * dp x)) with (- (/ x * (dp x * dp x))) by ring. pose proof (Rmult_le_pos (/ x) (dp x * dp x) ltac:(lra) ltac:(nra)). lra. }
      eapply Rle_trans; [apply Rle_abs|]. rewrite !Rabs_mult, Rabs_Ropp. apply Rmult_le_compat_l; [apply Rabs_pos|]. apply Rmult_le_compat_l; [apply Rabs_pos|apply Rabs_triang].
    - rewrite Rplus_0_l. apply Rmult_le_compat_l; [apply Rabs_pos|]. apply Rle_trans with (eps * (Rabs (d x) + 91 / 100 / sqrt (N * x))).
      + apply Rmult_le_compat; [apply Rabs_pos| |exact Q|apply Rplus_le_compat_l; exact JB]. pose proof (Rabs_pos (d x)). pose proof (Rabs_pos (J x)). lra.
      + unfold G, k. right. assert (0 < sqrt (N * x)) by (apply sqrt_lt_R0; nra). field. lra. }
  intros a Ha. split.
  - eapply Rle_trans; [|apply X; exact Ha]. apply (energy_d1 d dp ddp G Gam k K N 0 Amax 0); try assumption; try lra. intros eta He. apply s_start. exact He.
  - eapply Rle_trans; [|apply X; exact Ha]. apply (energy_d d dp ddp G Gam k K N 0 Amax 0); try assumption; try lra. intros eta He. apply s_start. exact He.
Qed.
End C.
