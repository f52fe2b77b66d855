(** A zero of the Legendre polynomial near the angle computed from a zero of J_0. *)
From Coq Require Import Reals Ranalysis5 ZArith List Lra Lia Psatz.
From Coquelicot Require Import Coquelicot.
From Verif Require Import TM Ode Bessel BesselJ BesselTab LegOde BogPoly BogT BogLeg BogCmp McRule.
Import ListNotations.
Local Open Scope R_scope.

Lemma amp1_bd : forall z, 82 / 100 <= z -> amp 1 z <= 82 / 100.
Proof.
  intros z Hz. eapply Rle_trans; [apply (amp_le 1 (82 / 100) z); lra|]. destruct B_at as [P0 P1]. unfold amp, J, Jd, B, B1, jy. replace (1 * (82 / 100) * (1 * (82 / 100)) / 4) with (1681 / 10000) by field. set (h0 := H 0 0 _) in *. set (h1 := H 1 0 _) in *. clearbody h0 h1.
  set (u := 1 * 1 * (82 / 100) / 2 * - h1 + h0 * / (2 * (82 / 100))). assert (U : Rabs u <= 14 / 100) by (unfold u; apply Rabs_le; lra). apply abs_both in U. assert (u * u <= 14 / 100 * (14 / 100)) by nra. assert (h0 * h0 <= 83900 / 100000 * (83900 / 100000)) by nra. lra.
Qed.
Lemma Jd_sqrt : forall z, 2 <= z -> Rabs (Jd 1 z) <= 114 / 100 / sqrt z.
Proof.
  intros z Hz. pose proof (amp1_bd z ltac:(lra)) as A. pose proof (J_sqrt 1 z ltac:(lra) ltac:(lra)) as Js. rewrite Rmult_1_l in Js. set (s := sqrt z) in *. assert (S2 : s * s = z) by (apply sqrt_sqrt; lra). assert (S0 : 0 < s) by (apply sqrt_lt_R0; lra). assert (Is : 0 < / s) by (apply Rinv_0_lt_compat; exact S0).
  unfold amp in A. set (v := Jd 1 z + J 1 z * / (2 * z)) in *. assert (I4 : 0 < / (4 * z)) by (apply Rinv_0_lt_compat; lra). assert (Q : 0 <= (1 * 1 * z + / (4 * z)) * (J 1 z * J 1 z)) by (apply Rmult_le_pos; [nra|nra]).
  assert (V : Rabs v <= 91 / 100 * / s). { apply Rmult_le_reg_r with s; [exact S0|]. rewrite Rmult_assoc, Rinv_l, Rmult_1_r by lra. apply Rsqr_incr_0_var; [|lra]. unfold Rsqr. assert (E : Rabs v * Rabs v = v * v) by (rewrite <- Rabs_mult; apply Rabs_pos_eq; nra). replace (Rabs v * s * (Rabs v * s)) with (s * s * (Rabs v * Rabs v)) by ring. rewrite E, S2. lra. }
  replace (Jd 1 z) with (v + - (J 1 z * / (2 * z))) by (unfold v; ring). eapply Rle_trans; [apply Rabs_triang|]. rewrite Rabs_Ropp, Rabs_mult. assert (I2 : 0 < / (2 * z) <= / 4) by (split; [apply Rinv_0_lt_compat; lra|apply Rinv_le_contravar; lra]). rewrite (Rabs_pos_eq (/ (2 * z))) by lra. unfold Rdiv in *. pose proof (Rabs_pos (J 1 z)). nra.
Qed.

Definition del : R := 7 / 10 ^ 14.
(** near a zero *)
Section Z.
Variables nu b : R. Hypothesis Hp : bessel_pair (6 / 10 ^ 15) (2 / 10 ^ 15) nu b. Hypothesis Hnu : 24 / 10 <= nu.
Notation s := (sqrt nu). Notation j := (Rabs (J0' nu)).
Lemma s2 : s * s = nu. Proof. apply sqrt_sqrt. lra. Qed.
Lemma s0 : 0 < s. Proof. apply sqrt_lt_R0. lra. Qed.
Lemma jj : J0' nu * J0' nu = j * j. Proof. rewrite <- Rabs_mult, Rabs_pos_eq by nra. reflexivity. Qed.
Lemma j_rng : 793 / 1000 * / s <= j <= 807 / 1000 * / s.
Proof.
  destruct Hp as (A & B & C & D & E). rewrite jj in D. pose proof s2 as S2. pose proof s0 as S0. pose proof (Rabs_pos (J0' nu)) as P. rewrite <- S2 in E.
  assert (K : 6289 / 10000 <= j * s * (j * s) <= 6511 / 10000). { replace (j * s * (j * s)) with (j * j * (s * s)) by ring. split; nra. } assert (J : 0 <= j * s) by nra. set (u := j * s) in *. assert (U : 793 / 1000 <= u <= 807 / 1000) by (clear -K J; split; nra).
  assert (Ej : j = u * / s) by (unfold u; field; lra). assert (0 < / s) by (apply Rinv_0_lt_compat; exact S0). rewrite Ej. split; apply Rmult_le_compat_r; lra.
Qed.
Lemma sq_near : forall z, Rabs (z - nu) <= del -> 9999 / 10000 * s <= sqrt z <= 10001 / 10000 * s.
Proof.
  intros z Hz. apply abs_both in Hz. unfold del in Hz. pose proof s2 as S2. pose proof s0 as S0. split.
  - rewrite <- (sqrt_square (9999 / 10000 * s)) by lra. apply sqrt_le_1_alt. nra.
  - rewrite <- (sqrt_square (10001 / 10000 * s)) by lra. apply sqrt_le_1_alt. nra.
Qed.
Lemma Jd_near0 : forall z, Rabs (z - nu) <= del -> Rabs (Jd 1 z) <= 1141 / 1000 * / s.
Proof.
  intros z Hz. pose proof (sq_near z Hz) as Q. pose proof s0 as S0. apply abs_both in Hz. unfold del in Hz. eapply Rle_trans; [apply Jd_sqrt; lra|]. unfold Rdiv. apply Rmult_le_reg_r with (sqrt z * s); [nra|]. replace (114 * / 100 * / sqrt z * (sqrt z * s)) with (114 / 100 * s) by (field; lra). replace (1141 * / 1000 * / s * (sqrt z * s)) with (1141 / 1000 * sqrt z) by (field; lra). nra.
Qed.
Lemma J_nu : Rabs (J 1 nu) <= 6 / 10 ^ 15 * j. Proof. destruct Hp as (A & B & C & D & E). rewrite J_J0. exact C. Qed.
Lemma nu_self : Rabs (nu - nu) <= del. Proof. replace (nu - nu) with 0 by ring. rewrite Rabs_R0. unfold del. lra. Qed.
Lemma in_near : forall z, nu - del <= z <= nu + del -> Rabs (z - nu) <= del. Proof. intros z H. apply Rabs_le. lra. Qed.
Lemma J_near0 : forall z, Rabs (z - nu) <= del -> Rabs (J 1 z) <= 86 / 10 ^ 15 * / s.
Proof.
  intros z Hz. pose proof J_nu as A. pose proof j_rng as R0. assert (Is : 0 < / s) by (apply Rinv_0_lt_compat; apply s0). assert (K : Rabs (J 1 z - J 1 nu) <= 1141 / 1000 * / s * Rabs (z - nu)).
  { apply (mvt_lip (J 1) (Jd 1) (nu - del) (nu + del)); [|apply abs_both in Hz; lra|unfold del; lra]. intros x Hx. split; [apply J_d|apply Jd_near0; apply in_near; exact Hx]. }
  replace (J 1 z) with ((J 1 z - J 1 nu) + J 1 nu) by ring. eapply Rle_trans; [apply Rabs_triang|]. assert (1141 / 1000 * / s * Rabs (z - nu) <= 1141 / 1000 * / s * del) by (apply Rmult_le_compat_l; lra). unfold del in *. lra.
Qed.
Lemma Jd_close : forall z, Rabs (z - nu) <= del -> Rabs (Jd 1 z - Jd 1 nu) <= 34 / 10 ^ 15 * / s.
Proof.
  intros z Hz. assert (Is : 0 < / s) by (apply Rinv_0_lt_compat; apply s0). assert (K : Rabs (Jd 1 z - Jd 1 nu) <= 48 / 100 * / s * Rabs (z - nu)).
  { apply (mvt_lip (Jd 1) (Jdd 1) (nu - del) (nu + del)); [|apply abs_both in Hz; lra|unfold del; lra]. intros x Hx. split; [apply J_d1|]. pose proof (Jd_near0 x (in_near x Hx)) as A. pose proof (J_near0 x (in_near x Hx)) as B. unfold del in Hx. pose proof (J_ode 1 x ltac:(lra)) as O.
    replace (Jdd 1 x) with (- (/ x * Jd 1 x) + - J 1 x) by lra. eapply Rle_trans; [apply Rabs_triang|]. rewrite !Rabs_Ropp, Rabs_mult. assert (0 < / x <= / (239 / 100)) by (split; [apply Rinv_0_lt_compat; lra|apply Rinv_le_contravar; lra]). rewrite (Rabs_pos_eq (/ x)) by lra. assert (/ x * Rabs (Jd 1 x) <= / (239 / 100) * (1141 / 1000 * / s)) by (apply Rmult_le_compat; try apply Rabs_pos; lra). lra. }
  eapply Rle_trans; [exact K|]. assert (48 / 100 * / s * Rabs (z - nu) <= 48 / 100 * / s * del) by (apply Rmult_le_compat_l; lra). unfold del in *. lra.
Qed.

Variable n : nat. Hypothesis Hn : (101 <= n)%nat.
Notation N := (Nn n). Notation al := (nu / N).
Hypothesis Hal : al <= 157097 / 100000.
Definition rho : R := del / N.
Lemma JN : forall x, J N x = J 1 (N * x). Proof. intros x. unfold J, jy. f_equal. field. Qed.
Lemma JdN : forall x, Jd N x = N * Jd 1 (N * x). Proof. intros x. unfold Jd, jy. replace (1 * (N * x) * (1 * (N * x)) / 4) with (N * x * (N * x) / 4) by field. field. Qed.
Lemma Nal : N * al = nu. Proof. pose proof (N_big n Hn). field. lra. Qed.
Lemma al0 : 0 < al. Proof. pose proof (N_big n Hn). apply Rdiv_lt_0_compat; lra. Qed.
Lemma rho0 : 0 < rho <= 1 / 10 ^ 15. Proof. pose proof (N_big n Hn) as NB. unfold rho, del. split; [apply Rdiv_lt_0_compat; lra|]. apply Rmult_le_reg_r with N; [lra|]. unfold Rdiv. rewrite Rmult_assoc, Rinv_l by lra. lra. Qed.
Lemma near_x : forall x, Rabs (x - al) <= rho -> Rabs (N * x - nu) <= del.
Proof. intros x Hx. pose proof (N_big n Hn) as NB. rewrite <- Nal at 1. rewrite <- Rmult_minus_distr_l, Rabs_mult, (Rabs_pos_eq N) by lra. apply Rle_trans with (N * rho); [apply Rmult_le_compat_l; lra|]. unfold rho. right. field. lra. Qed.
Lemma x_pos : forall x, Rabs (x - al) <= rho -> 0 < x < Amax.
Proof.
  intros x Hx. pose proof (near_x x Hx) as K. pose proof (N_big n Hn) as NB. pose proof rho0 as R0. apply abs_both in K. apply abs_both in Hx. unfold del in K. split; [|unfold Amax; lra]. destruct (Rle_or_lt x 0); [nra|assumption].
Qed.
Lemma x_dom : forall x, Rabs (x - al) <= rho -> dom x. Proof. intros x Hx. apply dom_A. apply x_pos. exact Hx. Qed.
Lemma E_bd : forall x, Rabs (x - al) <= rho -> Ee n x <= 4872 / 10 ^ 15 * / s.
Proof.
  intros x Hx. pose proof (sq_near _ (near_x x Hx)) as Q. pose proof (N_big n Hn) as NB. pose proof s0 as S0. pose proof s2 as S2. unfold Ee.
  apply Rmult_le_reg_r with (N * s); [nra|]. replace (31 / 10 ^ 13 / N * sqrt (N * x) * (N * s)) with (31 / 10 ^ 13 * (sqrt (N * x) * s)) by (field; lra). replace (4872 / 10 ^ 15 * / s * (N * s)) with (4872 / 10 ^ 15 * N) by (field; lra).
  assert (sqrt (N * x) * s <= 10001 / 10000 * nu) by nra. assert (nu <= 157097 / 100000 * N). { rewrite <- Nal. nra. } lra.
Qed.
Lemma p1_close : forall x, Rabs (x - al) <= rho -> Rabs (p1 n x - N * J0' nu) <= N * (83 / 10 ^ 15 * / s).
Proof.
  intros x Hx. destruct (compare n Hn x (x_pos x Hx)) as [C _]. pose proof (E_bd x Hx) as E. pose proof (N_big n Hn) as NB. pose proof (Jd_close _ (near_x x Hx)) as D. rewrite JdN in C. rewrite <- Jd_J0. assert (Is : 0 < / s) by (apply Rinv_0_lt_compat; apply s0).
  replace (p1 n x - N * Jd 1 nu) with ((p1 n x - N * Jd 1 (N * x)) + N * (Jd 1 (N * x) - Jd 1 nu)) by ring. eapply Rle_trans; [apply Rabs_triang|]. rewrite (Rabs_mult N), (Rabs_pos_eq N) by lra.
  assert (N * Rabs (Jd 1 (N * x) - Jd 1 nu) <= N * (34 / 10 ^ 15 * / s)) by (apply Rmult_le_compat_l; lra). assert (4872 / 10 ^ 15 * / s <= N * (49 / 10 ^ 15 * / s)). { replace (N * (49 / 10 ^ 15 * / s)) with (N * (49 / 10 ^ 15) * / s) by ring. apply Rmult_le_compat_r; lra. } lra.
Qed.
Lemma p_small : Rabs (p n al) <= 68 / 10 ^ 15 * j.
Proof.
  assert (Hx : Rabs (al - al) <= rho) by (replace (al - al) with 0 by ring; rewrite Rabs_R0; pose proof rho0; lra). destruct (compare n Hn al (x_pos al Hx)) as [_ C]. pose proof (E_bd al Hx) as E. pose proof (N_big n Hn) as NB. pose proof J_nu as A. pose proof j_rng as R0. rewrite JN, Nal in C. assert (Is : 0 < / s) by (apply Rinv_0_lt_compat; apply s0).
  replace (p n al) with ((p n al - J 1 nu) + J 1 nu) by ring. eapply Rle_trans; [apply Rabs_triang|]. assert (Rabs (p n al - J 1 nu) <= 4801 / 10 ^ 17 * / s). { apply Rmult_le_reg_l with N; [lra|]. eapply Rle_trans; [exact C|]. eapply Rle_trans; [exact E|]. replace (N * (4801 / 10 ^ 17 * / s)) with (N * (4801 / 10 ^ 17) * / s) by ring. apply Rmult_le_compat_r; lra. } lra.
Qed.
Lemma sgn : exists e, (e = 1 \/ e = -1) /\ e * J0' nu = j.
Proof. destruct (Rle_or_lt 0 (J0' nu)); [exists 1; split; [left; reflexivity|rewrite Rabs_pos_eq by lra; ring]|exists (-1); split; [right; reflexivity|rewrite Rabs_left by lra; ring]]. Qed.
Theorem root_near : exists x, Rabs (x - al) <= rho /\ p n x = 0.
Proof.
  destruct sgn as (e & He & Ej). assert (Ae : Rabs e = 1) by (destruct He as [-> | ->]; [apply Rabs_R1|rewrite Rabs_left; lra]). pose proof (N_big n Hn) as NB. pose proof j_rng as R0. pose proof rho0 as RH. assert (Is : 0 < / s) by (apply Rinv_0_lt_compat; apply s0). pose proof p_small as P0.
  set (f := fun x => e * p n x). set (f1 := fun x => e * p1 n x).
  assert (D : forall x, Rabs (x - al) <= rho -> is_derive f x (f1 x)) by (intros x Hx; apply is_derive_scal; apply (p_d n Hn x (x_dom x Hx))).
  assert (G : forall x, Rabs (x - al) <= rho -> 999 / 1000 * (N * j) <= f1 x).
  { intros x Hx. pose proof (p1_close x Hx) as C. assert (C' : Rabs (f1 x - N * j) <= N * (83 / 10 ^ 15 * / s)). { unfold f1. rewrite <- Ej. replace (e * p1 n x - N * (e * J0' nu)) with (e * (p1 n x - N * J0' nu)) by ring. rewrite Rabs_mult, Ae, Rmult_1_l. exact C. }
    apply abs_both in C'. assert (N * (83 / 10 ^ 15 * / s) <= N * (1 / 1000 * j)) by (apply Rmult_le_compat_l; lra). lra. }
  assert (f0 : Rabs (f al) <= 68 / 10 ^ 15 * j) by (unfold f; rewrite Rabs_mult, Ae, Rmult_1_l; exact P0). apply abs_both in f0.
  assert (Cn : forall x, Rabs (x - al) <= rho -> continuity_pt f x) by (intros x Hx; apply derivable_continuous_pt; exists (f1 x); apply is_derive_Reals; apply D; exact Hx).
  assert (NR : N * rho = del) by (unfold rho; field; lra). assert (J0 : 0 < j) by nra.
  assert (Step : 999 / 1000 * (N * j) * rho = 999 / 1000 * del * j) by (rewrite <- NR; ring). unfold del in Step.
  assert (Hi : 0 < f (al + rho)).
  { destruct (MVT_gen f al (al + rho) f1) as (c & Hc & E); [intros x; rewrite Rmin_left, Rmax_right by lra; intros Hx; apply D; apply Rabs_le; lra|intros x; rewrite Rmin_left, Rmax_right by lra; intros Hx; apply Cn; apply Rabs_le; lra|]. rewrite Rmin_left, Rmax_right in Hc by lra. specialize (G c ltac:(apply Rabs_le; lra)). replace (al + rho - al) with rho in E by ring. assert (999 / 1000 * (N * j) * rho <= f1 c * rho) by (apply Rmult_le_compat_r; lra). lra. }
  assert (Lo : f (al - rho) < 0).
  { destruct (MVT_gen f (al - rho) al f1) as (c & Hc & E); [intros x; rewrite Rmin_left, Rmax_right by lra; intros Hx; apply D; apply Rabs_le; lra|intros x; rewrite Rmin_left, Rmax_right by lra; intros Hx; apply Cn; apply Rabs_le; lra|]. rewrite Rmin_left, Rmax_right in Hc by lra. specialize (G c ltac:(apply Rabs_le; lra)). replace (al - (al - rho)) with rho in E by ring. assert (999 / 1000 * (N * j) * rho <= f1 c * rho) by (apply Rmult_le_compat_r; lra). lra. }
  destruct (Ranalysis5.IVT_interv f (al - rho) (al + rho)) as (x & Hx & Ex); [intros y Hy; apply Cn; apply Rabs_le; lra|lra|exact Lo|exact Hi|].
  exists x. split; [apply Rabs_le; lra|]. unfold f in Ex. destruct He as [-> | ->]; lra.
Qed.
Lemma p1_sq : forall x, Rabs (x - al) <= rho -> Rabs (p1 n x * p1 n x - N * N * b) <= 22 / 10 ^ 14 * (N * N * b).
Proof.
  intros x Hx. pose proof (p1_close x Hx) as C. destruct Hp as (A & B & _ & D & _). pose proof (N_big n Hn) as NB. pose proof j_rng as R0. assert (Is : 0 < / s) by (apply Rinv_0_lt_compat; apply s0). rewrite jj in D. pose proof jj as JJ. set (e := p1 n x - N * J0' nu) in *.
  assert (Ee : Rabs e <= 105 / 10 ^ 15 * (N * j)). { eapply Rle_trans; [exact C|]. apply Rle_trans with (N * (105 / 10 ^ 15 * j)); [apply Rmult_le_compat_l; lra|right; ring]. }
  replace (p1 n x * p1 n x) with (N * N * (J0' nu * J0' nu) + (2 * (N * J0' nu) + e) * e) by (unfold e; ring). rewrite JJ.
  assert (U : Rabs ((2 * (N * J0' nu) + e) * e) <= 2101 / 10 ^ 16 * (N * N * (j * j))).
  { rewrite Rabs_mult. assert (Rabs (2 * (N * J0' nu) + e) <= 20001 / 10000 * (N * j)). { eapply Rle_trans; [apply Rabs_triang|]. rewrite !Rabs_mult, (Rabs_pos_eq 2), (Rabs_pos_eq N) by lra. assert (0 <= N * j) by nra. lra. }
    apply Rle_trans with (20001 / 10000 * (N * j) * (105 / 10 ^ 15 * (N * j))); [apply Rmult_le_compat; try apply Rabs_pos; assumption|]. assert (0 <= N * j * (N * j)) by nra. nra. }
  apply abs_both in U. set (q := j * j) in *. set (M := N * N) in *. assert (M0 : 0 < M) by (unfold M; nra). assert (L1 : M * ((1 - 2 / 10 ^ 15) * b) <= M * q) by (apply Rmult_le_compat_l; lra). assert (L2 : M * q <= M * ((1 + 2 / 10 ^ 15) * b)) by (apply Rmult_le_compat_l; lra). assert (0 < M * b) by nra. apply Rabs_le. lra.
Qed.
End Z.
