(** The zeros of J_0 from McMahon's expansion: comparison of sqrt(Zt/Zt') J_0(Zt(t)) with a trigonometric function. *)
From Coq Require Import Reals ZArith List Lra Lia Psatz.
From Coquelicot Require Import Coquelicot.
From Verif Require Import TM AccF64 Ode Bessel BesselJ BogLeg BogCmp McPoly.
Import ListNotations.
Local Open Scope R_scope.

Definition rr (t : R) : R := / (t * t).
Definition Zt (t : R) : R := t * ze (rr t).
Definition Z1 (t : R) : R := Bz (rr t).
Definition Z2 (t : R) : R := 2 * mb1 (rr t) * / (t * t * t).
Definition Z3 (t : R) : R := - 4 * mb2 (rr t) * / (t * t * t * (t * t * t)) - 6 * mb1 (rr t) * / (t * t * (t * t)).
Lemma rr_ok : forall t, 62 <= t -> 0 < rr t <= / 3844.
Proof. intros t Ht. unfold rr. split; [apply Rinv_0_lt_compat; nra|apply Rinv_le_contravar; nra]. Qed.
Lemma rr_d : forall t, 0 < t -> is_derive rr t (- 2 * / (t * t * t)).
Proof. intros t Ht. unfold rr. auto_derive; [nra|field; lra]. Qed.
Lemma comp_rr : forall f f' t, 0 < t -> is_derive f (rr t) f' -> is_derive (fun t => f (rr t)) t (- 2 * / (t * t * t) * f').
Proof. intros f f' t Ht D. evar_last; [apply (is_derive_comp f rr); [exact D|apply rr_d; exact Ht]|]. unfold scal; simpl. unfold mult; simpl. ring. Qed.
Ltac fin := unfold plus, minus, opp, mult, scal, zero, one; simpl; unfold plus, opp, mult, zero, one; simpl; match goal with |- ?a = ?b => change (@eq R a b) end.
Lemma lin_d : forall f f' r, is_derive f r f' -> is_derive (fun r => r * f r) r (f r + r * f').
Proof. intros f f' r D. evar_last. { apply (is_derive_mult (fun r => r) f); [apply is_derive_id|exact D|intros; apply Rmult_comm]. } fin. ring. Qed.
Lemma ze_d : forall r, is_derive ze r (g r + r * g1 r).
Proof. intros r. unfold ze. evar_last. { apply (is_derive_plus (fun _ => 1) (fun r => r * g r)); [apply is_derive_const|apply lin_d; apply g_d]. } fin. ring. Qed.
Lemma eb_d : forall r, is_derive eb r (3 * g1 r + 2 * r * g2 r).
Proof. intros r. unfold eb. evar_last. { apply (is_derive_plus g (fun r => r * (2 / 1 * g1 r))); [apply g_d|apply (lin_d (fun r => 2 / 1 * g1 r)); apply is_derive_scal; apply g1_d]. } fin. field. Qed.
Lemma Bz_d : forall r, is_derive Bz r (- mb1 r).
Proof. intros r. unfold Bz, mb1. evar_last. { apply (is_derive_minus (fun _ => 1) (fun r => r * eb r)); [apply is_derive_const|apply lin_d; apply eb_d]. } fin. unfold eb. field. Qed.
Lemma mb1_d : forall r, is_derive mb1 r (mb2 r).
Proof.
  intros r. unfold mb1, mb2. evar_last. { apply (is_derive_plus g (fun r => r * (5 / 1 * g1 r + r * (2 / 1 * g2 r)))); [apply g_d|apply (lin_d (fun r => 5 / 1 * g1 r + r * (2 / 1 * g2 r)))].
    apply (is_derive_plus (fun r => 5 / 1 * g1 r) (fun r => r * (2 / 1 * g2 r))); [apply is_derive_scal; apply g1_d|apply (lin_d (fun r => 2 / 1 * g2 r)); apply is_derive_scal; apply g2_d]. } fin.
  unfold plus; simpl. field.
Qed.
Lemma Z_d : forall t, 0 < t -> is_derive Zt t (Z1 t).
Proof.
  intros t Ht. unfold Zt, Z1. evar_last. { apply (is_derive_mult (fun t => t) (fun t => ze (rr t))); [apply is_derive_id|apply comp_rr; [exact Ht|apply ze_d]|intros; apply Rmult_comm]. } fin.
  unfold Bz, ze, eb. set (a := g (rr t)). set (b := g1 (rr t)). unfold rr. field. lra.
Qed.
Lemma Z1_d : forall t, 0 < t -> is_derive Z1 t (Z2 t).
Proof. intros t Ht. unfold Z1, Z2. evar_last; [apply comp_rr; [exact Ht|apply Bz_d]|]. ring. Qed.
Lemma Z2_d : forall t, 0 < t -> is_derive Z2 t (Z3 t).
Proof.
  intros t Ht. unfold Z2, Z3. evar_last. { apply (is_derive_mult (fun t => 2 * mb1 (rr t)) (fun t => / (t * t * t))); [apply is_derive_scal; apply comp_rr; [exact Ht|apply mb1_d]| |intros; apply Rmult_comm]. instantiate (1 := - 3 * / (t * t * (t * t))). auto_derive; [assert (0 < t * t) by nra; assert (0 < t * t * t) by nra; lra|field; lra]. } fin.
  field. lra.
Qed.
Lemma ze_rng : forall t, 62 <= t -> Rabs (ze (rr t) - 1) <= / 1000. Proof. intros t Ht. apply ze_range. pose proof (rr_ok t Ht). lra. Qed.
Lemma Z1_rng : forall t, 62 <= t -> 999 / 1000 <= Z1 t <= 1001 / 1000. Proof. intros t Ht. pose proof (Bz_range (rr t)) as K. pose proof (rr_ok t Ht). specialize (K ltac:(lra)). unfold Z1. apply abs_both in K. lra. Qed.
Lemma Zt_rng : forall t, 62 <= t -> 999 / 1000 * t <= Zt t <= 1001 / 1000 * t. Proof. intros t Ht. pose proof (ze_rng t Ht) as K. unfold Zt. apply abs_both in K. nra. Qed.

Definition Lm (t : R) : R := / 2 * (Z1 t / Zt t - Z2 t / Z1 t).
Definition Lm1 (t : R) : R := / 2 * ((Z2 t * Zt t - Z1 t * Z1 t) / (Zt t * Zt t) - (Z3 t * Z1 t - Z2 t * Z2 t) / (Z1 t * Z1 t)).
Definition mm (t : R) : R := sqrt (Zt t / Z1 t).
Lemma Lm_d : forall t, 62 <= t -> is_derive Lm t (Lm1 t).
Proof.
  intros t Ht. pose proof (Zt_rng t Ht) as A. pose proof (Z1_rng t Ht) as B. unfold Lm, Lm1. apply is_derive_scal. apply (is_derive_minus (fun t => Z1 t / Zt t) (fun t => Z2 t / Z1 t)); apply div_d; try lra; first [apply Z_d|apply Z1_d|apply Z2_d]; lra.
Qed.
Lemma mm_pos : forall t, 62 <= t -> 0 < Zt t / Z1 t. Proof. intros t Ht. pose proof (Zt_rng t Ht). pose proof (Z1_rng t Ht). apply Rdiv_lt_0_compat; lra. Qed.
Lemma mm_d : forall t, 62 <= t -> is_derive mm t (Lm t * mm t).
Proof.
  intros t Ht. pose proof (mm_pos t Ht) as P. pose proof (Zt_rng t Ht) as A. pose proof (Z1_rng t Ht) as B. unfold mm. evar_last. { apply (is_derive_comp sqrt (fun t => Zt t / Z1 t)); [apply is_derive_Reals; apply derivable_pt_lim_sqrt; exact P|]. apply div_d; [lra|apply Z_d; lra|apply Z1_d; lra]. }
  unfold scal; simpl. unfold mult; simpl. pose proof (sqrt_lt_R0 _ P) as Q. pose proof (sqrt_sqrt (Zt t / Z1 t) ltac:(lra)) as E. set (r := sqrt (Zt t / Z1 t)) in *. unfold Lm.
  assert (E2 : Zt t = r * r * Z1 t) by (rewrite E; field; lra). clearbody r. rewrite E2. field. lra.
Qed.
Definition V (t : R) : R := lp (J 1) Zt mm t.
Definition V1 (t : R) : R := lp1 (J 1) (Jd 1) Zt Z1 mm Lm t.
Definition V2 (t : R) : R := lp2 (J 1) (Jd 1) (Jdd 1) Zt Z1 Z2 mm Lm Lm1 t.
Lemma V_d : forall t, 62 <= t -> is_derive V t (V1 t).
Proof. intros t Ht. apply lp_d; [apply J_d|apply Z_d; lra|apply mm_d; exact Ht]. Qed.
Lemma V1_d : forall t, 62 <= t -> is_derive V1 t (V2 t).
Proof. intros t Ht. apply lp_d1; [apply J_d|apply J_d1|apply Z_d; lra|apply Z1_d; lra|apply mm_d; exact Ht|apply Lm_d; exact Ht]. Qed.
Lemma q_mc : forall t, 62 <= t -> Z1 t * Z1 t - Lm1 t - Lm t * Lm t = 1 + rr t * qr (rr t).
Proof.
  intros t Ht. pose proof (Zt_rng t Ht) as A. pose proof (Z1_rng t Ht) as B. pose proof (ze_rng t Ht) as C. apply abs_both in C.
  assert (E1 : - Lm1 t - Lm t * Lm t = Z1 t * Z1 t / (4 * (Zt t * Zt t)) + / 2 * (Z3 t / Z1 t) - 3 / 4 * (Z2 t * Z2 t / (Z1 t * Z1 t))) by (unfold Lm1, Lm; field; lra).
  replace (Z1 t * Z1 t - Lm1 t - Lm t * Lm t) with (Z1 t * Z1 t + (- Lm1 t - Lm t * Lm t)) by ring. rewrite E1.
  assert (S1 : Z1 t * Z1 t = 1 - rr t * (eb (rr t) * (2 / 1 * 1 - rr t * eb (rr t)))) by (unfold Z1, Bz; field).
  assert (S2 : Z1 t * Z1 t / (4 * (Zt t * Zt t)) = rr t * (1 / 4 * (Bz (rr t) * / ze (rr t) * (Bz (rr t) * / ze (rr t))))).
  { unfold Zt. fold (Z1 t). set (z := ze (rr t)) in *. unfold rr. field. split; lra. }
  assert (S3 : / 2 * (Z3 t / Z1 t) = - (rr t * (rr t * ((3 / 1 * mb1 (rr t) + rr t * (2 / 1 * mb2 (rr t))) * / Bz (rr t))))).
  { unfold Z3. fold (Z1 t). set (u := mb1 (rr t)). set (w := mb2 (rr t)). unfold rr. field. split; lra. }
  assert (S4 : 3 / 4 * (Z2 t * Z2 t / (Z1 t * Z1 t)) = rr t * (3 / 1 * (rr t * (mb1 (rr t) * / Bz (rr t)) * (rr t * (mb1 (rr t) * / Bz (rr t)))))).
  { unfold Z2. fold (Z1 t). set (u := mb1 (rr t)). unfold rr. field. split; lra. }
  rewrite S2, S3, S4. rewrite S1. unfold qr. clear. set (z := / ze (rr t)). set (u := Bz (rr t)). set (iu := / u). clearbody z u iu. ring.
Qed.
Lemma V_ode : forall t, 62 <= t -> V2 t + (1 + rr t * qr (rr t)) * V t = 0.
Proof.
  intros t Ht. pose proof (Zt_rng t Ht) as A. pose proof (Z1_rng t Ht) as B. rewrite <- q_mc by exact Ht.
  pose proof (lp_ode (J 1) (Jd 1) (Jdd 1) Zt Z1 Z2 mm Lm Lm1 t (/ Zt t) 1 0) as O. unfold V, V2. etransitivity; [|apply O].
  - ring.
  - pose proof (J_ode 1 (Zt t) ltac:(lra)) as K. rewrite <- K. ring.
  - unfold Lm. field. lra.
Qed.

(** comparison with the trigonometric solution from a starting point *)
Section A.
Variables t0 t1 : R. Hypothesis H0 : 62 < t0. Hypothesis H1 : t0 < t1.
Hypothesis Hv : Rabs (V t0) <= 1 / 10. Hypothesis Hv1 : Rabs (V1 t0) <= 9 / 10.
Let kap := 1 / 10 ^ 20.
Definition amp0 (t : R) : R := V t0 * cos (t - t0) + V1 t0 * sin (t - t0).
Definition amp1 (t : R) : R := - V t0 * sin (t - t0) + V1 t0 * cos (t - t0).
Lemma amp0_d : forall t, is_derive amp0 t (amp1 t). Proof. intros t. unfold amp0, amp1. unfold Rminus; auto_derive; [trivial|ring]. Qed.
Lemma amp1_d : forall t, is_derive amp1 t (- amp0 t). Proof. intros t. unfold amp0, amp1. unfold Rminus; auto_derive; [trivial|ring]. Qed.
Lemma amp0_le : forall t, Rabs (amp0 t) <= 1.
Proof.
  intros t. unfold amp0. eapply Rle_trans; [apply Rabs_triang|]. rewrite !Rabs_mult. pose proof (COS_bound (t - t0)) as C. pose proof (SIN_bound (t - t0)) as S. assert (Rabs (cos (t - t0)) <= 1) by (apply Rabs_le; lra). assert (Rabs (sin (t - t0)) <= 1) by (apply Rabs_le; lra).
  pose proof (Rabs_pos (V t0)). pose proof (Rabs_pos (V1 t0)). pose proof (Rabs_pos (cos (t - t0))). pose proof (Rabs_pos (sin (t - t0))). nra.
Qed.
Definition Kf (t : R) : R := kap * (/ t0 - / t).
Lemma Kf_d : forall t, t0 < t -> is_derive Kf t (kap * rr t) /\ 0 <= kap * rr t /\ 0 <= Kf t.
Proof.
  intros t Ht. assert (K : 0 < kap) by (unfold kap; lra). split; [|split].
  - unfold Kf, rr. auto_derive; [lra|field; lra].
  - pose proof (rr_ok t ltac:(lra)). apply Rmult_le_pos; lra.
  - unfold Kf. apply Rmult_le_pos; [lra|]. assert (/ t <= / t0) by (apply Rinv_le_contravar; lra). lra.
Qed.
Lemma amp_start : forall eta, 0 < eta -> exists x0, t0 < x0 < t0 + eta /\ sqrt ((V1 x0 - amp1 x0) * (V1 x0 - amp1 x0) + 1 * (V x0 - amp0 x0) * (1 * (V x0 - amp0 x0))) <= 0 + eta.
Proof.
  intros eta He. set (d := fun t => V t - amp0 t). set (d1 := fun t => V1 t - amp1 t).
  assert (D : is_derive d t0 (d1 t0)) by (apply (is_derive_minus V amp0); [apply V_d; lra|apply amp0_d]).
  assert (D1 : is_derive d1 t0 ((fun t => V2 t - - amp0 t) t0)) by (apply (is_derive_minus V1 amp1); [apply V1_d; lra|apply amp1_d]).
  assert (Z0 : d t0 = 0) by (unfold d, amp0; replace (t0 - t0) with 0 by ring; rewrite cos_0, sin_0; ring). assert (Z10 : d1 t0 = 0) by (unfold d1, amp1; replace (t0 - t0) with 0 by ring; rewrite cos_0, sin_0; ring).
  destruct (cont_at d d1 t0 (eta / 2) D ltac:(lra)) as (a & Ha & Ca). destruct (cont_at d1 _ t0 (eta / 2) D1 ltac:(lra)) as (b & Hb & Cb).
  set (e := Rmin (Rmin a b) eta). assert (e0 : 0 < e) by (repeat apply Rmin_pos; assumption). assert (e <= a /\ e <= b /\ e <= eta). { unfold e. pose proof (Rmin_l (Rmin a b) eta). pose proof (Rmin_r (Rmin a b) eta). pose proof (Rmin_l a b). pose proof (Rmin_r a b). lra. }
  exists (t0 + e / 2). split; [lra|]. assert (Y : Rabs (t0 + e / 2 - t0) < e) by (rewrite Rabs_pos_eq; lra). specialize (Ca (t0 + e / 2) ltac:(lra)). specialize (Cb (t0 + e / 2) ltac:(lra)). rewrite Z0, Rminus_0_r in Ca. rewrite Z10, Rminus_0_r in Cb.
  fold (d (t0 + e / 2)). fold (d1 (t0 + e / 2)). set (u := d (t0 + e / 2)) in *. set (w := d1 (t0 + e / 2)) in *. rewrite !Rmult_1_l. replace (w * w) with (Rabs w * Rabs w) by (rewrite <- Rabs_mult; apply Rabs_pos_eq; nra). replace (u * u) with (Rabs u * Rabs u) by (rewrite <- Rabs_mult; apply Rabs_pos_eq; nra).
  eapply Rle_trans; [apply sqrt_sum_le; apply Rabs_pos|lra].
Qed.
Lemma amp_ode : forall t, t0 < t < t1 -> (V1 t - amp1 t) * (V2 t - - amp0 t + 1 * 1 * (V t - amp0 t)) <= Rabs (V1 t - amp1 t) * (kap * rr t + kap * rr t * (1 * Rabs (V t - amp0 t))).
Proof.
  intros t Ht. pose proof (V_ode t ltac:(lra)) as O. replace (V2 t - - amp0 t + 1 * 1 * (V t - amp0 t)) with (- (rr t * qr (rr t)) * (amp0 t + (V t - amp0 t))) by lra.
  pose proof (rr_ok t ltac:(lra)) as R0. pose proof (qr_small (rr t) ltac:(lra)) as Q. fold kap in Q. pose proof (amp0_le t) as A.
  eapply Rle_trans; [apply Rle_abs|]. rewrite Rabs_mult. apply Rmult_le_compat_l; [apply Rabs_pos|]. rewrite Rabs_mult, Rabs_Ropp, Rabs_mult, (Rabs_pos_eq (rr t)) by lra.
  apply Rle_trans with (rr t * kap * (1 + Rabs (V t - amp0 t))); [|right; ring]. apply Rmult_le_compat; [apply Rmult_le_pos; [lra|apply Rabs_pos]|apply Rabs_pos|apply Rmult_le_compat_l; lra|]. eapply Rle_trans; [apply Rabs_triang|]. lra.
Qed.
Lemma exp_small2 : forall x, 0 <= x <= / 2 -> exp x <= 2.
Proof.
  intros x Hx. assert (E : exp (- x) >= 1 - x) by (pose proof (exp_ineq1_le (- x)); lra). rewrite exp_Ropp in E. pose proof (exp_pos x) as P. assert (exp x * / exp x = 1) by (field; lra). assert (exp x * (1 - x) <= 1). { apply Rle_trans with (exp x * / exp x); [apply Rmult_le_compat_l; lra|lra]. } nra.
Qed.
Lemma amp_close : forall t, t0 < t < t1 -> Rabs (V1 t - amp1 t) <= 1 / 10 ^ 21 /\ Rabs (V t - amp0 t) <= 1 / 10 ^ 21.
Proof.
  intros t Ht.
  assert (KB : 0 <= Kf t <= kap * / 62). { split; [apply Kf_d; lra|]. unfold Kf, kap. assert (0 < / t) by (apply Rinv_0_lt_compat; lra). assert (/ t0 <= / 62) by (apply Rinv_le_contravar; lra). apply Rmult_le_compat_l; lra. }
  assert (EB : exp (Kf t) * (0 + Kf t) <= 1 / 10 ^ 21). { pose proof (exp_small2 (Kf t)) as E. unfold kap in KB. specialize (E ltac:(lra)). pose proof (exp_pos (Kf t)). apply Rle_trans with (2 * Kf t); [rewrite Rplus_0_l; apply Rmult_le_compat_r; lra|lra]. }
  assert (HD : forall x, t0 < x < t1 -> is_derive (fun t => V t - amp0 t) x (V1 x - amp1 x) /\ is_derive (fun t => V1 t - amp1 t) x (V2 x - - amp0 x)).
  { intros x Hx. split; [apply (is_derive_minus V amp0); [apply V_d; lra|apply amp0_d]|apply (is_derive_minus V1 amp1); [apply V1_d; lra|apply amp1_d]]. }
  assert (HK : forall x, t0 < x < t1 -> is_derive Kf x (kap * rr x) /\ 0 <= kap * rr x /\ 0 <= Kf x) by (intros x Hx; apply Kf_d; lra).
  split.
  - eapply Rle_trans; [|exact EB]. apply (energy_d1 (fun t => V t - amp0 t) (fun t => V1 t - amp1 t) (fun t => V2 t - - amp0 t) (fun t => kap * rr t) Kf (fun t => kap * rr t) Kf 1 t0 t1 0 ltac:(lra) HD HK HK amp_ode amp_start); exact Ht.
  - eapply Rle_trans; [|exact EB]. rewrite <- (Rmult_1_l (Rabs _)). apply (energy_d (fun t => V t - amp0 t) (fun t => V1 t - amp1 t) (fun t => V2 t - - amp0 t) (fun t => kap * rr t) Kf (fun t => kap * rr t) Kf 1 t0 t1 0 ltac:(lra) HD HK HK amp_ode amp_start); exact Ht.
Qed.
End A.
