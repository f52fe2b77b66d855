(** Comparison of P_n(cos T(a)) with J_0((n + 1/2) a). *)
From Coq Require Import Reals Ratan ZArith List Lra Lia Psatz.
From Coquelicot Require Import Coquelicot.
From Verif Require Import TM SinSer BogPoly BogT Ode LegOde Bessel BesselJ.
Import ListNotations.
Local Open Scope R_scope.

Lemma q_alg : forall h a f f1 A1 A2 s c, h <> 0 -> a <> 0 -> s <> 0 -> 1 + h * f <> 0 -> 1 + h * (f + 2 * (a * a) * f1) <> 0 -> c * c = 1 - s * s ->
  let x := a * a in let A := f + 2 * x * f1 in let v := 1 + h * A in let T := a * (1 + h * f) in let T2 := 2 * a * h * A1 in let T3 := h * (2 * A1 + 4 * x * A2) in
  let L := / 2 * (v * (c / s) - / a - T2 / v) in let L1 := / 2 * (T2 * (c / s) - v * v / (s * s) + / (a * a) - (T3 * v - T2 * T2) / (v * v)) in
  (/ h - / 4) * (v * v) - L1 - L * L - / a * L =
  / h + (A * (2 + h * A) + h * (f1 * / (1 + h * f)) + x * (h * (f1 * / (1 + h * f)) * (h * (f1 * / (1 + h * f)))) + (1 + h * A) * (1 + h * A) * (/ (s * s) - / (T * T)) * (1 / 4) +
    h * (A1 + x * (A2 * (2 / 1))) * / (1 + h * A) - x * (h * (A1 * / (1 + h * A)) * (h * (A1 * / (1 + h * A)))) * (3 / 1)).
Proof.
  intros h a f f1 A1 A2 s c Hh Ha Hs Hu Hv Hc x A v T T2 T3 L L1.
  assert (S1 : - L1 - L * L - / a * L = / 4 * (v * v) * (2 / (s * s) - c * c / (s * s)) - / (4 * (a * a)) + / 2 * (T3 / v) - 3 / 4 * (T2 * T2 / (v * v))).
  { unfold L1, L. field. repeat split; assumption. }
  replace ((/ h - / 4) * (v * v) - L1 - L * L - / a * L) with ((/ h - / 4) * (v * v) + (- L1 - L * L - / a * L)) by ring. rewrite S1, Hc.
  assert (S2 : / 4 * (v * v) * (2 / (s * s) - (1 - s * s) / (s * s)) = / 4 * (v * v) + / 4 * (v * v) * / (s * s)) by (field; exact Hs). rewrite S2.
  assert (S3 : / h * (v * v) = / h + A * (2 + h * A)) by (unfold v; field; exact Hh).
  assert (S4 : / 4 * (v * v) * / (T * T) - / (4 * (a * a)) = h * (f1 * / (1 + h * f)) + x * (h * (f1 * / (1 + h * f)) * (h * (f1 * / (1 + h * f))))).
  { unfold v, A, T, x. field. split; assumption. }
  assert (S5 : / 2 * (T3 / v) = h * (A1 + x * (A2 * (2 / 1))) * / (1 + h * A)) by (unfold T3, v; field; exact Hv).
  assert (S6 : 3 / 4 * (T2 * T2 / (v * v)) = x * (h * (A1 * / (1 + h * A)) * (h * (A1 * / (1 + h * A)))) * (3 / 1)) by (unfold T2, v, x; field; exact Hv).
  rewrite S5, S6. fold v. clear S1 S2 S5 S6 L L1. clearbody T v T2 T3. set (p := h * (f1 * / (1 + h * f))) in *. set (z := h * (A1 + x * (A2 * (2 / 1))) * / v). set (z' := x * (h * (A1 * / v) * (h * (A1 * / v))) * (3 / 1)). clearbody z z'.
  set (k1 := / (s * s)) in *. set (k2 := / (T * T)) in *. set (k3 := / (4 * (a * a))) in *. set (q := / h) in *. clearbody k1 k2 k3 q p. lra.
Qed.

Lemma sq_d : forall a, is_derive (fun a : R => a * a) a (2 * a). Proof. intros a. auto_derive; [trivial|ring]. Qed.
Section C.
Variable n : nat. Hypothesis Hn : (101 <= n)%nat.
Definition Nn : R := INR n + / 2.
Definition hh : R := / (Nn * Nn).
Lemma N_big : 1015 / 10 <= Nn. Proof. unfold Nn. pose proof (le_INR _ _ Hn) as H. replace (INR 101) with 101 in H by (rewrite INR_IZR_INZ; reflexivity). lra. Qed.
Lemma h_ok : 0 < hh <= / 10100.
Proof. pose proof N_big as H. unfold hh. split; [apply Rinv_0_lt_compat; nra|apply Rinv_le_contravar; nra]. Qed.
Notation h := hh. Notation N := Nn.
Definition T (a : R) : R := a * (1 + h * phi h (a * a)).
Definition T1 (a : R) : R := 1 + h * Af h (a * a).
Definition T2 (a : R) : R := 2 * a * h * Af1 h (a * a).
Definition T3 (a : R) : R := h * (2 * Af1 h (a * a) + 4 * (a * a) * Af2 h (a * a)).
Lemma csq_d : forall f f' a, is_derive f (a * a) f' -> is_derive (fun a : R => f (a * a)) a (2 * a * f').
Proof. intros f f' a Hf. evar_last; [apply (is_derive_comp f (fun a => a * a)); [exact Hf|apply sq_d]|]. unfold scal; simpl. unfold mult; simpl. ring. Qed.
Lemma one_h_d : forall f f' a, is_derive f a f' -> is_derive (fun a : R => 1 + h * f a) a (h * f').
Proof. intros f f' a Hf. evar_last; [apply (is_derive_plus (fun _ => 1) (fun a => h * f a)); [apply is_derive_const|apply is_derive_scal; exact Hf]|]. unfold plus, zero; simpl. ring. Qed.
Lemma T_d : forall a, is_derive T a (T1 a).
Proof.
  intros a. unfold T, T1. evar_last. { apply (is_derive_mult (fun a => a) (fun a => 1 + h * phi h (a * a))); [apply is_derive_id|apply (one_h_d (fun a => phi h (a * a))); apply csq_d; apply phi_d|intros; apply Rmult_comm]. }
  unfold plus, mult, one; simpl. unfold mult, one; simpl. rewrite Af_eq. ring.
Qed.
Lemma T1_d : forall a, is_derive T1 a (T2 a).
Proof. intros a. unfold T1, T2. evar_last; [apply (one_h_d (fun a => Af h (a * a))); apply csq_d; apply Af_d|]. ring. Qed.
Lemma T2_d : forall a, is_derive T2 a (T3 a).
Proof.
  intros a. unfold T2, T3. evar_last. { apply (is_derive_mult (fun a => 2 * a * h) (fun a => Af1 h (a * a))); [|apply csq_d; apply Af1_d|intros; apply Rmult_comm]. instantiate (1 := 2 * h). auto_derive; [trivial|ring]. }
  unfold plus, mult; simpl. ring.
Qed.
Definition dom (a : R) : Prop := 0 < a /\ a * a <= 617 / 250.
Section D.
Variable a : R. Hypothesis Ha : dom a.
Lemma xd : 0 <= a * a <= 617 / 250. Proof. destruct Ha. nra. Qed.
Lemma hd : 0 <= h <= / 10100. Proof. pose proof h_ok. lra. Qed.
Lemma a_le : a <= 15710 / 10000. Proof. destruct Ha. nra. Qed.
Lemma u_ok : Rabs (h * phi h (a * a)) <= / 101000.
Proof. pose proof (phi_small h (a * a) xd hd) as P. pose proof h_ok. rewrite Rabs_mult, (Rabs_pos_eq h) by lra. pose proof (Rabs_pos (phi h (a * a))). apply Rle_trans with (/ 10100 * (1 / 10)); [apply Rmult_le_compat; lra|lra]. Qed.
Lemma v_ok : Rabs (h * Af h (a * a)) <= / 60000.
Proof. pose proof (A_small h (a * a) xd hd) as P. pose proof h_ok. rewrite Rabs_mult, (Rabs_pos_eq h) by lra. pose proof (Rabs_pos (Af h (a * a))). apply Rle_trans with (/ 10100 * (3 / 20)); [apply Rmult_le_compat; lra|lra]. Qed.
Lemma u_pos : 1 - / 101000 <= 1 + h * phi h (a * a) <= 1 + / 101000. Proof. pose proof (abs_both _ _ u_ok). lra. Qed.
Lemma v_pos : 1 - / 60000 <= T1 a <= 1 + / 60000. Proof. pose proof (abs_both _ _ v_ok). unfold T1. lra. Qed.
Lemma T_pos : 0 < T a <= 158 / 100.
Proof. pose proof u_pos as U. destruct Ha as [H _]. pose proof a_le. unfold T. split; [apply Rmult_lt_0_compat; lra|]. apply Rle_trans with (15710 / 10000 * (1 + / 101000)); [apply Rmult_le_compat; lra|lra]. Qed.
Lemma T_pi : 0 < T a < PI. Proof. pose proof T_pos. pose proof PI2_3_2. lra. Qed.
End D.
Lemma sinT : forall a, dom a -> 0 < sin (T a). Proof. intros a Ha. pose proof (T_pi a Ha). apply sin_gt_0; lra. Qed.
Definition L (a : R) : R := / 2 * (T1 a * (cos (T a) / sin (T a)) - / a - T2 a / T1 a).
Definition L1 (a : R) : R := / 2 * (T2 a * (cos (T a) / sin (T a)) - T1 a * T1 a / (sin (T a) * sin (T a)) + / (a * a) - (T3 a * T1 a - T2 a * T2 a) / (T1 a * T1 a)).
Definition Mm (a : R) : R := sin (T a) / (a * T1 a).
Definition m (a : R) : R := sqrt (Mm a).
Lemma sinT_d : forall a, is_derive (fun a => sin (T a)) a (T1 a * cos (T a)).
Proof. intros a. evar_last; [apply (is_derive_comp sin T); [apply dsin|apply T_d]|]. reflexivity. Qed.
Lemma cosT_d : forall a, is_derive (fun a => cos (T a)) a (- (T1 a * sin (T a))).
Proof. intros a. evar_last; [apply (is_derive_comp cos T); [apply dcos|apply T_d]|]. unfold scal; simpl. unfold mult; simpl. ring. Qed.
Lemma div_d : forall (f g : R -> R) f' g' a, g a <> 0 -> is_derive f a f' -> is_derive g a g' -> is_derive (fun a => f a / g a) a ((f' * g a - f a * g') / (g a * g a)).
Proof. intros f g f' g' a Hg Df Dg. evar_last; [apply (is_derive_div f g); eassumption|]. simpl. rewrite Rmult_1_r. reflexivity. Qed.
Lemma L_d : forall a, dom a -> is_derive L a (L1 a).
Proof.
  intros a Ha. pose proof (sinT a Ha) as S0. pose proof (v_pos a Ha) as V. destruct Ha as [Ap _]. unfold L, L1. apply is_derive_scal.
  evar_last.
  { apply (is_derive_minus (fun a => T1 a * (cos (T a) / sin (T a)) - / a) (fun a => T2 a / T1 a)).
    - apply (is_derive_minus (fun a => T1 a * (cos (T a) / sin (T a))) (fun a => / a)).
      + apply (is_derive_mult T1 (fun a => cos (T a) / sin (T a))); [apply T1_d| |intros; apply Rmult_comm]. apply (div_d (fun a => cos (T a)) (fun a => sin (T a))); [lra|apply cosT_d|apply sinT_d].
      + apply (is_derive_inv (fun a => a)); [apply is_derive_id|lra].
    - apply (div_d T2 T1); [lra|apply T2_d|apply T1_d]. }
  unfold minus, plus, opp, mult, one; simpl. unfold mult, one; simpl. pose proof (sin2_cos2 (T a)) as E. unfold Rsqr in E. set (s := sin (T a)) in *. set (c := cos (T a)) in *.
  replace (- (T1 a * s) * s - c * (T1 a * c)) with (- T1 a * (s * s + c * c)) by ring. rewrite E. field. repeat split; lra.
Qed.
Lemma M_pos : forall a, dom a -> 0 < Mm a.
Proof. intros a Ha. pose proof (sinT a Ha). pose proof (v_pos a Ha). destruct Ha. unfold Mm. apply Rdiv_lt_0_compat; [lra|apply Rmult_lt_0_compat; lra]. Qed.
Lemma M_d : forall a, dom a -> is_derive Mm a (2 * L a * Mm a).
Proof.
  intros a Ha. pose proof (sinT a Ha) as S0. pose proof (v_pos a Ha) as V. destruct Ha as [Ap _]. unfold Mm. evar_last.
  { apply (div_d (fun a => sin (T a)) (fun a => a * T1 a)); [apply Rmult_integral_contrapositive_currified; lra|apply sinT_d|]. apply (is_derive_mult (fun a => a) T1); [apply is_derive_id|apply T1_d|intros; apply Rmult_comm]. }
  unfold L, plus, mult, one; simpl. unfold mult, one; simpl. field. repeat split; lra.
Qed.
Lemma m_d : forall a, dom a -> is_derive m a (L a * m a).
Proof.
  intros a Ha. pose proof (M_pos a Ha) as P. unfold m. evar_last. { apply (is_derive_comp sqrt Mm); [apply is_derive_Reals; apply derivable_pt_lim_sqrt; exact P|apply M_d; exact Ha]. }
  unfold scal; simpl. unfold mult; simpl. pose proof (sqrt_lt_R0 _ P) as Q. pose proof (sqrt_sqrt (Mm a) ltac:(lra)) as E. set (r := sqrt (Mm a)) in *. replace (2 * L a * Mm a) with (2 * L a * (r * r)) by (rewrite E; reflexivity). field. lra.
Qed.
Definition p : R -> R := lp (F n) T m.
Definition p1 : R -> R := lp1 (F n) (F1 n) T T1 m L.
Definition p2 : R -> R := lp2 (F n) (F1 n) (F2 n) T T1 T2 m L L1.
Definition Qq (a : R) : R := INR n * (INR n + 1) * (T1 a * T1 a) - L1 a - L a * L a - / a * L a - N * N.
Lemma p_d : forall a, dom a -> is_derive p a (p1 a) /\ is_derive p1 a (p2 a).
Proof.
  intros a Ha. split.
  - apply (lp_d (F n) (F1 n) T T1 m L a); [apply F_d|apply T_d|apply m_d; exact Ha].
  - apply (lp_d1 (F n) (F1 n) (F2 n) T T1 T2 m L L1 a); [apply F_d|apply F1_d|apply T_d|apply T1_d|apply m_d; exact Ha|apply L_d; exact Ha].
Qed.
Lemma p_ode : forall a, dom a -> p2 a + / a * p1 a + (N * N + Qq a) * p a = 0.
Proof.
  intros a Ha. pose proof (sinT a Ha) as S0. pose proof (v_pos a Ha) as V. pose proof (T_pi a Ha) as TP. pose proof Ha as [Ap _].
  pose proof (lp_ode (F n) (F1 n) (F2 n) T T1 T2 m L L1 a (cos (T a) / sin (T a)) (INR n * (INR n + 1)) (/ a)) as O. 
  specialize (O (F_ode n (T a) TP)). unfold p, p1, p2, Qq. etransitivity; [|apply O]. { ring. }
  unfold L. field. repeat split; lra.
Qed.
Lemma Q_ok : forall a, dom a -> Rabs (Qq a) <= 17 / 10 ^ 13.
Proof.
  intros a Ha. pose proof (sinT a Ha) as S0. pose proof (T_pi a Ha) as TP. pose proof (T_pos a Ha) as TQ. pose proof (v_pos a Ha) as V. pose proof (u_pos a Ha) as U. pose proof (xd a Ha) as X. pose proof hd as Hh. pose proof h_ok as H0. pose proof Ha as [Ap _].
  set (tt := T a) in *. assert (Ett : a * a * ((1 + h * phi h (a * a)) * (1 + h * phi h (a * a))) = tt * tt) by (unfold tt, T; ring).
  assert (SP : sinc_pair (a * a * ((1 + h * phi h (a * a)) * (1 + h * phi h (a * a)))) (sin tt / tt) ((1 - sin tt / tt) / (tt * tt))).
  { rewrite Ett. assert (B : 0 <= tt * tt <= 25 / 10) by nra. split.
    - eapply Rle_trans; [apply sinc_close; lra|]. apply Rle_trans with ((25 / 10) ^ 14 / IZR (zfact 29)); [apply Rmult_le_compat_r; [left; apply Rinv_0_lt_compat; apply zfact_pos|apply pow_incr; exact B]|]. replace (zfact 29) with 8841761993739701954543616000000%Z by (vm_compute; reflexivity). lra.
    - eapply Rle_trans; [apply sinc1_close; lra|]. apply Rle_trans with ((25 / 10) ^ 13 / IZR (zfact 29)); [apply Rmult_le_compat_r; [left; apply Rinv_0_lt_compat; apply zfact_pos|apply pow_incr; exact B]|]. replace (zfact 29) with 8841761993739701954543616000000%Z by (vm_compute; reflexivity). lra. }
  pose proof (Q_small h (a * a) X Hh _ _ SP) as K. eapply Rle_trans; [right|exact K]. f_equal.
  assert (Er : (1 - sin tt / tt) / (tt * tt) * (1 + sin tt / tt) * (/ (sin tt / tt) * / (sin tt / tt)) = / (sin tt * sin tt) - / (tt * tt)) by (field; split; lra). rewrite Er.
  pose proof (sin2_cos2 tt) as SC. unfold Rsqr in SC.
  pose proof (q_alg h a (phi h (a * a)) (phi1 h (a * a)) (Af1 h (a * a)) (Af2 h (a * a)) (sin tt) (cos tt) ltac:(lra) ltac:(lra) ltac:(lra) ltac:(lra) ltac:(rewrite <- Af_eq; unfold T1 in V; lra) ltac:(lra)) as Z.
  cbv zeta in Z. rewrite <- Af_eq in Z. fold (T1 a) in Z. fold (T2 a) in Z. fold (T3 a) in Z. fold (T a) in Z. fold tt in Z. unfold Qq. fold tt. 
  assert (EN : N * N = / h) by (unfold hh; rewrite Rinv_inv; reflexivity). assert (En : INR n * (INR n + 1) = / h - / 4) by (rewrite <- EN; unfold Nn; field). rewrite En, EN.
  unfold L1, L. fold tt. unfold Qf. cbv zeta. fold (T1 a). rewrite Z. ring.
Qed.
End C.
