(** Comparison of solutions of linear differential equations of the second order by an energy argument,
    and change of the independent variable. *)
From Coq Require Import Reals Lra Lia Psatz.
From Coquelicot Require Import Coquelicot.
Local Open Scope R_scope.

Lemma sqrt_sum_le : forall a b, 0 <= a -> 0 <= b -> sqrt (a * a + b * b) <= a + b.
Proof. intros a b Ha Hb. apply Rsqr_incr_0_var; [|lra]. rewrite Rsqr_sqrt by nra. unfold Rsqr. nra. Qed.

Section E.
Variables (d d1 d2 G Ga k K : R -> R) (N a0 a e0 : R).
Hypothesis HN : 0 <= N. Hypothesis He : 0 <= e0.
Hypothesis Hd : forall x, a0 < x < a -> is_derive d x (d1 x) /\ is_derive d1 x (d2 x).
Hypothesis HG : forall x, a0 < x < a -> is_derive Ga x (G x) /\ 0 <= G x /\ 0 <= Ga x.
Hypothesis HK : forall x, a0 < x < a -> is_derive K x (k x) /\ 0 <= k x /\ 0 <= K x.
Hypothesis Hode : forall x, a0 < x < a -> d1 x * (d2 x + N * N * d x) <= Rabs (d1 x) * (G x + k x * (N * Rabs (d x))).
Hypothesis start : forall eta, 0 < eta -> exists x0, a0 < x0 < a0 + eta /\ sqrt (d1 x0 * d1 x0 + N * d x0 * (N * d x0)) <= e0 + eta.

Lemma energy_eta : forall x eta, a0 < x < a -> 0 < eta -> sqrt (d1 x * d1 x + N * d x * (N * d x)) <= exp (K x) * (e0 + Ga x + 2 * eta).
Proof.
  intros x eta Hx Heta. destruct (start (Rmin eta (x - a0)) ltac:(apply Rmin_pos; lra)) as (x0 & Hx0 & S0). pose proof (Rmin_l eta (x - a0)). pose proof (Rmin_r eta (x - a0)).
  set (e := fun s => d1 s * d1 s + N * d s * (N * d s)). set (f := fun s => sqrt (e s + eta * eta)). set (g := fun s => f s * exp (- K s) - Ga s).
  assert (Ep : forall s, 0 < e s + eta * eta) by (intros s; unfold e; nra).
  assert (fp : forall s, 0 < f s) by (intros s; apply sqrt_lt_R0; apply Ep).
  assert (f2 : forall s, f s * f s = e s + eta * eta) by (intros s; apply sqrt_sqrt; left; apply Ep).
  set (df := fun s => (d1 s * (d2 s + N * N * d s)) / f s). set (dg := fun s => df s * exp (- K s) + f s * (- k s * exp (- K s)) - G s).
  assert (De : forall s, a0 < s < a -> is_derive f s (df s)).
  { intros s Hs. destruct (Hd s Hs) as [A1 A2]. unfold f, df.
    assert (D0 : is_derive (fun s => e s + eta * eta) s (2 * (d1 s * (d2 s + N * N * d s)))).
    { unfold e. evar_last. { apply (is_derive_plus (fun s => d1 s * d1 s + N * d s * (N * d s)) (fun _ => eta * eta)); [|apply is_derive_const].
        apply (is_derive_plus (fun s => d1 s * d1 s) (fun s => N * d s * (N * d s))); [apply (is_derive_mult d1 d1); [exact A2|exact A2|intros; apply Rmult_comm]|].
        apply (is_derive_mult (fun s => N * d s) (fun s => N * d s)); [apply is_derive_scal; exact A1|apply is_derive_scal; exact A1|intros; apply Rmult_comm]. }
      unfold plus, mult, zero; simpl. unfold mult; simpl. ring. }
    evar_last. { apply (is_derive_comp sqrt (fun s => e s + eta * eta)); [apply is_derive_Reals; apply derivable_pt_lim_sqrt; apply Ep|exact D0]. }
    unfold scal; simpl. unfold mult; simpl. fold (f s). pose proof (fp s). field. change (sqrt (e s + eta * eta)) with (f s). lra. }
  assert (Dg : forall s, a0 < s < a -> is_derive g s (dg s)).
  { intros s Hs. destruct (HG s Hs) as [B1 _]. destruct (HK s Hs) as [B2 _]. unfold g, dg. apply (is_derive_minus (fun s => f s * exp (- K s)) Ga); [|exact B1].
    evar_last. { apply (is_derive_mult f (fun s => exp (- K s))); [apply De; exact Hs| |intros; apply Rmult_comm]. apply (is_derive_comp exp (fun s => - K s)); [apply is_derive_Reals; apply derivable_pt_lim_exp|apply (is_derive_opp K); exact B2]. }
    unfold plus, mult, scal, opp; simpl. unfold mult; simpl. ring. }
  assert (Ng : forall s, a0 < s < a -> dg s <= 0).
  { intros s Hs. destruct (HG s Hs) as (_ & G0 & _). destruct (HK s Hs) as (_ & k0 & K0). pose proof (Hode s Hs) as O. pose proof (fp s) as F0. pose proof (f2 s) as FF. unfold dg, df.
    assert (D1 : Rabs (d1 s) <= f s). { apply Rsqr_incr_0_var; [|lra]. rewrite <- Rsqr_abs. unfold Rsqr. rewrite FF. unfold e. nra. }
    assert (D2 : N * Rabs (d s) <= f s). { rewrite <- (Rabs_pos_eq N) by lra. rewrite <- Rabs_mult. apply Rsqr_incr_0_var; [|lra]. rewrite <- Rsqr_abs. unfold Rsqr. rewrite FF. unfold e. nra. }
    assert (U : d1 s * (d2 s + N * N * d s) / f s <= G s + k s * f s).
    { apply Rmult_le_reg_r with (f s); [lra|]. unfold Rdiv. rewrite Rmult_assoc, Rinv_l, Rmult_1_r by lra. eapply Rle_trans; [exact O|]. pose proof (Rabs_pos (d1 s)). pose proof (Rabs_pos (d s)).
      rewrite Rmult_comm. apply Rmult_le_compat; [|lra| |exact D1]; [apply Rplus_le_le_0_compat; [lra|apply Rmult_le_pos; [lra|apply Rmult_le_pos; lra]]|]. apply Rplus_le_compat_l. apply Rmult_le_compat_l; lra. }
    set (E := exp (- K s)). assert (E0 : 0 < E) by apply exp_pos. assert (E1 : E <= 1). { unfold E. rewrite <- exp_0. destruct (Req_dec (K s) 0) as [->|Kn]; [rewrite Ropp_0; lra|left; apply exp_increasing; lra]. }
    apply Rmult_le_compat_r with (r := E) in U; [|lra]. nra. }
  destruct (MVT_gen g x0 x dg) as (c & Hc & Ec).
  - intros s. rewrite Rmin_left, Rmax_right by lra. intros Hs. apply Dg. lra.
  - intros s. rewrite Rmin_left, Rmax_right by lra. intros Hs. apply derivable_continuous_pt. exists (dg s). apply is_derive_Reals. apply Dg. lra.
  - rewrite Rmin_left, Rmax_right in Hc by lra. pose proof (Ng c ltac:(lra)) as Nc. assert (Le : g x <= g x0) by nra. unfold g in Le.
    destruct (HG x0 ltac:(lra)) as (_ & _ & P0). destruct (HK x0 ltac:(lra)) as (_ & _ & Q0).
    assert (F0 : f x0 <= e0 + 2 * eta).
    { unfold f. set (z := sqrt (e x0)). assert (Z : e x0 = z * z) by (unfold z; rewrite sqrt_sqrt; [reflexivity|unfold e; nra]). rewrite Z. eapply Rle_trans; [apply sqrt_sum_le; [apply sqrt_pos|lra]|]. unfold z, e. lra. }
    assert (E1 : exp (- K x0) <= 1). { rewrite <- exp_0. destruct (Req_dec (K x0) 0) as [->|Kn]; [rewrite Ropp_0; lra|left; apply exp_increasing; lra]. }
    pose proof (exp_pos (- K x0)) as E2. pose proof (fp x0) as F1. assert (Z : f x * exp (- K x) <= e0 + Ga x + 2 * eta) by nra.
    apply Rle_trans with (f x). { unfold f. apply sqrt_le_1; [unfold e; nra|left; apply Ep|unfold e; nra]. }
    replace (f x) with (exp (K x) * (f x * exp (- K x))). 2: { rewrite (Rmult_comm (f x)), <- Rmult_assoc, <- exp_plus, Rplus_opp_r, exp_0. ring. }
    apply Rmult_le_compat_l; [left; apply exp_pos|exact Z].
Qed.
Theorem energy : forall x, a0 < x < a -> sqrt (d1 x * d1 x + N * d x * (N * d x)) <= exp (K x) * (e0 + Ga x).
Proof.
  intros x Hx. apply Rnot_lt_le. intros C. set (v := sqrt _) in *. set (E := exp (K x)) in *. assert (E0 : 0 < E) by apply exp_pos.
  pose proof (energy_eta x ((v - E * (e0 + Ga x)) / (4 * E)) Hx) as H. fold v E in H. assert (P : 0 < (v - E * (e0 + Ga x)) / (4 * E)) by (apply Rdiv_lt_0_compat; lra). specialize (H P).
  replace (E * (e0 + Ga x + 2 * ((v - E * (e0 + Ga x)) / (4 * E)))) with (E * (e0 + Ga x) + (v - E * (e0 + Ga x)) / 2) in H by (field; lra). lra.
Qed.
Lemma energy_d1 : forall x, a0 < x < a -> Rabs (d1 x) <= exp (K x) * (e0 + Ga x).
Proof. intros x Hx. eapply Rle_trans; [|apply energy; exact Hx]. rewrite <- sqrt_Rsqr_abs. apply sqrt_le_1; unfold Rsqr; nra. Qed.
Lemma energy_d : forall x, a0 < x < a -> N * Rabs (d x) <= exp (K x) * (e0 + Ga x).
Proof. intros x Hx. eapply Rle_trans; [|apply energy; exact Hx]. rewrite <- (Rabs_pos_eq N) at 1 by lra. rewrite <- Rabs_mult, <- sqrt_Rsqr_abs. apply sqrt_le_1; unfold Rsqr; nra. Qed.
End E.

(** Change of variable: p = m F(T). *)
Section L.
Variables (F F1 F2 T T1 T2 m L L1 : R -> R) (x a b A : R).
Hypothesis HF : is_derive F (T x) (F1 (T x)). Hypothesis HF1 : is_derive F1 (T x) (F2 (T x)).
Hypothesis HT : is_derive T x (T1 x). Hypothesis HT1 : is_derive T1 x (T2 x).
Hypothesis Hm : is_derive m x (L x * m x). Hypothesis HL : is_derive L x (L1 x).
Hypothesis ode : F2 (T x) + a * F1 (T x) + b * F (T x) = 0.
Hypothesis HLe : 2 * L x * T1 x = a * (T1 x * T1 x) - A * T1 x - T2 x.
Definition lp (y : R) : R := m y * F (T y).
Definition lp1 (y : R) : R := m y * (F1 (T y) * T1 y + L y * F (T y)).
Definition lp2 (y : R) : R := m y * (F2 (T y) * (T1 y * T1 y) + F1 (T y) * T2 y + 2 * L y * F1 (T y) * T1 y + (L1 y + L y * L y) * F (T y)).
Lemma lp_d : is_derive lp x (lp1 x).
Proof.
  unfold lp, lp1. evar_last. { apply (is_derive_mult m (fun y => F (T y))); [exact Hm|apply (is_derive_comp F T); [exact HF|exact HT]|intros; apply Rmult_comm]. }
  unfold plus, mult, scal; simpl. unfold mult; simpl. ring.
Qed.
Lemma lp_d1 : is_derive lp1 x (lp2 x).
Proof.
  unfold lp1, lp2. evar_last.
  { apply (is_derive_mult m (fun y => F1 (T y) * T1 y + L y * F (T y))); [exact Hm| |intros; apply Rmult_comm].
    apply (is_derive_plus (fun y => F1 (T y) * T1 y) (fun y => L y * F (T y))).
    - apply (is_derive_mult (fun y => F1 (T y)) T1); [apply (is_derive_comp F1 T); [exact HF1|exact HT]|exact HT1|intros; apply Rmult_comm].
    - apply (is_derive_mult L (fun y => F (T y))); [exact HL|apply (is_derive_comp F T); [exact HF|exact HT]|intros; apply Rmult_comm]. }
  unfold plus, mult, scal; simpl. unfold mult; simpl. ring.
Qed.
Lemma lp_ode : lp2 x + A * lp1 x + (b * (T1 x * T1 x) - L1 x - L x * L x - A * L x) * lp x = 0.
Proof.
  unfold lp, lp1, lp2. replace (F2 (T x)) with (- a * F1 (T x) - b * F (T x)) by lra.
  transitivity (m x * F1 (T x) * (2 * L x * T1 x - (a * (T1 x * T1 x) - A * T1 x - T2 x))); [ring|]. rewrite HLe. ring.
Qed.
End L.
