(** The function J(a) = J_0(N a): differential equation and bounds. *)
From Coq Require Import Reals ZArith Bool Lra Lia Psatz.
From Coquelicot Require Import Coquelicot.
From Verif Require Import TM Bessel.
Local Open Scope R_scope.

Section J.
Variable N : R. Hypothesis HN : 0 < N.
Definition jy (a : R) : R := N * a * (N * a) / 4.
Definition J (a : R) : R := B (jy a).
Definition Jd (a : R) : R := N * N * a / 2 * B1 (jy a).
Definition Jdd (a : R) : R := N * N / 2 * B1 (jy a) + N * N * a / 2 * (N * N * a / 2) * B2 (jy a).
Lemma jy_d : forall a, is_derive jy a (N * N * a / 2). Proof. intros a. unfold jy. auto_derive; [trivial|field]. Qed.
Lemma J_d : forall a, is_derive J a (Jd a).
Proof. intros a. unfold J, Jd. evar_last; [apply (is_derive_comp B jy); [apply B_d|apply jy_d]|]. unfold scal; simpl. unfold mult; simpl. ring. Qed.
Lemma J_d1 : forall a, is_derive Jd a (Jdd a).
Proof.
  intros a. unfold Jd, Jdd. evar_last. { apply (is_derive_mult (fun a => N * N * a / 2) (fun a => B1 (jy a))); [|apply (is_derive_comp B1 jy); [apply B1_d|apply jy_d]|intros; apply Rmult_comm]. instantiate (1 := N * N / 2). auto_derive; [trivial|field]. }
  unfold plus, scal, mult; simpl. unfold mult; simpl. ring.
Qed.
Lemma J_ode : forall a, a <> 0 -> Jdd a + / a * Jd a + N * N * J a = 0.
Proof. intros a Ha. pose proof (B_ode (jy a)) as O. unfold Jdd, Jd, J. transitivity (N * N * (jy a * B2 (jy a) + B1 (jy a) + B (jy a))); [unfold jy; field; exact Ha|rewrite O; ring]. Qed.
Lemma B_0 : B 0 = 1. Proof. unfold B. rewrite H_step. unfold Rdiv. rewrite !Rmult_0_l. ring. Qed.
Lemma J_0 : J 0 = 1. Proof. unfold J, jy. replace (N * 0 * (N * 0) / 4) with 0 by field. apply B_0. Qed.
Lemma Jd_0 : Jd 0 = 0. Proof. unfold Jd. unfold Rdiv. ring. Qed.
Lemma J_energy : forall a, 0 <= a -> Jd a * Jd a + N * J a * (N * J a) <= N * N.
Proof.
  intros a Ha. set (g := fun a => Jd a * Jd a + N * J a * (N * J a)). set (dg := fun a => 2 * Jd a * (Jdd a + N * N * J a)).
  assert (D : forall s, is_derive g s (dg s)).
  { intros s. unfold g, dg. evar_last. { apply (is_derive_plus (fun s => Jd s * Jd s) (fun s => N * J s * (N * J s))); [apply (is_derive_mult Jd Jd); [apply J_d1|apply J_d1|intros; apply Rmult_comm]|].
      apply (is_derive_mult (fun s => N * J s) (fun s => N * J s)); [apply is_derive_scal; apply J_d|apply is_derive_scal; apply J_d|intros; apply Rmult_comm]. }
    unfold plus, mult; simpl. unfold mult; simpl. ring. }
  destruct (MVT_gen g 0 a dg) as (c & Hc & E); [intros; apply D|intros; apply derivable_continuous_pt; exists (dg x); apply is_derive_Reals; apply D|].
  rewrite Rmin_left, Rmax_right in Hc by lra. assert (G0 : g 0 = N * N) by (unfold g; rewrite Jd_0, J_0; ring). rewrite G0 in E. change (g a <= N * N).
  assert (L : dg c <= 0).
  { unfold dg. destruct (Req_dec c 0) as [->|Cn]; [rewrite Jd_0; lra|]. pose proof (J_ode c Cn) as O. assert (Ci : 0 < / c) by (apply Rinv_0_lt_compat; lra). replace (Jdd c + N * N * J c) with (- (/ c * Jd c)) by lra.
    replace (2 * Jd c * - (/ c * Jd c)) with (- (2 * (/ c * (Jd c * Jd c)))) by ring. pose proof (Rmult_le_pos (/ c) (Jd c * Jd c) ltac:(lra) ltac:(nra)). lra. }
  nra.
Qed.
Lemma J_le1 : forall a, 0 <= a -> Rabs (J a) <= 1.
Proof. intros a Ha. pose proof (J_energy a Ha) as E. apply Rsqr_incr_0_var; [|lra]. rewrite <- Rsqr_abs. unfold Rsqr. assert (Q : N * N * (J a * J a) <= N * N * 1) by nra. apply Rmult_le_reg_l in Q; [lra|nra]. Qed.
Lemma Jd_leN : forall a, 0 <= a -> Rabs (Jd a) <= N.
Proof. intros a Ha. pose proof (J_energy a Ha) as E. apply Rsqr_incr_0_var; [|lra]. rewrite <- Rsqr_abs. unfold Rsqr. nra. Qed.

(** amplitude *)
Definition amp (a : R) : R := a * ((Jd a + J a * / (2 * a)) * (Jd a + J a * / (2 * a))) + (N * N * a + / (4 * a)) * (J a * J a).
Definition damp (a : R) : R := (Jd a + J a * / (2 * a)) * (Jd a + J a * / (2 * a)) + a * (2 * (Jd a + J a * / (2 * a)) * (Jdd a + Jd a * / (2 * a) - J a * / (2 * a * a))) +
  (N * N - / (4 * a * a)) * (J a * J a) + (N * N * a + / (4 * a)) * (2 * J a * Jd a).
Lemma amp_d : forall a, 0 < a -> is_derive amp a (damp a).
Proof.
  intros a Ha. unfold amp, damp.
  assert (I2 : is_derive (fun a => / (2 * a)) a (- / (2 * a * a))) by (auto_derive; [lra|field; lra]).
  assert (I4 : is_derive (fun a => N * N * a + / (4 * a)) a (N * N - / (4 * a * a))) by (auto_derive; [lra|field; lra]).
  assert (V : is_derive (fun a => Jd a + J a * / (2 * a)) a (Jdd a + Jd a * / (2 * a) - J a * / (2 * a * a))).
  { evar_last. { apply (is_derive_plus Jd (fun a => J a * / (2 * a))); [apply J_d1|]. apply (is_derive_mult J (fun a => / (2 * a))); [apply J_d|exact I2|intros; apply Rmult_comm]. } unfold plus, mult; simpl. ring. }
  evar_last.
  { apply (is_derive_plus (fun a => a * ((Jd a + J a * / (2 * a)) * (Jd a + J a * / (2 * a)))) (fun a => (N * N * a + / (4 * a)) * (J a * J a))).
    - apply (is_derive_mult (fun a => a) (fun a => (Jd a + J a * / (2 * a)) * (Jd a + J a * / (2 * a)))); [apply is_derive_id| |intros; apply Rmult_comm]. apply (is_derive_mult (fun a => Jd a + J a * / (2 * a)) (fun a => Jd a + J a * / (2 * a))); [exact V|exact V|intros; apply Rmult_comm].
    - apply (is_derive_mult (fun a => N * N * a + / (4 * a)) (fun a => J a * J a)); [exact I4| |intros; apply Rmult_comm]. apply (is_derive_mult J J); [apply J_d|apply J_d|intros; apply Rmult_comm]. }
  unfold plus, mult, one; simpl. unfold mult, one; simpl. ring.
Qed.
Lemma damp_neg : forall a, 0 < a -> damp a <= 0.
Proof.
  intros a Ha. pose proof (J_ode a ltac:(lra)) as O. unfold damp. replace (Jdd a) with (- / a * Jd a - N * N * J a) by lra.
  match goal with |- ?e <= 0 => replace e with (- (/ (2 * a * a) * (J a * J a))) by (field; lra) end.
  assert (0 <= / (2 * a * a)) by (left; apply Rinv_0_lt_compat; nra). pose proof (Rmult_le_pos (/ (2 * a * a)) (J a * J a) H ltac:(nra)). lra.
Qed.
Lemma amp_le : forall a b, 0 < a <= b -> amp b <= amp a.
Proof.
  intros a b [Ha Hb]. destruct (MVT_gen amp a b damp) as (c & Hc & E).
  - intros s. rewrite Rmin_left, Rmax_right by lra. intros Hs. apply amp_d. lra.
  - intros s. rewrite Rmin_left, Rmax_right by lra. intros Hs. apply derivable_continuous_pt. exists (damp s). apply is_derive_Reals. apply amp_d. lra.
  - rewrite Rmin_left, Rmax_right in Hc by lra. pose proof (damp_neg c ltac:(lra)). nra.
Qed.
End J.

Lemma B_at : IZR 83860 <= H 0 0 (1681 / 10000) * 100000 <= IZR 83900 /\ IZR 91800 <= H 1 0 (1681 / 10000) * 100000 <= IZR 91850.
Proof.
  split.
  - apply (near_ok 0 1681 10000 100000 10 83860 83900). vm_compute. reflexivity.
  - apply (near_ok 1 1681 10000 100000 10 91800 91850). vm_compute. reflexivity.
Qed.
Lemma J_amp : forall N a, 0 < N -> 0 < a -> N * a * (J N a * J N a) <= 82 / 100.
Proof.
  intros N a HN Ha. destruct (Rle_lt_dec (N * a) (82 / 100)) as [C|C].
  - pose proof (J_le1 N HN a ltac:(lra)) as L. apply abs_both in L. assert (J N a * J N a <= 1) by nra. pose proof (Rmult_lt_0_compat _ _ HN Ha). nra.
  - set (a0 := 82 / 100 / N). assert (A0 : 0 < a0) by (apply Rdiv_lt_0_compat; lra). assert (E0 : N * a0 = 82 / 100) by (unfold a0; field; lra).
    assert (A1 : a0 <= a). { apply Rmult_le_reg_l with N; [exact HN|]. lra. }
    pose proof (amp_le N a0 a ltac:(lra)) as M. unfold amp at 1 in M. set (v := Jd N a + _) in M.
    assert (Low : N * (N * a * (J N a * J N a)) <= amp N a0).
    { eapply Rle_trans; [|exact M]. assert (0 <= a * (v * v)) by (apply Rmult_le_pos; [lra|nra]). assert (0 <= / (4 * a) * (J N a * J N a)) by (apply Rmult_le_pos; [left; apply Rinv_0_lt_compat; lra|nra]). nra. }
    assert (Up : amp N a0 <= N * (82 / 100)).
    { destruct B_at as [P0 P1]. unfold amp, J, Jd, B, B1, jy. rewrite E0. replace (82 / 100 * (82 / 100) / 4) with (1681 / 10000) by field. set (h0 := H 0 0 _) in *. set (h1 := H 1 0 _) in *.
      replace (N * N * a0 / 2) with (N * (82 / 200)) by (transitivity (N * (N * a0) / 2); [rewrite E0; field|field]). replace (/ (2 * a0)) with (N * (100 / 164)) by (unfold a0; field; lra). replace (N * N * a0 + / (4 * a0)) with (N * (82 / 100 + 100 / 328)) by (unfold a0; field; lra).
      replace (a0 * ((N * (82 / 200) * - h1 + h0 * (N * (100 / 164))) * (N * (82 / 200) * - h1 + h0 * (N * (100 / 164))))) with (N * (82 / 100 * ((82 / 200 * - h1 + h0 * (100 / 164)) * (82 / 200 * - h1 + h0 * (100 / 164))))) by (unfold a0; field; lra).
      rewrite Rmult_assoc, <- Rmult_plus_distr_l. apply Rmult_le_compat_l; [lra|].
      set (u := 82 / 200 * - h1 + h0 * (100 / 164)). assert (U : Rabs u <= 14 / 100) by (unfold u; apply Rabs_le; lra). apply abs_both in U. assert (u * u <= 14 / 100 * (14 / 100)) by nra. assert (h0 * h0 <= 83900 / 100000 * (83900 / 100000)) by nra. lra. }
    apply Rmult_le_reg_l with N; [exact HN|]. lra.
Qed.
Lemma J_sqrt : forall N a, 0 < N -> 0 < a -> Rabs (J N a) <= 91 / 100 / sqrt (N * a).
Proof.
  intros N a HN Ha. pose proof (J_amp N a HN Ha) as A. assert (P : 0 < N * a) by nra. set (s := sqrt (N * a)). assert (S2 : s * s = N * a) by (apply sqrt_sqrt; lra). assert (S0 : 0 < s) by (apply sqrt_lt_R0; exact P).
  apply Rmult_le_reg_r with s; [exact S0|]. unfold Rdiv. rewrite (Rmult_assoc _ (/ s)), Rinv_l, Rmult_1_r by lra. apply Rsqr_incr_0_var; [|lra]. unfold Rsqr. rewrite <- S2 in A. pose proof (Rabs_pos (J N a)) as J0. assert (Q : Rabs (J N a) * Rabs (J N a) = J N a * J N a) by (rewrite <- Rabs_mult; apply Rabs_pos_eq; nra).
  replace (Rabs (J N a) * s * (Rabs (J N a) * s)) with (s * s * (Rabs (J N a) * Rabs (J N a))) by ring. rewrite Q. lra.
Qed.
