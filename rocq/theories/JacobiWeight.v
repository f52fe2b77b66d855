(** The Jacobi weight: moments, Pearson equation. *)
From Coq Require Import Reals Lra Lia.
From Coquelicot Require Import Coquelicot.
From Verif Require Import RSum PolySpec PolyProof EigenSpec EigenProof Improper ImproperExist OrthoProof Gaussian LaguerreWeight.
Local Open Scope R_scope.

Definition unit_open (x : R) : Prop := -1 < x < 1.
Lemma unit_convex : forall u v x, unit_open u -> unit_open v -> Rmin u v <= x <= Rmax u v -> unit_open x.
Proof.
  unfold unit_open. intros u v x Hu Hv [H1 H2]. split.
  - apply Rlt_le_trans with (Rmin u v); [apply Rmin_glb_lt; lra|exact H1].
  - apply Rle_lt_trans with (Rmax u v); [exact H2|apply Rmax_lub_lt; lra].
Qed.
Lemma unit_is_open : forall x, unit_open x -> locally x unit_open.
Proof. intros x [H1 H2]. apply filter_and; [apply (open_gt (-1)); exact H1|apply (open_lt 1); exact H2]. Qed.
Lemma unit_cof_a : forall y, unit_open y -> at_right (-1) (fun x => unit_open x /\ x < y).
Proof.
  intros y [H1 H2]. exists (mkposreal (y + 1) ltac:(lra)). intros x Hx Hx0. change (Rabs (x - -1) < y + 1) in Hx.
  apply Rabs_def2 in Hx. unfold unit_open. lra.
Qed.
Lemma unit_cof_b : forall y, unit_open y -> at_left 1 (fun x => unit_open x /\ y < x).
Proof.
  intros y [H1 H2]. exists (mkposreal (1 - y) ltac:(lra)). intros x Hx Hx0. change (Rabs (x - 1) < 1 - y) in Hx.
  apply Rabs_def2 in Hx. unfold unit_open. lra.
Qed.
Lemma unit_a : at_right (-1) unit_open.
Proof. eapply filter_imp; [|apply (unit_cof_a 0); unfold unit_open; lra]. intros x H. apply H. Qed.
Lemma unit_b : at_left 1 unit_open.
Proof. eapply filter_imp; [|apply (unit_cof_b 0); unfold unit_open; lra]. intros x H. apply H. Qed.

Lemma lim_one_plus : filterlim (fun x => 1 + x) (at_right (-1)) (at_right 0).
Proof.
  intros Q [eps He]. exists eps. intros y Hy Hlt. apply He; [|lra]. change (Rabs (1 + y - 0) < eps).
  change (Rabs (y - -1) < eps) in Hy. replace (1 + y - 0) with (y - -1) by ring. exact Hy.
Qed.
Lemma lim_one_minus : filterlim (fun x => 1 - x) (at_left 1) (at_right 0).
Proof.
  intros Q [eps He]. exists eps. intros y Hy Hlt. apply He; [|lra]. change (Rabs (1 - y - 0) < eps).
  change (Rabs (y - 1) < eps) in Hy. rewrite <- Rabs_Ropp. replace (- (1 - y - 0)) with (y - 1) by ring. exact Hy.
Qed.

Section Weight.
Variables al be : R.
Hypothesis Hal : -1 < al.
Hypothesis Hbe : -1 < be.
Definition jacw (x : R) : R := Rpower (1 - x) al * Rpower (1 + x) be.
Definition jacobi_has := has_int unit_open (at_right (-1)) (at_left 1).

Lemma jacw_pos : forall x, 0 < jacw x.
Proof. intros. apply Rmult_lt_0_compat; apply exp_pos. Qed.
Lemma jacw_cont : forall x, unit_open x -> continuous jacw x.
Proof.
  intros x [H1 H2]. apply (ex_derive_continuous (V := R_NormedModule)). unfold jacw, Rpower. auto_derive. repeat split; lra.
Qed.
Definition jac_sigma (x : R) : R := 1 - x * x.
Definition jac_tau (x : R) : R := be - al - (al + be + 2) * x.
Lemma jacw_pearson : forall x, unit_open x -> is_derive (fun y => jac_sigma y * jacw y) x (jac_tau x * jacw x).
Proof.
  intros x [H1 H2]. unfold jac_sigma, jac_tau, jacw, Rpower. auto_derive; [repeat split; lra|]. unfold Rminus. field. lra.
Qed.
Lemma jacw_bound_a : forall k, filterlim (fun x => jac_sigma x * jacw x * x ^ k) (at_right (-1)) (locally 0).
Proof.
  intros k. apply (lim_ext_D (at_right (-1)) unit_open (fun x => Rpower (1 + x) (be + 1) * ((1 - x) * Rpower (1 - x) al * x ^ k)) _ 0 unit_a).
  - intros x [H1 H2]. rewrite Rpower_S by lra. unfold jacw, jac_sigma. ring.
  - replace 0 with (0 * ((1 - -1) * Rpower (1 - -1) al * (-1) ^ k)) by ring.
    apply lim_mult; [apply filter_filter| |].
    + apply (filterlim_comp R R R (fun x => 1 + x) (fun y => Rpower y (be + 1)) (at_right (-1)) (at_right 0)); [exact lim_one_plus|].
      apply Rpower_lim0. lra.
    + apply (cont_right (fun x => (1 - x) * Rpower (1 - x) al * x ^ k) (-1)).
      apply (ex_derive_continuous (V := R_NormedModule)). unfold Rpower. auto_derive. lra.
Qed.
Lemma jacw_bound_b : forall k, filterlim (fun x => jac_sigma x * jacw x * x ^ k) (at_left 1) (locally 0).
Proof.
  intros k. apply (lim_ext_D (at_left 1) unit_open (fun x => Rpower (1 - x) (al + 1) * ((1 + x) * Rpower (1 + x) be * x ^ k)) _ 0 unit_b).
  - intros x [H1 H2]. rewrite Rpower_S by lra. unfold jacw, jac_sigma. ring.
  - replace 0 with (0 * ((1 + 1) * Rpower (1 + 1) be * 1 ^ k)) by ring.
    apply lim_mult; [apply filter_filter| |].
    + apply (filterlim_comp R R R (fun x => 1 - x) (fun y => Rpower y (al + 1)) (at_left 1) (at_right 0)); [exact lim_one_minus|].
      apply Rpower_lim0. lra.
    + apply (cont_left (fun x => (1 + x) * Rpower (1 + x) be * x ^ k) 1).
      apply (ex_derive_continuous (V := R_NormedModule)). unfold Rpower. auto_derive. lra.
Qed.

Lemma Rpower_le_2 : forall p y, 1 <= y <= 2 -> Rpower y p <= Rpower 2 (Rabs p).
Proof.
  intros p y [H1 H2]. unfold Rpower.
  assert (L0 : 0 <= ln y) by (rewrite <- ln_1; apply ln_le; lra).
  assert (L2 : ln y <= ln 2) by (apply ln_le; lra).
  assert (p * ln y <= Rabs p * ln 2).
  { apply Rle_trans with (Rabs p * ln y); [apply Rmult_le_compat_r; [exact L0|apply Rle_abs]|apply Rmult_le_compat_l; [apply Rabs_pos|exact L2]]. }
  destruct (Req_dec (p * ln y) (Rabs p * ln 2)) as [->|N]; [lra|]. left. apply exp_increasing. lra.
Qed.
Lemma jacw_mass : exists I, jacobi_has jacw I.
Proof.
  set (Ca := Rpower 2 (Rabs al)). set (Cb := Rpower 2 (Rabs be)).
  apply (dom_int unit_open _ _ unit_convex unit_is_open unit_cof_a unit_cof_b jacw 0
           (fun x => Ca * Rpower (1 + x) be) (fun x => Ca / (be + 1) * Rpower (1 + x) (be + 1)) 0
           (fun x => Cb * Rpower (1 - x) al) (fun x => - (Cb / (al + 1)) * Rpower (1 - x) (al + 1)) 0).
  - unfold unit_open. lra.
  - intros x _. left. apply jacw_pos.
  - exact jacw_cont.
  - intros x [H1 H2] Hx1. split; [|split].
    + apply (is_derive_val _ _ (Ca / (be + 1) * (1 * ((be + 1) * Rpower (1 + x) (be + 1 - 1))))).
      * replace (be + 1 - 1) with be by ring. field. lra.
      * apply (is_derive_scal (fun y => Rpower (1 + y) (be + 1))).
        apply (is_derive_comp (K := R_AbsRing) (V := R_NormedModule) (fun y => Rpower y (be + 1)) (fun y => 1 + y) x ((be + 1) * Rpower (1 + x) (be + 1 - 1)) 1).
        -- apply Rpower_der. lra.
        -- auto_derive; [trivial|ring].
    + unfold jacw. apply Rmult_le_compat_r; [left; apply Rpower_pos|]. apply Rpower_le_2. lra.
    + left. apply Rmult_lt_0_compat; [apply Rdiv_lt_0_compat; [apply Rpower_pos|lra]|apply Rpower_pos].
  - intros x [H1 H2] Hx1. split; [|split].
    + apply (is_derive_val _ _ (- (Cb / (al + 1)) * (-1 * ((al + 1) * Rpower (1 - x) (al + 1 - 1))))).
      * replace (al + 1 - 1) with al by ring. field. lra.
      * apply (is_derive_scal (fun y => Rpower (1 - y) (al + 1))).
        apply (is_derive_comp (K := R_AbsRing) (V := R_NormedModule) (fun y => Rpower y (al + 1)) (fun y => 1 - y) x ((al + 1) * Rpower (1 - x) (al + 1 - 1)) (-1)).
        -- apply Rpower_der. lra.
        -- auto_derive; [trivial|ring].
    + unfold jacw. rewrite Rmult_comm. apply Rmult_le_compat_r; [left; apply Rpower_pos|]. apply Rpower_le_2. lra.
    + assert (0 < Cb / (al + 1) * Rpower (1 - x) (al + 1)) by (apply Rmult_lt_0_compat; [apply Rdiv_lt_0_compat; [apply Rpower_pos|lra]|apply Rpower_pos]). lra.
Qed.
Lemma jacw_mass_pos : forall I, jacobi_has jacw I -> 0 < I.
Proof.
  intros I HI. apply (int_pos unit_open _ _ unit_convex unit_is_open unit_cof_a unit_cof_b jacw I 0); auto.
  - unfold unit_open; lra.
  - intros; left; apply jacw_pos.
  - exact jacw_cont.
  - apply jacw_pos.
Qed.

(** (sigma w x^k)' = w (k x^{k-1} - k x^{k+1} + (be-al) x^k - (al+be+2) x^{k+1}) *)
Lemma jac_step : forall k, jacobi_has (fun x => INR k * (jacw x * x ^ pred k) + (be - al) * (jacw x * x ^ k) - (al + be + 2 + INR k) * (jacw x * x ^ S k)) (0 - 0).
Proof.
  intros k. apply (has_int_derive _ _ _ (fun x => jac_sigma x * jacw x * x ^ k)); [|apply jacw_bound_a|apply jacw_bound_b].
  intros x Hx. apply (is_derive_val _ _ (jac_tau x * jacw x * x ^ k + jac_sigma x * jacw x * (INR k * x ^ pred k))).
  - unfold jac_tau, jac_sigma. destruct k as [|k]; [simpl; ring|]. simpl pred. simpl pow. ring.
  - apply (is_derive_mult (fun y => jac_sigma y * jacw y) (fun y => y ^ k)); [apply jacw_pearson; exact Hx| |intros; apply Rmult_comm].
    auto_derive; [trivial|]. ring.
Qed.
Lemma jacw_moments : forall k, exists I, jacobi_has (fun x => jacw x * x ^ k) I.
Proof.
  intros k. enough (H : forall k, (exists I, jacobi_has (fun x => jacw x * x ^ k) I) /\ (exists I, jacobi_has (fun x => jacw x * x ^ pred k) I)) by apply H.
  clear k. induction k as [|k [[I HI] [J HJ]]].
  - destruct jacw_mass as [I HI]. split; exists I; (apply (has_int_ext _ _ _ jacw); [intros; simpl; ring|exact HI]).
  - split; [|exists I; exact HI].
    assert (H := jac_step k). assert (Hc : 0 < al + be + 2 + INR k) by (assert (X := pos_INR k); lra).
    set (c := al + be + 2 + INR k) in *. eexists.
    apply (has_int_ext _ _ _ (fun x => (- / c) * (INR k * (jacw x * x ^ pred k) + (be - al) * (jacw x * x ^ k) - c * (jacw x * x ^ S k))
       + / c * (INR k * (jacw x * x ^ pred k) + (be - al) * (jacw x * x ^ k)))).
    + intros x _. field. lra.
    + apply (has_int_lin _ _ _ (- / c) (/ c)); [exact H|]. apply (has_int_lin _ _ _ (INR k) (be - al)); [exact HJ|exact HI].
Qed.
End Weight.
