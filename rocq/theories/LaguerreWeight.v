(** The Laguerre weight: moments, Pearson equation. *)
From Coq Require Import Reals Lra Lia.
From Coquelicot Require Import Coquelicot.
From Verif Require Import RSum PolySpec PolyProof EigenSpec EigenProof Improper ImproperExist OrthoProof Gaussian.
Local Open Scope R_scope.

Lemma Rpower_pos : forall x y, 0 < Rpower x y.
Proof. intros. apply exp_pos. Qed.
Lemma Rpower_der : forall p x, 0 < x -> is_derive (fun y => Rpower y p) x (p * Rpower x (p - 1)).
Proof.
  intros p x Hx. unfold Rpower. auto_derive; [exact Hx|].
  replace ((p - 1) * ln x) with (p * ln x + - ln x) by ring. rewrite exp_plus, exp_Ropp, exp_ln by exact Hx. field. lra.
Qed.
Lemma Rpower_S : forall p x, 0 < x -> Rpower x (p + 1) = Rpower x p * x.
Proof. intros p x Hx. rewrite Rpower_plus, Rpower_1 by exact Hx. reflexivity. Qed.
Lemma Rpower_P : forall p x, 0 < x -> Rpower x (p - 1) * x = Rpower x p.
Proof. intros p x Hx. rewrite <- Rpower_S by exact Hx. f_equal. ring. Qed.
Lemma Rpower_lim0 : forall p, 0 < p -> filterlim (fun x => Rpower x p) (at_right 0) (locally 0).
Proof.
  intros p Hp. unfold Rpower.
  apply (filterlim_comp R R R (fun x => p * ln x) exp (at_right 0) (Rbar_locally m_infty) (locally 0)); [|exact is_lim_exp_m].
  apply (filterlim_comp R R R ln (fun y => p * y) (at_right 0) (Rbar_locally m_infty) (Rbar_locally m_infty)); [exact is_lim_ln_0|].
  intros Q [M HM]. exists (M / p). intros y Hy. apply HM. apply Rmult_lt_compat_l with (r := p) in Hy; [|exact Hp].
  replace (p * (M / p)) with M in Hy by (field; lra). exact Hy.
Qed.
Lemma Rpower_exp_lim : forall p, filterlim (fun x => Rpower x p * exp (- x)) (Rbar_locally p_infty) (locally 0).
Proof.
  intros p. apply (filterlim_ext_loc (fun x => exp (x * (p * (ln x / x) - 1)))).
  - exists 0. intros x Hx. unfold Rpower. rewrite <- exp_plus. f_equal. field. lra.
  - apply (filterlim_comp R R R (fun x => x * (p * (ln x / x) - 1)) exp (Rbar_locally p_infty) (Rbar_locally m_infty) (locally 0)); [|exact is_lim_exp_m].
    assert (L : filterlim (fun x => p * (ln x / x)) (Rbar_locally p_infty) (locally (p * 0))).
    { apply lim_scal; [apply filter_filter|]. exact is_lim_div_ln_p. }
    rewrite Rmult_0_r in L. intros Q [M HM].
    assert (L1 : Rbar_locally p_infty (fun x => p * (ln x / x) < / 2)).
    { apply (L (fun y => y < / 2)). exists (mkposreal (/ 2) ltac:(lra)). intros y Hy. change (Rabs (y - 0) < / 2) in Hy. apply Rabs_def2 in Hy. lra. }
    destruct L1 as [N HN]. exists (Rmax N (Rmax 1 (- (2 * M)))). intros x Hx. apply HM.
    assert (N < x) by (eapply Rle_lt_trans; [apply Rmax_l|exact Hx]).
    assert (1 < x) by (eapply Rle_lt_trans; [|exact Hx]; eapply Rle_trans; [apply Rmax_l|apply Rmax_r]).
    assert (- (2 * M) < x) by (eapply Rle_lt_trans; [|exact Hx]; eapply Rle_trans; [apply Rmax_r|apply Rmax_r]).
    specialize (HN x H). nra.
Qed.

Lemma cont_right : forall (f : R -> R) (x : R), continuous f x -> filterlim f (at_right x) (locally (f x)).
Proof. intros f x H Q HQ. destruct (H Q HQ) as [eps He]. exists eps. intros y Hy _. apply He, Hy. Qed.
Lemma cont_left : forall (f : R -> R) (x : R), continuous f x -> filterlim f (at_left x) (locally (f x)).
Proof. intros f x H Q HQ. destruct (H Q HQ) as [eps He]. exists eps. intros y Hy _. apply He, Hy. Qed.

Definition halfline (x : R) : Prop := 0 < x.
Lemma half_convex : forall u v x, halfline u -> halfline v -> Rmin u v <= x <= Rmax u v -> halfline x.
Proof. unfold halfline. intros u v x Hu Hv [H _]. apply Rlt_le_trans with (Rmin u v); [|exact H]. apply Rmin_pos; assumption. Qed.
Lemma half_open : forall x, halfline x -> locally x halfline.
Proof. intros x Hx. apply (open_gt 0). exact Hx. Qed.
Lemma half_cof_a : forall y, halfline y -> at_right 0 (fun x => halfline x /\ x < y).
Proof.
  intros y Hy. exists (mkposreal y Hy). intros x Hx Hx0. change (Rabs (x - 0) < y) in Hx. rewrite Rminus_0_r in Hx.
  apply Rabs_def2 in Hx. split; [exact Hx0|lra].
Qed.
Lemma half_cof_b : forall y, halfline y -> Rbar_locally p_infty (fun x => halfline x /\ y < x).
Proof. intros y Hy. exists y. intros x Hx. unfold halfline in *. lra. Qed.
Lemma half_a : at_right 0 halfline.
Proof. exists (mkposreal 1 Rlt_0_1). intros x _ H. exact H. Qed.
Lemma half_b : Rbar_locally p_infty halfline.
Proof. exists 0. intros x H. exact H. Qed.

Section Weight.
Variable al : R.
Hypothesis Hal : -1 < al.
Definition lagw (x : R) : R := Rpower x al * exp (- x).
Definition laguerre_has := has_int halfline (at_right 0) (Rbar_locally p_infty).

Lemma lagw_pos : forall x, 0 < lagw x.
Proof. intros. apply Rmult_lt_0_compat; apply exp_pos. Qed.
Lemma lagw_cont : forall x, halfline x -> continuous lagw x.
Proof.
  intros x Hx. apply (ex_derive_continuous (V := R_NormedModule)). unfold lagw, Rpower. auto_derive. exact Hx.
Qed.
Lemma lagw_pearson : forall x, halfline x -> is_derive (fun y => y * lagw y) x ((al + 1 - x) * lagw x).
Proof. intros x Hx. unfold halfline in Hx. unfold lagw, Rpower. auto_derive; [exact Hx|]. field. lra. Qed.

Lemma lagw_bound_a : forall k, filterlim (fun x => x * lagw x * x ^ k) (at_right 0) (locally 0).
Proof.
  intros k. apply (lim_ext_D (at_right 0) halfline (fun x => Rpower x (al + 1) * (exp (- x) * x ^ k)) _ 0 half_a).
  - intros x Hx. rewrite Rpower_S by exact Hx. unfold lagw. ring.
  - replace 0 with (0 * (exp (- 0) * 0 ^ k)) at 2 by ring.
    apply lim_mult; [apply filter_filter|apply Rpower_lim0; lra|].
    apply (cont_right (fun x => exp (- x) * x ^ k) 0). apply (ex_derive_continuous (V := R_NormedModule)). auto_derive. trivial.
Qed.
Lemma lagw_bound_b : forall k, filterlim (fun x => x * lagw x * x ^ k) (Rbar_locally p_infty) (locally 0).
Proof.
  intros k. apply (lim_ext_D (Rbar_locally p_infty) halfline (fun x => Rpower x (al + 1 + INR k) * exp (- x)) _ 0 half_b).
  - intros x Hx. rewrite Rpower_plus, Rpower_S, Rpower_pow by exact Hx. unfold lagw. ring.
  - apply Rpower_exp_lim.
Qed.

Lemma ln_bound : forall x c, 0 < x -> 0 < c -> ln x <= x / c + ln c.
Proof.
  intros x c Hx Hc. assert (H : 0 < x / c) by (apply Rdiv_lt_0_compat; assumption).
  replace x with (x / c * c) at 1 by (field; lra). rewrite ln_mult by assumption.
  assert (ln (x / c) <= x / c).
  { apply Rle_trans with (ln (exp (x / c))); [|rewrite ln_exp; lra]. apply ln_le; [exact H|].
    assert (E := exp_ineq1_le (x / c)). lra. }
  lra.
Qed.
Lemma lagw_mass : exists I, laguerre_has lagw I.
Proof.
  set (c := 2 * (Rabs al + 1)). assert (Hc : 0 < c) by (unfold c; assert (X := Rabs_pos al); lra).
  set (C := exp (Rabs al * Rabs (ln c))).
  apply (dom_int halfline _ _ half_convex half_open half_cof_a half_cof_b lagw 1
           (fun x => Rpower x al) (fun x => Rpower x (al + 1) / (al + 1)) 0
           (fun x => C * exp (- (x / 2))) (fun x => -2 * C * exp (- (x / 2))) 0).
  - unfold halfline. lra.
  - intros x _. left. apply lagw_pos.
  - exact lagw_cont.
  - intros x Hx Hx1. split; [|split].
    + apply (is_derive_val _ _ (/ (al + 1) * ((al + 1) * Rpower x (al + 1 - 1)))).
      * replace (al + 1 - 1) with al by ring. field. lra.
      * apply (is_derive_ext (fun y => / (al + 1) * Rpower y (al + 1))); [intros; unfold Rdiv; apply Rmult_comm|].
        apply (is_derive_scal (fun y => Rpower y (al + 1))). apply Rpower_der. exact Hx.
    + unfold lagw. rewrite <- (Rmult_1_r (Rpower x al)) at 2. apply Rmult_le_compat_l; [left; apply Rpower_pos|].
      rewrite <- exp_0. left. apply exp_increasing. unfold halfline in Hx. lra.
    + left. apply Rdiv_lt_0_compat; [apply Rpower_pos|lra].
  - intros x Hx Hx1. split; [|split].
    + auto_derive; [trivial|]. unfold Rdiv. field.
    + unfold lagw, C, Rpower. rewrite <- !exp_plus.
      assert (L := ln_bound x c Hx Hc). assert (A0 := Rabs_pos al).
      assert (L0 : 0 <= ln x) by (rewrite <- ln_1; apply ln_le; lra).
      assert (B : al * ln x <= Rabs al * (x / c) + Rabs al * Rabs (ln c)).
      { apply Rle_trans with (Rabs al * ln x).
        - apply Rmult_le_compat_r; [exact L0|apply Rle_abs].
        - rewrite <- Rmult_plus_distr_l. apply Rmult_le_compat_l; [exact A0|]. assert (Y := Rle_abs (ln c)). lra. }
      assert (B2 : Rabs al * (x / c) <= x / 2).
      { unfold c. replace (Rabs al * (x / (2 * (Rabs al + 1)))) with ((Rabs al / (Rabs al + 1)) * (x / 2)) by (field; lra).
        rewrite <- (Rmult_1_l (x / 2)) at 2. apply Rmult_le_compat_r; [lra|].
        apply Rmult_le_reg_r with (Rabs al + 1); [lra|]. unfold Rdiv. rewrite Rmult_assoc, Rinv_l by lra. lra. }
      destruct (Req_dec (al * ln x + - x) (Rabs al * Rabs (ln c) + - (x / 2))) as [->|N]; [lra|].
      left. apply exp_increasing. lra.
    + assert (0 < C * exp (- (x / 2))) by (apply Rmult_lt_0_compat; apply exp_pos). lra.
Qed.
Lemma lagw_mass_pos : forall I, laguerre_has lagw I -> 0 < I.
Proof.
  intros I HI. apply (int_pos halfline _ _ half_convex half_open half_cof_a half_cof_b lagw I 1); auto.
  - unfold halfline; lra.
  - intros; left; apply lagw_pos.
  - exact lagw_cont.
  - apply lagw_pos.
Qed.

Lemma lagw_moments : forall k, exists I, laguerre_has (fun x => lagw x * x ^ k) I.
Proof.
  induction k as [|k [I HI]].
  - destruct lagw_mass as [I HI]. exists I. apply (has_int_ext _ _ _ lagw); [intros; simpl; ring|exact HI].
  - (* (x w x^k)' = w ((al+1+k) x^k - x^{k+1}) *)
    set (c := al + 1 + INR k).
    assert (H2 : laguerre_has (fun x => c * (lagw x * x ^ k) - lagw x * x ^ S k) (0 - 0)).
    { apply (has_int_derive _ _ _ (fun x => x * lagw x * x ^ k)); [|apply lagw_bound_a|apply lagw_bound_b].
      intros x Hx. unfold halfline in Hx.
      apply (is_derive_val _ _ ((al + 1 - x) * lagw x * x ^ k + x * lagw x * (INR k * x ^ pred k))).
      - unfold c. destruct k as [|k]; [simpl; ring|]. simpl pred. simpl pow. ring.
      - apply (is_derive_mult (fun y => y * lagw y) (fun y => y ^ k)); [apply lagw_pearson; exact Hx| |intros; apply Rmult_comm].
        auto_derive; [trivial|]. ring. }
    eexists. apply (has_int_ext _ _ _ (fun x => -1 * (c * (lagw x * x ^ k) - lagw x * x ^ S k) + c * (lagw x * x ^ k))).
    + intros x _. simpl pow. ring.
    + apply (has_int_lin _ _ _ (-1) c); [exact H2|exact HI].
Qed.
End Weight.
