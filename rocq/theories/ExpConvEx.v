(** Integrands meeting the hypotheses of the convergence theorems for exponential growth. *)
From Coq Require Import Reals Lra.
From Coquelicot Require Import Coquelicot.
From Verif Require Import WeightSpec ConvSpec ExpConvSpec.
Local Open Scope R_scope.

Lemma exp_abs_whole : (forall x, continuous (fun x => exp (3 * Rabs x)) x) /\ exponential_growth (fun _ => True) 3 (fun x => exp (3 * Rabs x)).
Proof.
  split.
  - intros x. apply (continuous_comp Rabs (fun y => exp (3 * y))); [apply continuous_Rabs|].
    apply (ex_derive_continuous (V := R_NormedModule)). auto_derive. trivial.
  - exists 1. intros x _. rewrite Rabs_pos_eq by (left; apply exp_pos). lra.
Qed.
Lemma exp_half_line : continuous_half (fun x => exp (x / 2) * sqrt x / (1 + x)) /\ exponential_growth (fun x => 0 <= x) (1 / 2) (fun x => exp (x / 2) * sqrt x / (1 + x)).
Proof.
  split.
  - intros x Hx eps He.
    assert (Cc : continuity_pt (fun x => exp (x / 2) * sqrt x / (1 + x)) x).
    { apply continuity_pt_filterlim. unfold Rdiv at 1. apply (continuous_mult (K := R_AbsRing)).
      - apply (continuous_mult (K := R_AbsRing)); [|apply continuous_sqrt]. apply (ex_derive_continuous (V := R_NormedModule)). auto_derive. trivial.
      - apply (ex_derive_continuous (V := R_NormedModule)). auto_derive. lra. }
    destruct (Cc eps He) as (d & Hd & G). exists d. split; [exact Hd|]. intros y _ L. destruct (Req_dec x y) as [<-|N].
    + rewrite Rminus_diag_eq, Rabs_R0 by reflexivity. exact He.
    + apply G. split; [split; [exact I|exact N]|exact L].
  - exists 1. intros x Hx. rewrite (Rabs_pos_eq x) by exact Hx.
    assert (S := sqrt_pos x). assert (E := sqrt_sqrt x Hx). set (s := sqrt x) in *. assert (P := exp_pos (x / 2)).
    assert (I0 : 0 < / (1 + x)) by (apply Rinv_0_lt_compat; lra).
    replace (1 / 2 * x) with (x / 2) by field.
    rewrite Rabs_pos_eq by (apply Rmult_le_pos; [apply Rmult_le_pos; lra|lra]).
    apply (Rmult_le_reg_r (1 + x)); [lra|]. unfold Rdiv at 1. rewrite Rmult_assoc, Rinv_l, Rmult_1_r, Rmult_1_l by lra.
    apply Rmult_le_compat_l; [lra|nra].
Qed.
Lemma abs_gauss_whole : (forall x, continuous (fun x => Rabs x * exp (x * x / 2)) x) /\ gaussian_growth (3 / 4) (fun x => Rabs x * exp (x * x / 2)).
Proof.
  split.
  - intros x. apply (continuous_mult (K := R_AbsRing)); [apply continuous_Rabs|].
    apply (ex_derive_continuous (V := R_NormedModule)). auto_derive. trivial.
  - exists 1. intros x. rewrite Rabs_mult, Rabs_Rabsolu, (Rabs_pos_eq (exp _)), Rmult_1_l by (left; apply exp_pos).
    replace (3 / 4 * (x * x)) with (x * x / 4 + x * x / 2) by field. rewrite exp_plus. apply Rmult_le_compat_r; [left; apply exp_pos|].
    eapply Rle_trans; [|apply exp_ineq1_le]. replace (x * x) with (Rabs x * Rabs x) by (rewrite <- Rabs_mult; apply Rabs_pos_eq; nra).
    assert (A := Rle_0_sqr (Rabs x / 2 - 1)). unfold Rsqr in A. lra.
Qed.

(** at c = 1 there is no integral to converge to *)
Lemma no_const_int : forall Fa (h : R -> R) v, ProperFilter Fa -> (forall x, h x = 1) -> ~ is_RInt_gen h Fa (Rbar_locally p_infty) v.
Proof.
  intros Fa h v PF Hh H. destruct (H (ball v (mkposreal 1 Rlt_0_1)) (locally_ball v (mkposreal 1 Rlt_0_1))) as [Q S HQ [M HS] G].
  destruct (filter_ex Q HQ) as [a Qa].
  assert (K : forall b, M < b -> Rabs (b - a - v) < 1).
  { intros b Hb. destruct (G a b Qa (HS b Hb)) as (z & Hz & Bz). simpl in Hz. change (Rabs (z - v) < 1) in Bz.
    assert (E : is_RInt h a b (scal (b - a) 1)) by (apply (is_RInt_ext (fun _ => 1)); [intros x _; symmetry; apply Hh|apply (is_RInt_const (V := R_NormedModule))]).
    assert (U := is_RInt_unique _ _ _ _ Hz). rewrite (is_RInt_unique _ _ _ _ E) in U. unfold scal in U; simpl in U; unfold mult in U; simpl in U. rewrite Rmult_1_r in U. rewrite U. exact Bz. }
  assert (A := K (M + 1) ltac:(lra)). assert (B := K (M + 4) ltac:(lra)). apply Rabs_def2 in A. apply Rabs_def2 in B. lra.
Qed.
Lemma hermite_no_int : forall v, ~ hermite_integral (fun x => exp (1 * (x * x))) v.
Proof.
  intros v H. unfold hermite_integral in H. refine (no_const_int _ _ v (Rbar_locally_filter m_infty) _ H).
  intros x. rewrite <- exp_plus. transitivity (exp 0); [f_equal; ring|exact exp_0].
Qed.
Lemma laguerre_no_int : forall v, ~ laguerre_integral 0 (fun x => exp (1 * x)) v.
Proof.
  intros v H. unfold laguerre_integral in H. refine (no_const_int _ _ v (at_right_proper_filter 0) _ H).
  intros x. unfold Rpower. rewrite <- !exp_plus. transitivity (exp 0); [f_equal; ring|exact exp_0].
Qed.
