(** Integrands that meet the hypotheses of the error bounds. *)
From Coq Require Import Reals Lra Lia List Arith ZArith FunctionalExtensionality.
From Coquelicot Require Import Coquelicot.
From Verif Require Import Arith RInst RSum PolySpec PolyProof WeightSpec Improper ImproperExist Gaussian LaguerreWeight JacobiWeight ErrorSpec GaussExact TransferSpec ErrConv ErrCheb ChebRule ErrLimit.
Local Open Scope R_scope.

Lemma sin_derivatives : forall D m, has_derivatives D m (fun i x => sin (x + INR i * (PI / 2))).
Proof.
  intros D m i x _ _. rewrite S_INR. replace (x + (INR i + 1) * (PI / 2)) with (PI / 2 + (x + INR i * (PI / 2))) by field.
  rewrite <- cos_sin. auto_derive; [exact I|]. unfold Rdiv. ring.
Qed.
Lemma sin_abs : forall x, Rabs (sin x) <= 1.
Proof. intros. apply Rabs_le, SIN_bound. Qed.
Lemma sin_cont : forall x, continuous (fun x => sin (x + INR 0 * (PI / 2))) x.
Proof. intros. apply (ex_derive_continuous (V := R_NormedModule)). auto_derive. exact I. Qed.
Lemma whole_open : forall x, whole x -> locally x whole.
Proof. intros. exists (mkposreal 1 Rlt_0_1). intros; exact I. Qed.
Lemma whole_cof_a : forall y, whole y -> Rbar_locally m_infty (fun x => whole x /\ x < y).
Proof. intros y _. exists y. intros x Hx. split; [exact I|exact Hx]. Qed.
Lemma whole_cof_b : forall y, whole y -> Rbar_locally p_infty (fun x => whole x /\ y < x).
Proof. intros y _. exists y. intros x Hx. split; [exact I|exact Hx]. Qed.
Lemma hermite_sin : exists v, hermite_integral (fun x => sin (x + INR 0 * (PI / 2))) v.
Proof.
  destruct (hermite_moments 0) as [W HW].
  destruct (continuous_int whole (Rbar_locally m_infty) (Rbar_locally p_infty) whole_convex whole_open whole_cof_a whole_cof_b
    gauss (fun x => sin (x + INR 0 * (PI / 2))) W 1 0) as [v Hv].
  - intros x _. left. apply exp_pos.
  - intros x _. apply gauss_cont.
  - revert HW. apply has_int_ext. intros x _. simpl. ring.
  - intros x _. apply sin_cont.
  - intros x _. apply sin_abs.
  - exact I.
  - exists v. apply (has_int_gen whole _ _ whole_convex whole_a whole_b (fun x => gauss x * sin (x + INR 0 * (PI / 2)))); [|exact Hv].
    intros x Hx. apply (continuous_mult (K := R_AbsRing)); [apply gauss_cont|apply sin_cont].
Qed.
Lemma laguerre_sin : forall al, -1 < al -> exists v, laguerre_integral al (fun x => sin (x + INR 0 * (PI / 2))) v.
Proof.
  intros al Hal. destruct (lagw_moments al Hal 0) as [W HW].
  destruct (continuous_int halfline (at_right 0) (Rbar_locally p_infty) half_convex half_open half_cof_a half_cof_b
    (lagw al) (fun x => sin (x + INR 0 * (PI / 2))) W 1 1) as [v Hv].
  - intros x _. left. unfold lagw. apply Rmult_lt_0_compat; apply exp_pos.
  - apply lagw_cont.
  - revert HW. apply has_int_ext. intros x _. simpl. ring.
  - intros x _. apply sin_cont.
  - intros x _. apply sin_abs.
  - unfold halfline. lra.
  - exists v. apply (has_int_gen halfline _ _ half_convex half_a half_b (fun x => lagw al x * sin (x + INR 0 * (PI / 2)))); [|exact Hv].
    intros x Hx. apply (continuous_mult (K := R_AbsRing)); [apply lagw_cont, Hx|apply sin_cont].
Qed.
Lemma abs_oscillation : forall a b d, oscillation a b Rabs d d.
Proof. intros a b d x y _ _ H. eapply Rle_trans; [apply Rabs_triang_inv2|exact H]. Qed.
Lemma abs_continuous : forall a b, continuous_on a b Rabs.
Proof. intros a b x _ eps He. exists eps. split; [exact He|]. intros y _ H. eapply Rle_lt_trans; [apply Rabs_triang_inv2|exact H]. Qed.
Lemma sin_continuous : forall a b, continuous_on a b (fun x => sin (x + INR 0 * (PI / 2))).
Proof.
  intros a b x _ eps He. assert (C : continuity_pt (fun x => sin (x + INR 0 * (PI / 2))) x) by (apply continuity_pt_filterlim, sin_cont).
  destruct (C eps He) as (d & Hd & H). exists d. split; [exact Hd|]. intros y _ Hy. destruct (Req_dec x y) as [->|N].
  - rewrite Rminus_diag_eq, Rabs_R0 by reflexivity. exact He.
  - apply H. split; [split; [exact I|exact N]|exact Hy].
Qed.
Lemma chebyshev_integrals : forall a b f, a <> b -> continuous_on a b f ->
  (exists v, weighted_integral (fun x => / sqrt (1 - x * x)) a b f v) /\ (exists v, weighted_integral (fun x => sqrt (1 - x * x)) a b f v).
Proof.
  intros a b f E Hf. split.
  - destruct (chebyshev1_converges a b f E Hf) as (v & Hv & _). exists v. exact Hv.
  - destruct (chebyshev2_converges a b f E Hf) as (v & Hv & _). exists v. exact Hv.
Qed.
Lemma jacobi_integrals : forall al be a b f, -1 < al -> -1 < be -> a <> b -> continuous_on a b f ->
  exists v, weighted_integral (fun x => Rpower (1 - x) al * Rpower (1 + x) be) a b f v.
Proof.
  intros al be a b f Hal Hbe E Hf. destruct (jacw_moments al be Hal Hbe 0) as [W HW].
  apply (cont_exists (jacw al be) W a b f E).
  - intros x _. unfold jacw. left. apply Rmult_lt_0_compat; apply exp_pos.
  - apply jacw_cont.
  - revert HW. apply has_int_ext. intros x _. simpl. ring.
  - exact Hf.
Qed.
