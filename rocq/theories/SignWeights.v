(** Weights that are never negative in double arithmetic, whatever the eigenvalue solver and the math library return. *)
From Coq Require Import Reals ZArith List Lra Lia Bool Permutation.
From Flocq Require Import Core IEEE754.Binary.
From Flocq Require IEEE754.BinarySingleNaN.
From Verif Require Import Arith F64 F64Spec F64Proof Machine Iter Param Rules Par NewtonCotes Chebyshev GolubWelsch Hermite Laguerre Legendre Jacobi
  IntegrateSpec GWSpec SignSpec SignProof SignRules.
Import ListNotations.
Local Open Scope R_scope.

Section W.
Variable be : Backend.
Notation A := (F64 be).

Lemma nn_of_sign : forall x : f64, Bsign 53 1024 x = false -> nn x.
Proof. intros x H. destruct x as [s|s|s p Hp|s m e Hp]; simpl in *; auto. Qed.
Lemma mul_sign : forall x y : A, is_nan 53 1024 (nmul x y) = true \/ Bsign 53 1024 (nmul x y) = xorb (Bsign 53 1024 x) (Bsign 53 1024 y).
Proof.
  intros x y. destruct (is_nan 53 1024 (nmul x y)) eqn:N; [left; reflexivity|right].
  generalize (Bmult_correct 53 1024 prec53 prec53_emax (nan_mul be) BinarySingleNaN.mode_NE x y).
  change (Bmult 53 1024 prec53 prec53_emax (nan_mul be) BinarySingleNaN.mode_NE x y) with (nmul x y).
  destruct (Rlt_bool _ _).
  - intros (_ & _ & H). apply H. exact N.
  - intros H. apply overflow_not_finite in H. rewrite H. reflexivity.
Qed.
Lemma nn_same_sign : forall x y : A, Bsign 53 1024 x = Bsign 53 1024 y -> nn (nmul x y).
Proof.
  intros x y H. destruct (mul_sign x y) as [N|S]; [now apply nan_nn|]. apply nn_of_sign. rewrite S, H. apply xorb_nilpotent.
Qed.
Lemma nn_square : forall x : A, nn (nmul x x).
Proof. intros x. now apply nn_same_sign. Qed.
Lemma nan_mul_l : forall x y : A, is_nan 53 1024 x = true -> is_nan 53 1024 (nmul x y) = true.
Proof. intros x y H. apply nan_Bmult. destruct x; try discriminate H. destruct y; reflexivity. Qed.
Lemma nn_zero : forall x : f64, (exists s, x = B754_zero 53 1024 s) -> nn x.
Proof. intros x [s ->]. exact I. Qed.
Lemma nn_mul_twice : forall c s : A, nn c -> nn (nmul (nmul c s) s).
Proof.
  intros c s Hc. destruct (mul_sign c s) as [N|S]; [apply nan_nn; now apply nan_mul_l|].
  destruct (Bsign 53 1024 c) eqn:E.
  - destruct c as [z|z|z p Hp|z m e Hp]; simpl in E; try (simpl in Hc; congruence).
    + destruct s as [z'|z'|z' p' Hp'|z' m' e' Hp']; try reflexivity; try exact I; apply nan_nn; apply nan_mul_l; apply nan_Bmult; reflexivity.
    + apply nan_nn. apply nan_mul_l, nan_mul_l. reflexivity.
  - apply nn_same_sign. rewrite S. destruct (Bsign 53 1024 s); reflexivity.
Qed.

Lemma gw_weights_nn : forall (ext : Linalg A) n diag off (sc : A) ps, sorts ext -> nn sc ->
  golub_welsch ext n diag off sc = Ok ps -> weights_not_negative ps.
Proof.
  intros ext n diag off sc ps Hs Hsc. unfold golub_welsch.
  destruct (companion_matrix n diag off) as [m|]; [|discriminate]. unfold bind at 1.
  destruct (symmetric_eigen ext m) as [ev vecs]. destruct (index vecs 0) as [row|]; [|discriminate]. unfold bind at 1.
  intros H. injection H as <-. apply List.Forall_forall. intros q Hq.
  apply (Permutation_in _ (proj1 (Hs _ _))) in Hq. destruct q as [x w]. apply in_combine_r in Hq.
  apply in_map_iff in Hq. destruct Hq as (y & <- & _). apply nn_iff. simpl. apply nn_mul; [apply nn_square|exact Hsc].
Qed.
Lemma npi_pos : ffin (@npi A) /\ 0 < fval (@npi A).
Proof.
  assert (E : exists m e H, @npi A = B754_finite 53 1024 false m e H).
  { set (x := @npi A). assert (K : match x with B754_finite _ _ false _ _ _ => True | _ => False end) by (vm_compute; exact I).
    destruct x as [| | |z m e H]; try contradiction. destruct z; [contradiction|]. exists m, e, H. reflexivity. }
  destruct E as (m & e & H & ->). split; [reflexivity|]. unfold fval. simpl. apply F2R_gt_0. reflexivity.
Qed.
Lemma npi_nn : nn (@npi A).
Proof. exact (proj2 (nn_val _ (proj1 npi_pos)) (Rlt_le _ _ (proj2 npi_pos))). Qed.
Lemma sqrt_nn : forall x : A, nn (nsqrt x).
Proof.
  intros x. generalize (Bsqrt_correct 53 1024 prec53 prec53_emax (nan_sqrt be) BinarySingleNaN.mode_NE x).
  change (Bsqrt 53 1024 prec53 prec53_emax (nan_sqrt be) BinarySingleNaN.mode_NE x) with (nsqrt x). rewrite rnd_eq.
  intros (H1 & H2 & _). destruct x as [s|s|s p Hp|s m e Hp].
  - exact I.
  - destruct s; [apply nan_nn; reflexivity|reflexivity].
  - apply nan_nn. reflexivity.
  - destruct s; [apply nan_nn; reflexivity|]. apply nn_val; [exact H2|]. refine (eq_ind_r (fun z => 0 <= z) _ H1).
    apply rnd_pos, sqrt_pos.
Qed.
Theorem hermite_weights_nn : forall (ext : Linalg A) deg r, sorts ext -> hermite_new ext deg = Ok r -> weights_not_negative (hermite_pairs r).
Proof.
  intros ext deg r Hs. unfold hermite_new. destruct (golub_welsch ext (Z.to_nat deg) hermite_diag hermite_off_diag (nsqrt npi)) as [p|] eqn:E; [|simpl; discriminate].
  simpl. intros H. injection H as <-. exact (gw_weights_nn _ _ _ _ _ _ Hs (sqrt_nn _) E).
Qed.
Lemma ofZ_big : forall n, (1 <= n <= 2 ^ 64)%Z -> ffin (@nofZ A n) /\ 1 <= fval (@nofZ A n) <= bpow radix2 64.
Proof.
  intros n Hn. assert (O : no_overflow (IZR n)).
  { apply no_overflow_small. rewrite Rabs_pos_eq by (apply IZR_le; lia). apply Rle_trans with (IZR (2 ^ 64)); [apply IZR_le; lia|].
    change (IZR (2 ^ 64)) with (bpow radix2 64). apply bpow_le. lia. }
  destruct (ofZ_correct n O) as [H1 H2]. split; [exact H1|]. change (1 <= fval (f64_of_Z n) <= bpow radix2 64). rewrite H2. split.
  - replace 1 with (rnd 1) by (apply (rnd_IZR 1); lia). unfold rnd. apply round_le; [apply valid_exp_f64|apply valid_rnd_N|apply IZR_le; lia].
  - replace (bpow radix2 64) with (rnd (bpow radix2 64)).
    + unfold rnd. apply round_le; [apply valid_exp_f64|apply valid_rnd_N|]. change (bpow radix2 64) with (IZR (2 ^ 64)). apply IZR_le; lia.
    + unfold rnd. apply round_generic; [apply valid_rnd_N|]. apply generic_format_FLT_bpow; [reflexivity|lia].
Qed.
Lemma weights_map : forall (f : Z -> A * A) l, (forall i, nn (snd (f i))) -> weights_not_negative (map f l).
Proof. intros f l H. apply List.Forall_forall. intros q Hq. apply in_map_iff in Hq. destruct Hq as (i & <- & _). apply nn_iff, H. Qed.
Theorem chebyshev1_weights_nn : forall t deg (r : GaussChebyshevFirstKind A), (1 <= deg < 2 ^ 64)%Z -> chebyshev1_new t deg = Ok r ->
  weights_not_negative (chebyshev1_pairs r).
Proof.
  intros t deg r Hd. unfold chebyshev1_new. destruct (usize_add t deg 1) as [top|]; [|simpl; discriminate]. simpl bind. intros H. injection H as <-.
  apply weights_map. intros i. unfold chebyshev1_pair. cbn [snd]. destruct (ofZ_big deg) as [H1 [H2 _]]; [lia|].
  apply nn_div; [|exact H1|eapply Rlt_le_trans; [|exact H2]; lra]. exact npi_nn.
Qed.
Theorem chebyshev2_weights_nn : forall t deg (r : GaussChebyshevSecondKind A), (1 <= deg < 2 ^ 64)%Z -> chebyshev2_new t deg = Ok r ->
  weights_not_negative (chebyshev2_pairs r).
Proof.
  intros t deg r Hd. unfold chebyshev2_new. destruct (usize_add t deg 1) as [top|]; [|simpl; discriminate]. simpl bind. intros H. injection H as <-.
  apply weights_map. intros i. unfold chebyshev2_pair. cbn [snd]. destruct (ofZ_big deg) as [H1 [H2 H3]]; [lia|].
  apply nn_mul_twice. apply nn_mul; [exact npi_nn|].
  destruct (lit_int_exact 1) as [L1 L2]; [lia|].
  destruct (add_finite be (nofZ deg) (@lit1 A) H1 L1) as [F1 F2].
  { apply no_overflow_small. change (fval (@lit1 A)) with (fval (f64_lit 1 0)). rewrite L2, Rabs_pos_eq by lra.
    apply Rle_trans with (bpow radix2 64 + bpow radix2 64).
    - apply Rplus_le_compat; [exact H3|]. change 1 with (bpow radix2 0). apply bpow_le. lia.
    - replace (bpow radix2 64 + bpow radix2 64) with (bpow radix2 65) by (change 65%Z with (1 + 64)%Z; rewrite bpow_plus; change (bpow radix2 1) with 2; ring). apply bpow_le. lia. }
  apply nn_div; [apply lit_pos; lia|exact F1|]. refine (eq_ind_r (fun z => 0 < z) _ F2). change (fval (@lit1 A)) with (fval (f64_lit 1 0)). rewrite L2.
  apply Rlt_le_trans with 1; [lra|]. replace 1 with (rnd 1) at 1 by (apply (rnd_IZR 1); lia). unfold rnd.
  apply round_le; [apply valid_exp_f64|apply valid_rnd_N|lra].
Qed.
Theorem laguerre_weights_nn : forall (ext : Linalg A) deg alpha r, sorts ext -> not_negative (@Gamma.gamma A (nadd (param_get alpha) lit1)) ->
  laguerre_new ext deg alpha = Ok r -> weights_not_negative (laguerre_pairs r).
Proof.
  intros ext deg alpha r Hs Hg. unfold laguerre_new.
  destruct (golub_welsch ext (Z.to_nat deg) (laguerre_diag (param_get alpha)) (laguerre_off_diag (param_get alpha)) (Gamma.gamma (nadd (param_get alpha) lit1))) as [p|] eqn:E; [|simpl; discriminate].
  simpl. intros H. injection H as <-. apply nn_iff in Hg. exact (gw_weights_nn _ _ _ _ _ _ Hs Hg E).
Qed.
End W.
