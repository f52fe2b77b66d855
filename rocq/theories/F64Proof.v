(** Basic facts about the binary64 instance. *)
From Coq Require Import Reals ZArith Lra Lia Bool.
From Flocq Require Import Core IEEE754.Binary IEEE754.Bits.
From Flocq Require IEEE754.BinarySingleNaN.
From Verif Require Import Arith F64 F64Spec.
Local Open Scope R_scope.

Notation "x <? y" := (Z.ltb x y) : Z_scope.

Lemma rnd_eq : forall x, round radix2 (SpecFloat.fexp 53 1024)
  (BinarySingleNaN.round_mode BinarySingleNaN.mode_NE) x = rnd x.
Proof. intros; reflexivity. Qed.

#[global] Instance valid_exp_f64 : Valid_exp (FLT_exp (-1074) 53).
Proof. apply FLT_exp_valid. reflexivity. Qed.

Lemma fexp_eq : forall e, SpecFloat.fexp 53 1024 e = FLT_exp (-1074) 53 e.
Proof. reflexivity. Qed.

Lemma fval_format : forall x, generic_format radix2 (FLT_exp (-1074) 53) (fval x).
Proof. intros x. apply (generic_format_B2R 53 1024 x). Qed.

Lemma rnd_fval : forall x, rnd (fval x) = fval x.
Proof. intros. unfold rnd. apply round_generic. apply valid_rnd_N. apply fval_format. Qed.

Lemma fval_bound : forall x, Rabs (fval x) < bpow radix2 1024.
Proof. intros. apply abs_B2R_lt_emax. Qed.

Lemma Rlt_bool_no_overflow : forall x, no_overflow x ->
  Rlt_bool (Rabs (rnd x)) (bpow radix2 1024) = true.
Proof. intros x H. now apply Rlt_bool_true. Qed.

Lemma overflow_not_finite : forall (z : f64) s,
  B2FF 53 1024 z = binary_overflow 53 1024 BinarySingleNaN.mode_NE s ->
  z = B754_infinity 53 1024 s.
Proof.
  intros z s H. destruct z; simpl in H; try discriminate H.
  injection H; intros; subst; reflexivity.
Qed.

Section Ops.
Variable be : Backend.
Notation A := (F64 be).

Lemma add_finite : forall x y : A, ffin x -> ffin y -> no_overflow (fval x + fval y) ->
  ffin (nadd x y) /\ fval (nadd x y) = rnd (fval x + fval y).
Proof.
  intros x y Hx Hy Ho.
  generalize (Bplus_correct 53 1024 prec53 prec53_emax (nan_add be) BinarySingleNaN.mode_NE x y Hx Hy).
  rewrite rnd_eq. fold (fval x) (fval y).
  rewrite Rlt_bool_no_overflow by assumption.
  intros (H1 & H2 & _). split; assumption.
Qed.

Lemma add_finite_inv : forall x y : A, ffin (nadd x y) ->
  ffin x /\ ffin y /\ no_overflow (fval x + fval y) /\ fval (nadd x y) = rnd (fval x + fval y).
Proof.
  intros x y H.
  assert (Hx : ffin x /\ ffin y).
  { unfold ffin in *. simpl in H. unfold Bplus in H. rewrite is_finite_BSN2B in H.
    destruct x as [sx|sx|sx px Hpx|sx mx ex Hx], y as [sy|sy|sy py Hpy|sy my ey Hy];
      simpl in *; try (split; reflexivity); try discriminate H.
    destruct (Bool.eqb sx sy); discriminate H. }
  destruct Hx as [Hx Hy].
  generalize (Bplus_correct 53 1024 prec53 prec53_emax (nan_add be) BinarySingleNaN.mode_NE x y Hx Hy).
  rewrite rnd_eq. fold (fval x) (fval y).
  destruct (Rlt_bool_spec (Rabs (rnd (fval x + fval y))) (bpow radix2 1024)) as [Ho|Ho].
  - intros (H1 & H2 & _). repeat split; assumption.
  - intros (H1 & _). apply overflow_not_finite in H1.
    unfold ffin in H. simpl in H. rewrite H1 in H. discriminate H.
Qed.

Lemma sub_finite : forall x y : A, ffin x -> ffin y -> no_overflow (fval x - fval y) ->
  ffin (nsub x y) /\ fval (nsub x y) = rnd (fval x - fval y).
Proof.
  intros x y Hx Hy Ho.
  generalize (Bminus_correct 53 1024 prec53 prec53_emax (nan_sub be) BinarySingleNaN.mode_NE x y Hx Hy).
  rewrite rnd_eq. fold (fval x) (fval y).
  rewrite Rlt_bool_no_overflow by assumption.
  intros (H1 & H2 & _). split; assumption.
Qed.

Lemma sub_finite_inv : forall x y : A, ffin (nsub x y) ->
  ffin x /\ ffin y /\ no_overflow (fval x - fval y) /\ fval (nsub x y) = rnd (fval x - fval y).
Proof.
  intros x y H.
  assert (Hx : ffin x /\ ffin y).
  { unfold ffin in *. simpl in H. unfold Bminus in H. rewrite is_finite_BSN2B in H.
    destruct x as [sx|sx|sx px Hpx|sx mx ex Hx], y as [sy|sy|sy py Hpy|sy my ey Hy];
      simpl in *; try (split; reflexivity); try discriminate H.
    destruct (Bool.eqb sx (negb sy)); discriminate H. }
  destruct Hx as [Hx Hy].
  generalize (Bminus_correct 53 1024 prec53 prec53_emax (nan_sub be) BinarySingleNaN.mode_NE x y Hx Hy).
  rewrite rnd_eq. fold (fval x) (fval y).
  destruct (Rlt_bool_spec (Rabs (rnd (fval x - fval y))) (bpow radix2 1024)) as [Ho|Ho].
  - intros (H1 & H2 & _). repeat split; assumption.
  - intros (H1 & _). apply overflow_not_finite in H1.
    unfold ffin in H. simpl in H. rewrite H1 in H. discriminate H.
Qed.

Lemma mul_finite : forall x y : A, ffin x -> ffin y -> no_overflow (fval x * fval y) ->
  ffin (nmul x y) /\ fval (nmul x y) = rnd (fval x * fval y).
Proof.
  intros x y Hx Hy Ho.
  generalize (Bmult_correct 53 1024 prec53 prec53_emax (nan_mul be) BinarySingleNaN.mode_NE x y).
  rewrite rnd_eq. fold (fval x) (fval y).
  rewrite Rlt_bool_no_overflow by assumption.
  intros (H1 & H2 & _). rewrite Hx, Hy in H2. split; assumption.
Qed.

Lemma mul_finite_inv : forall x y : A, ffin (nmul x y) ->
  ffin x /\ ffin y /\ no_overflow (fval x * fval y) /\ fval (nmul x y) = rnd (fval x * fval y).
Proof.
  intros x y H.
  generalize (Bmult_correct 53 1024 prec53 prec53_emax (nan_mul be) BinarySingleNaN.mode_NE x y).
  rewrite rnd_eq. fold (fval x) (fval y).
  destruct (Rlt_bool_spec (Rabs (rnd (fval x * fval y))) (bpow radix2 1024)) as [Ho|Ho].
  - intros (H1 & H2 & _). unfold ffin in *. simpl in H. rewrite H in H2.
    symmetry in H2. apply andb_true_iff in H2. destruct H2. repeat split; assumption.
  - intros H1. apply overflow_not_finite in H1.
    unfold ffin in H. simpl in H. rewrite H1 in H. discriminate H.
Qed.

Lemma div_finite : forall x y : A, ffin x -> fval y <> 0 -> no_overflow (fval x / fval y) ->
  ffin (ndiv x y) /\ fval (ndiv x y) = rnd (fval x / fval y).
Proof.
  intros x y Hx Hy Ho.
  generalize (Bdiv_correct 53 1024 prec53 prec53_emax (nan_div be) BinarySingleNaN.mode_NE x y Hy).
  rewrite rnd_eq. fold (fval x) (fval y).
  rewrite Rlt_bool_no_overflow by assumption.
  intros (H1 & H2 & _). rewrite Hx in H2. split; assumption.
Qed.

(** A finite quotient arises from a non-zero finite divisor, or from an infinite
    divisor (the quotient is then a zero). *)
Lemma div_finite_inv : forall x y : A, ffin (ndiv x y) ->
  ffin x /\
  ((ffin y /\ fval y <> 0 /\ no_overflow (fval x / fval y)
    /\ fval (ndiv x y) = rnd (fval x / fval y))
   \/ (is_nan 53 1024 y = false /\ ~ ffin y /\ fval (ndiv x y) = 0)).
Proof.
  intros x y H.
  assert (H' := H). unfold ffin in H'.
  change (is_finite 53 1024 (BSN2B 53 1024 (nan_div be x y)
    (@BinarySingleNaN.Bdiv 53 1024 prec53 prec53_emax BinarySingleNaN.mode_NE (B2BSN 53 1024 x) (B2BSN 53 1024 y))) = true) in H'.
  rewrite is_finite_BSN2B in H'.
  assert (V : fval (ndiv x y) = BinarySingleNaN.B2R
    (@BinarySingleNaN.Bdiv 53 1024 prec53 prec53_emax BinarySingleNaN.mode_NE (B2BSN 53 1024 x) (B2BSN 53 1024 y))).
  { unfold fval. rewrite <- (B2R_BSN2B 53 1024 (nan_div be x y)). reflexivity. }
  destruct y as [sy|sy|sy py Hpy|sy my ey Hy].
  - destruct x; discriminate H'.
  - destruct x as [sx|sx|sx px Hpx|sx mx ex Hx]; try discriminate H';
      (split; [reflexivity|]); right; (split; [reflexivity|]); (split; [unfold ffin; simpl; discriminate|]);
      rewrite V; reflexivity.
  - destruct x; discriminate H'.
  - set (y := B754_finite 53 1024 sy my ey Hy) in *.
    assert (Hy0 : fval y <> 0).
    { unfold fval, y. simpl. apply F2R_neq_0. simpl. destruct sy; discriminate. }
    generalize (Bdiv_correct 53 1024 prec53 prec53_emax (nan_div be) BinarySingleNaN.mode_NE x y Hy0).
    rewrite rnd_eq. fold (fval x) (fval y).
    destruct (Rlt_bool_spec (Rabs (rnd (fval x / fval y))) (bpow radix2 1024)) as [Ho|Ho].
    + intros (H1 & H2 & _). unfold ffin in H. simpl in H. rewrite H in H2.
      split. { symmetry; exact H2. } left. repeat split; try assumption; reflexivity.
    + intros H1. apply overflow_not_finite in H1.
      unfold ffin in H. simpl in H. rewrite H1 in H. discriminate H.
Qed.

Lemma cmp_finite : forall x y : A, ffin x -> ffin y ->
  ncmp x y = Some (Rcompare (fval x) (fval y)).
Proof. intros x y Hx Hy. apply Bcompare_correct; assumption. Qed.

Lemma gt_finite : forall x y : A, ffin x -> ffin y -> ngt x y = true <-> fval y < fval x.
Proof.
  intros x y Hx Hy. unfold ngt. rewrite cmp_finite by assumption.
  destruct (Rcompare_spec (fval x) (fval y)); split; intros; try discriminate; try reflexivity; lra.
Qed.

Lemma lt_finite : forall x y : A, ffin x -> ffin y -> nlt x y = true <-> fval x < fval y.
Proof.
  intros x y Hx Hy. unfold nlt. rewrite cmp_finite by assumption.
  destruct (Rcompare_spec (fval x) (fval y)); split; intros; try discriminate; try reflexivity; lra.
Qed.

Lemma eqb_finite : forall x y : A, ffin x -> ffin y -> neqb x y = true <-> fval x = fval y.
Proof.
  intros x y Hx Hy. unfold neqb. rewrite cmp_finite by assumption.
  destruct (Rcompare_spec (fval x) (fval y)); split; intros; try discriminate; try reflexivity; lra.
Qed.

End Ops.

(** Literals are the correctly rounded decimal. *)
Lemma lit_neg_correct : forall m e, (e < 0)%Z -> no_overflow (IZR m / IZR (10 ^ (- e))) ->
  ffin (f64_lit m e) /\ fval (f64_lit m e) = rnd (IZR m / IZR (10 ^ (- e))).
Proof.
  intros m e He Ho. unfold f64_lit.
  replace (e <? 0)%Z with true by (symmetry; apply Z.ltb_lt; exact He).
  assert (Hp : (0 < 10 ^ (- e))%Z) by (apply Z.pow_pos_nonneg; lia).
  assert (HF : @F2R radix2 {| Fnum := SpecFloat.cond_Zopp false (Z.pos (Z.to_pos (10 ^ (- e)))); Fexp := 0 |}
               = IZR (10 ^ (- e)) :> R).
  { unfold F2R. simpl SpecFloat.cond_Zopp. rewrite Z2Pos.id by assumption.
    simpl. ring. }
  destruct m as [|p|p].
  - split; [reflexivity|]. unfold fval, rnd, Rdiv. rewrite Rmult_0_l, round_0; [reflexivity|].
    apply valid_rnd_N.
  - unfold fval, ffin. rewrite B2R_BSN2B, is_finite_BSN2B.
    rewrite BinarySingleNaN.B2R_SF2B, BinarySingleNaN.is_finite_SF2B.
    generalize (BinarySingleNaN.Bdiv_correct_aux 53 1024 prec53 prec53_emax
      BinarySingleNaN.mode_NE false p 0 false (Z.to_pos (10 ^ (- e))) 0).
    cbv zeta. rewrite HF.
    replace (@F2R radix2 {| Fnum := SpecFloat.cond_Zopp false (Z.pos p); Fexp := 0 |}) with (IZR (Z.pos p))
      by (unfold F2R; simpl; ring).
    rewrite rnd_eq. rewrite Rlt_bool_no_overflow by assumption.
    intros (_ & H1 & H2 & _). split; assumption.
  - unfold fval, ffin. rewrite B2R_BSN2B, is_finite_BSN2B.
    rewrite BinarySingleNaN.B2R_SF2B, BinarySingleNaN.is_finite_SF2B.
    generalize (BinarySingleNaN.Bdiv_correct_aux 53 1024 prec53 prec53_emax
      BinarySingleNaN.mode_NE true p 0 false (Z.to_pos (10 ^ (- e))) 0).
    cbv zeta. rewrite HF.
    replace (@F2R radix2 {| Fnum := SpecFloat.cond_Zopp true (Z.pos p); Fexp := 0 |}) with (IZR (Z.neg p))
      by (unfold F2R; simpl; ring).
    rewrite rnd_eq. rewrite Rlt_bool_no_overflow by assumption.
    intros (_ & H1 & H2 & _). split; assumption.
Qed.

Lemma ofZ_correct : forall z, no_overflow (IZR z) ->
  ffin (f64_of_Z z) /\ fval (f64_of_Z z) = rnd (IZR z).
Proof.
  intros z Ho. unfold f64_of_Z.
  generalize (binary_normalize_correct 53 1024 prec53 prec53_emax BinarySingleNaN.mode_NE z 0 false).
  replace (@F2R radix2 {| Fnum := z; Fexp := 0 |}) with (IZR z) by (unfold F2R; simpl; ring).
  rewrite rnd_eq. rewrite Rlt_bool_no_overflow by assumption.
  intros (H1 & H2 & _). split; assumption.
Qed.

Lemma lit_nonneg_eq : forall m e, (0 <= e)%Z -> f64_lit m e = f64_of_Z (m * 10 ^ e).
Proof.
  intros m e He. unfold f64_lit.
  replace (e <? 0)%Z with false by (symmetry; apply Z.ltb_ge; exact He). reflexivity.
Qed.

(** Integers of magnitude at most 2^53 are exact. *)
Lemma IZR_format : forall z, (Z.abs z <= 2 ^ 53)%Z ->
  generic_format radix2 (FLT_exp (-1074) 53) (IZR z).
Proof.
  intros z Hz.
  apply generic_format_FLT.
  destruct (Z.eq_dec (Z.abs z) (2 ^ 53)) as [E|E].
  - exists (Float radix2 (Z.sgn z) 53); cbn [Fnum Fexp].
    + unfold F2R; cbn [Fnum Fexp]. rewrite <- (IZR_Zpower radix2 53) by lia.
      rewrite <- mult_IZR. f_equal. change (Zpower radix2 53) with (2 ^ 53)%Z.
      rewrite <- E. lia.
    + destruct z; simpl; lia.
    + lia.
  - exists (Float radix2 z 0); simpl.
    + unfold F2R; simpl; ring.
    + lia.
    + lia.
Qed.

Lemma rnd_IZR : forall z, (Z.abs z <= 2 ^ 53)%Z -> rnd (IZR z) = IZR z.
Proof. intros. unfold rnd. apply round_generic. apply valid_rnd_N. now apply IZR_format. Qed.

Lemma no_overflow_small : forall x, Rabs x <= bpow radix2 1023 -> no_overflow x.
Proof.
  intros x Hx. unfold no_overflow, rnd.
  apply Rle_lt_trans with (bpow radix2 1023).
  - apply abs_round_le_generic; [apply valid_exp_f64|apply valid_rnd_N| |exact Hx].
    apply generic_format_bpow. unfold FLT_exp. lia.
  - apply bpow_lt; lia.
Qed.

Lemma abs_IZR_bound : forall z, (Z.abs z <= 2 ^ 53)%Z -> Rabs (IZR z) <= bpow radix2 1023.
Proof.
  intros z Hz. rewrite <- abs_IZR. apply Rle_trans with (IZR (2 ^ 53)).
  - now apply IZR_le.
  - rewrite <- (IZR_Zpower radix2 1023) by lia. apply IZR_le.
    apply Z.pow_le_mono_r; [reflexivity|lia].
Qed.

Lemma ofZ_exact : forall z, (Z.abs z <= 2 ^ 53)%Z ->
  ffin (f64_of_Z z) /\ fval (f64_of_Z z) = IZR z.
Proof.
  intros z Hz. destruct (ofZ_correct z) as [H1 H2].
  - apply no_overflow_small. now apply abs_IZR_bound.
  - split; [exact H1|]. rewrite H2. now apply rnd_IZR.
Qed.

Lemma lit_int_exact : forall m, (Z.abs m <= 2 ^ 53)%Z ->
  ffin (f64_lit m 0) /\ fval (f64_lit m 0) = IZR m.
Proof. intros m Hm. rewrite lit_nonneg_eq by lia. rewrite Z.mul_1_r. now apply ofZ_exact. Qed.

Lemma half_exact : ffin (f64_lit 5 (-1)) /\ fval (f64_lit 5 (-1)) = / 2.
Proof.
  assert (E : IZR 5 / IZR (10 ^ (- -1)) = / 2) by (simpl; lra).
  assert (G : rnd (/ 2) = / 2).
  { unfold rnd. apply round_generic. apply valid_rnd_N.
    apply generic_format_FLT. exists (Float radix2 1 (-1)); simpl; try lia.
    unfold F2R; simpl. lra. }
  destruct (lit_neg_correct 5 (-1)) as [H1 H2]; [lia| |].
  - rewrite E. apply no_overflow_small. rewrite Rabs_pos_eq by lra.
    apply Rle_trans with (bpow radix2 0); [simpl; lra|]. apply bpow_le; lia.
  - split; [exact H1|]. rewrite H2, E. exact G.
Qed.
Lemma neg_half_exact : ffin (f64_lit (-5) (-1)) /\ fval (f64_lit (-5) (-1)) = - / 2.
Proof.
  assert (E : IZR (-5) / IZR (10 ^ (- -1)) = - / 2) by (simpl; lra).
  assert (G : rnd (- / 2) = - / 2).
  { unfold rnd. apply round_generic. apply valid_rnd_N.
    apply generic_format_FLT. exists (Float radix2 (-1) (-1)); simpl; try lia.
    unfold F2R; simpl. lra. }
  destruct (lit_neg_correct (-5) (-1)) as [H1 H2]; [lia| |].
  - rewrite E. apply no_overflow_small. rewrite Rabs_Ropp, Rabs_pos_eq by lra.
    apply Rle_trans with (bpow radix2 0); [simpl; lra|]. apply bpow_le; lia.
  - split; [exact H1|]. rewrite H2, E. exact G.
Qed.
