(** A math library whose cosine falls between 0 and pi. *)
From Coq Require Import Reals ZArith List Lra Lia.
From Flocq Require Import Core IEEE754.Binary.
From Verif Require Import Arith F64 F64Spec F64Proof RoundSpec RoundProof RoundNC RoundRules TrigSpec TrigEx SepSpec KeyOrder.
Import ListNotations.
Local Open Scope R_scope.

Lemma nearest_sign : forall x, Rabs x <= 1 -> Bsign 53 1024 (nearest x) = match Rcompare (rnd x) 0 with Lt => true | _ => false end.
Proof.
  intros x Hx. unfold nearest.
  pose proof (binary_normalize_correct 53 1024 prec53 prec53_emax BinarySingleNaN.mode_NE (ZnearestE (scaled_mantissa radix2 (FLT_exp (-1074) 53) x)) (cexp radix2 (FLT_exp (-1074) 53) x) false) as H.
  change (F2R (Float radix2 (ZnearestE (scaled_mantissa radix2 (FLT_exp (-1074) 53) x)) (cexp radix2 (FLT_exp (-1074) 53) x))) with (rnd x) in H.
  change (round radix2 (SpecFloat.fexp 53 1024) (BinarySingleNaN.round_mode BinarySingleNaN.mode_NE) (rnd x)) with (rnd (rnd x)) in H.
  assert (E : rnd (rnd x) = rnd x) by (apply rnd_fmt, rnd_format).
  rewrite E in H. rewrite Rlt_bool_true in H.
  - destruct H as (_ & _ & H). rewrite H. destruct (Rcompare (rnd x) 0); reflexivity.
  - change (no_overflow x). apply no_overflow_small. eapply Rle_trans; [exact Hx|]. change 1 with (bpow radix2 0). apply bpow_le. lia.
Qed.
Lemma nearest_mono : forall x y, Rabs x <= 1 -> Rabs y <= 1 -> x <= y -> f64_total_cmp (nearest x) (nearest y) <> Gt.
Proof.
  intros x y Hx Hy H. destruct (nearest_ok x Hx) as [F1 E1]. destruct (nearest_ok y Hy) as [F2 E2].
  assert (M : rnd x <= rnd y) by (apply round_le; [apply FLT_exp_valid; reflexivity|apply valid_rnd_N|exact H]).
  destruct (Rle_lt_or_eq_dec _ _ M) as [L|L].
  - rewrite total_cmp_lt; [discriminate|assumption|assumption|]. rewrite E1, E2. exact L.
  - assert (Q : nearest x = nearest y).
    { apply B2R_Bsign_inj; [exact F1|exact F2| |].
      - change (fval (nearest x) = fval (nearest y)). rewrite E1, E2. exact L.
      - rewrite !nearest_sign, L by assumption. reflexivity. }
    rewrite Q. unfold f64_total_cmp. rewrite Z.compare_refl. discriminate.
Qed.
Lemma correct_falling : falling_cos correct_library.
Proof.
  intros x y _ _ H HP. cbn [be_cos correct_library]. apply nearest_mono; [apply Rabs_le; apply COS_bound|apply Rabs_le; apply COS_bound|].
  apply cos_decr_1; lra.
Qed.
