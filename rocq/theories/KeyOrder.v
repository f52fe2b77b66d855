(** f64::total_cmp agrees with the order of the values. *)
From Coq Require Import Reals ZArith Lia Lra Bool.
From Flocq Require Import Core IEEE754.Binary IEEE754.Bits.
From Verif Require Import Arith F64 F64Spec.
Local Open Scope Z_scope.

(** sign and magnitude of the bit pattern of a finite double *)
Definition magnitude (x : f64) : Z :=
  match x with B754_finite _ _ _ m e _ => (e + 1074) * 2 ^ 52 + Zpos m | _ => 0 end.
Lemma bits_split : forall x : f64, ffin x -> bits_of_b64 x = (if Bsign 53 1024 x then 2 ^ 63 else 0) + magnitude x /\ 0 <= magnitude x < 2 ^ 63.
Proof.
  intros x F. destruct x as [s|s|s p H|s m e H]; try discriminate.
  - destruct s; cbn; split; lia.
  - assert (B := H). unfold SpecFloat.bounded in B. apply andb_true_iff in B. destruct B as [B1 B2]. apply Zle_bool_imp_le in B2.
    unfold SpecFloat.canonical_mantissa in B1. apply Zeq_bool_eq in B1. unfold SpecFloat.fexp, SpecFloat.emin in B1.
    assert (D : Zpos (SpecFloat.digits2_pos m) = Zdigits radix2 (Zpos m)) by apply Zpos_digits2_pos. rewrite D in B1.
    assert (Q1 := Zdigits_correct radix2 (Zpos m)). set (d := Zdigits radix2 (Z.pos m)) in *. rewrite Z.abs_eq in Q1 by lia. change (Z.pow_pos 2) with (fun p => 2 ^ Zpos p) in *.
    assert (HE : -1074 <= e <= 971) by lia. assert (M1 : Zpos m < 2 ^ 53).
    { apply Z.lt_le_trans with (2 ^ d); [apply Q1|]. apply Z.pow_le_mono_r; lia. }
    assert (M2 : -1074 < e -> 2 ^ 52 <= Zpos m). { intros G. assert (d = 53) by lia. replace 52 with (d - 1) by lia. apply Q1. }
    change (2 ^ 53) with 9007199254740992 in *. change (2 ^ 52) with 4503599627370496 in *.
    unfold bits_of_b64, bits_of_binary_float, join_bits. cbn [Bsign magnitude]. rewrite !Z.shiftl_mul_pow2 by lia.
    change (2 ^ 52) with 4503599627370496. change (2 ^ 11) with 2048. change (2 ^ 63) with 9223372036854775808. change (SpecFloat.emin (52 + 1) (2 ^ (11 - 1))) with (-1074).
    destruct (Z.leb_spec 0 (Z.pos m - 4503599627370496)); destruct s; split; try lia.
Qed.
Lemma key_value : forall x : f64, ffin x -> f64_key x = if Bsign 53 1024 x then -1 - magnitude x else magnitude x.
Proof.
  intros x F. destruct (bits_split x F) as [E B]. unfold f64_key. rewrite E. destruct (Bsign 53 1024 x).
  - destruct (Z.leb_spec (2 ^ 63) (2 ^ 63 + magnitude x)); lia.
  - destruct (Z.leb_spec (2 ^ 63) (0 + magnitude x)); lia.
Qed.
Lemma mag_lt : forall m e m' e', -1074 <= e -> -1074 <= e' -> Zpos m < 2 ^ 53 -> Zpos m' < 2 ^ 53 -> (-1074 < e -> 2 ^ 52 <= Zpos m) -> (-1074 < e' -> 2 ^ 52 <= Zpos m') ->
  (F2R (Float radix2 (Zpos m) e) < F2R (Float radix2 (Zpos m') e'))%R -> (e + 1074) * 2 ^ 52 + Zpos m < (e' + 1074) * 2 ^ 52 + Zpos m'.
Proof.
  intros m e m' e' E E' M M' N N' H. unfold F2R in H. cbn [Fnum Fexp] in H.
  destruct (Z.lt_trichotomy e e') as [G|[G|G]].
  - specialize (N' ltac:(lia)). assert (e + 1 <= e') by lia. nia.
  - subst e'. apply Rmult_lt_reg_r in H; [|apply bpow_gt_0]. apply lt_IZR in H. lia.
  - exfalso. specialize (N ltac:(lia)). apply (Rlt_irrefl (IZR (Z.pos m') * bpow radix2 e')). eapply Rle_lt_trans; [|exact H].
    apply Rle_trans with (IZR (2 ^ 53) * bpow radix2 e')%R; [apply Rmult_le_compat_r; [apply bpow_ge_0|apply IZR_le; lia]|].
    apply Rle_trans with (IZR (2 ^ 52) * bpow radix2 e)%R; [|apply Rmult_le_compat_r; [apply bpow_ge_0|apply IZR_le; lia]].
    change (IZR (2 ^ 53)) with (bpow radix2 53). change (IZR (2 ^ 52)) with (bpow radix2 52). rewrite <- !bpow_plus. apply bpow_le. lia.
Qed.
Lemma fin_shape : forall (s : bool) m e (H : SpecFloat.bounded 53 1024 m e = true), -1074 <= e /\ Zpos m < 2 ^ 53 /\ (-1074 < e -> 2 ^ 52 <= Zpos m).
Proof.
  intros s m e H. assert (B := H). unfold SpecFloat.bounded in B. apply andb_true_iff in B. destruct B as [B1 B2]. apply Zle_bool_imp_le in B2.
  unfold SpecFloat.canonical_mantissa in B1. apply Zeq_bool_eq in B1. unfold SpecFloat.fexp, SpecFloat.emin in B1.
  assert (D : Zpos (SpecFloat.digits2_pos m) = Zdigits radix2 (Zpos m)) by apply Zpos_digits2_pos. rewrite D in B1.
  assert (Q1 := Zdigits_correct radix2 (Zpos m)). set (d := Zdigits radix2 (Z.pos m)) in *. rewrite Z.abs_eq in Q1 by lia.
  split; [lia|]. split.
  - apply Z.lt_le_trans with (2 ^ d); [apply Q1|]. apply Z.pow_le_mono_r; lia.
  - intros G. assert (d = 53) by lia. replace 52 with (d - 1) by lia. apply Q1.
Qed.
Lemma key_lt : forall x y : f64, ffin x -> ffin y -> (fval x < fval y)%R -> f64_key x < f64_key y.
Proof.
  intros x y Fx Fy H. rewrite (key_value x Fx), (key_value y Fy). destruct (bits_split x Fx) as [_ Bx]. destruct (bits_split y Fy) as [_ By].
  destruct x as [s|s|s p Hp|s m e Hx]; try discriminate; destruct y as [s'|s'|s' p' Hp'|s' m' e' Hy]; try discriminate; cbn [Bsign magnitude] in *; unfold fval in H; cbn [B2R] in H.
  - exfalso. lra.
  - destruct (fin_shape s' m' e' Hy) as (A1' & A2' & A3'). destruct s'; [exfalso|destruct s; lia]. cbn [cond_Zopp] in H. assert (Q : (F2R (Float radix2 (Z.neg m') e') < 0)%R) by (apply F2R_lt_0; reflexivity). change (- Z.pos m') with (Z.neg m') in H. lra.
  - destruct (fin_shape s m e Hx) as (A1 & A2 & A3). destruct s; [destruct s'; lia|exfalso]. cbn [cond_Zopp] in H. assert (Q : (0 < F2R (Float radix2 (Z.pos m) e))%R) by (apply F2R_gt_0; reflexivity). lra.
  - destruct (fin_shape s m e Hx) as (A1 & A2 & A3). destruct (fin_shape s' m' e' Hy) as (A1' & A2' & A3'). destruct s, s'; cbn [cond_Zopp] in H.
    + change (Z.neg m) with (- Z.pos m) in H. change (Z.neg m') with (- Z.pos m') in H. rewrite !F2R_Zopp in H. assert (G := mag_lt m' e' m e A1' A1 A2' A2 A3' A3 ltac:(lra)). lia.
    + lia.
    + exfalso. assert (Q : (0 < F2R (Float radix2 (Z.pos m) e))%R) by (apply F2R_gt_0; reflexivity). assert (Q2 : (F2R (Float radix2 (Z.neg m') e') < 0)%R) by (apply F2R_lt_0; reflexivity). change (- Z.pos m') with (Z.neg m') in H. lra.
    + exact (mag_lt m e m' e' A1 A1' A2 A2' A3 A3' H).
Qed.
Lemma total_cmp_lt : forall x y : f64, ffin x -> ffin y -> (fval x < fval y)%R -> f64_total_cmp x y = Lt.
Proof. intros x y Fx Fy H. unfold f64_total_cmp. apply Z.compare_lt_iff. apply key_lt; assumption. Qed.
Lemma total_cmp_le : forall x y : f64, ffin x -> ffin y -> f64_total_cmp x y <> Gt -> (fval x <= fval y)%R.
Proof. intros x y Fx Fy H. destruct (Rle_or_lt (fval x) (fval y)) as [G|G]; [exact G|]. exfalso. apply H. unfold f64_total_cmp. apply Z.compare_gt_iff. apply key_lt; assumption. Qed.
