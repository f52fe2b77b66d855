(** An odd integrand over [-1, 1] whose computed integral is not zero. *)
From Coq Require Import Reals ZArith List Lra Lia Bool.
From Flocq Require Import Core IEEE754.Binary.
From Verif Require Import Arith F64 F64Spec F64Proof Machine Rules NewtonCotes IntegrateSpec NestSpec ExcSpec OrderSpec ScaleEx ParSpec.
Import ListNotations.
Local Open Scope R_scope.

Section Float.
Variable be : Backend.
Notation A := (F64 be).
Definition minus_one : A := nofZ (-1). Definition big : A := nofZ (2 ^ 53). Definition minus_big : A := nofZ (- 2 ^ 53).
Definition half : A := B754_finite 53 1024 false 4503599627370496 (-53) eq_refl.
Definition minus_half : A := B754_finite 53 1024 true 4503599627370496 (-53) eq_refl.
(** 2^53 on (0, 1/2), 1 from 1/2 on, and odd *)
Definition steps (x : A) : A :=
  if nlt (zero be) x then (if nlt x half then big else one be)
  else if nlt x (zero be) then (if nlt minus_half x then minus_big else minus_one) else zero be.
Lemma opp_ofZ : forall z, (Z.abs z <= 2 ^ 53)%Z -> opposite (nofZ z : A) (nofZ (- z) : A).
Proof.
  intros z Hz. right. right. destruct (ofZ_exact z Hz) as [F E]. destruct (ofZ_exact (- z)) as [F' E']; [lia|].
  split; [exact F|]. split; [exact F'|]. transitivity (IZR (- z)); [exact E'|]. rewrite opp_IZR. f_equal. symmetry. exact E.
Qed.
Lemma opp_zero : opposite (zero be) (zero be). Proof. exact (opp_ofZ 0 ltac:(lia)). Qed.
Lemma lt_iff : forall x y : A, ffin x -> ffin y -> nlt x y = if Rlt_dec (fval x) (fval y) then true else false.
Proof. intros x y Hx Hy. assert (L := lt_finite be x y Hx Hy). destruct (Rlt_dec (fval x) (fval y)); destruct (nlt x y); intuition congruence. Qed.
Lemma half_val : fval half = / 2 /\ fval minus_half = - / 2.
Proof. unfold fval, half, minus_half, B2R, F2R. cbn [Fnum Fexp cond_Zopp]. change (bpow radix2 (-53)) with (/ IZR (2 ^ 53)). change (2 ^ 53)%Z with 9007199254740992%Z. split; simpl; lra. Qed.
Lemma steps_odd : odd_double steps.
Proof.
  destruct (zero_val be) as [F0 E0]. destruct half_val as [H1 H2].
  intros x y [[Nx Ny]|[(s & -> & ->)|(Fx & Fy & E)]].
  - assert (Z : forall v : A, fnan v -> steps v = zero be) by (intros v Nv; destruct v; try discriminate Nv; reflexivity). rewrite !Z by assumption. exact opp_zero.
  - destruct s; [exact (opp_ofZ (-1) ltac:(lia))|exact (opp_ofZ 1 ltac:(lia))].
  - unfold steps. rewrite !lt_iff by (assumption || reflexivity). rewrite E, E0, H1, H2.
    repeat match goal with |- context [Rlt_dec ?u ?v] => destruct (Rlt_dec u v); try lra end;
      first [exact opp_zero|exact (opp_ofZ 1 ltac:(lia))|exact (opp_ofZ (-1) ltac:(lia))|exact (opp_ofZ (2 ^ 53) ltac:(lia))|exact (opp_ofZ (- 2 ^ 53) ltac:(lia))].
Qed.
Definition four_cells : quadrature A := QMidpoint 4 minus_one (one be).
Lemma not_zero : usable four_cells /\ odd_double steps /\ value four_cells steps = half.
Proof. split; [simpl; lia|]. split; [exact steps_odd|]. apply same_double. vm_compute. reflexivity. Qed.
End Float.
Lemma rounding_limit : forall be : Backend, exists f : F64 be -> F64 be, odd_double f /\
  fval (value (QMidpoint (A := F64 be) 4 (nofZ (-1)) (nofZ 1)) f) = / 2.
Proof.
  intros be. exists (steps be). destruct (not_zero be) as (_ & O & E). split; [exact O|]. unfold four_cells in E. change (nofZ (-1)) with (minus_one be). change (nofZ 1) with (one be).
  rewrite E. apply half_val.
Qed.
