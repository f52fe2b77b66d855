(** Order and sign of doubles, NaN included. *)
From Coq Require Import Reals ZArith List.
From Flocq Require Import IEEE754.Binary.
From Verif Require Import Arith F64 F64Spec NewtonCotes NestSpec ExcSpec SignSpec.
Import ListNotations.
Local Open Scope R_scope.

(** Each is the negative of the other: both NaN, infinities of opposite signs, or finite with opposite
    values (so +0.0 and -0.0 count as equal, as they do for ==). *)
Definition opposite (x y : f64) : Prop :=
  fnan x /\ fnan y \/ (exists s, x = B754_infinity 53 1024 s /\ y = B754_infinity 53 1024 (negb s)) \/
  ffin x /\ ffin y /\ fval y = - fval x.
(** Not [y < x], i.e. x <= y unless one of them is NaN. *)
Definition not_above {be : Backend} (x y : F64 be) : Prop := nlt y x = false.

(** The integral runs forward: not b < a, no negative weight; the degree of a Newton-Cotes rule is a NonZeroU32. *)
Definition forward {be : Backend} (q : quadrature (F64 be)) : Prop :=
  match q with QMidpoint n _ _ | QTrapezoid n _ _ | QSimpson n _ _ => nonzero_u32 n | _ => True end /\
  match bounds q with [a; b] => nlt b a = false | _ => True end /\
  Forall not_negative (weights q).
(** The negative of a double; [n] chooses the NaN that the negative of a NaN is. *)
Definition negate (n : f64 -> nan64) (x : f64) : f64 := Bopp 53 1024 n x.
