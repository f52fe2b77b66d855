(** IEEE equality of doubles. *)
From Coq Require Import Reals ZArith List.
From Flocq Require Import Core IEEE754.Binary.
From Verif Require Import Arith F64 F64Spec.
Local Open Scope R_scope.

(** Equal as numbers: +0.0 equals -0.0, NaN equals nothing. *)
Definition ieee_equal (x y : f64) : Prop :=
  (ffin x /\ ffin y /\ fval x = fval y) \/
  (exists s, x = B754_infinity 53 1024 s /\ y = B754_infinity 53 1024 s).
