(** Vocabulary for the gamma function in double arithmetic. *)
From Coq Require Import Reals ZArith.
From Flocq Require Import Core IEEE754.Binary.
From Verif Require Import Arith F64 F64Spec.
Local Open Scope R_scope.

(** The library's sine has the relative error [kappa] between -4 and 4, apart from underflow, and its
    power function has it wherever the power of a positive number is between 2^-1000 and 2^1023.
    A library that rounds correctly has kappa = 2^-53. A bound on kappa is part of the definition. *)
Definition accurate_math (be : Backend) (kappa : R) : Prop :=
  0 <= kappa <= 1 / 10 ^ 6 /\
  (forall x : f64, ffin x -> Rabs (fval x) <= 4 -> ffin (be_sin be x) /\ Rabs (fval (be_sin be x) - sin (fval x)) <= kappa * Rabs (sin (fval x)) + bpow radix2 (-1075)) /\
  (forall x y : f64, ffin x -> ffin y -> 0 < fval x -> bpow radix2 (-1000) <= Rpower (fval x) (fval y) <= bpow radix2 1023 ->
    ffin (be_pow be x y) /\ Rabs (fval (be_pow be x y) - Rpower (fval x) (fval y)) <= kappa * Rpower (fval x) (fval y)).
(** Powers of at least 2^1024 are reported as infinity. *)
Definition pow_overflows (be : Backend) : Prop :=
  forall x y : f64, ffin x -> ffin y -> 0 < fval x -> bpow radix2 1024 <= Rpower (fval x) (fval y) -> be_pow be x y = B754_infinity 53 1024 false.
