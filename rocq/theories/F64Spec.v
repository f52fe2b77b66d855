(** Vocabulary for statements about doubles: the real number a finite double
    denotes, and IEEE-754 rounding to nearest-even. *)
From Coq Require Import Reals ZArith.
From Flocq Require Import Core IEEE754.Binary.
From Verif Require Import F64.
Local Open Scope R_scope.

(** The real value of a finite double (0 for infinities and NaN). *)
Definition fval (x : f64) : R := B2R 53 1024 x.
(** Not NaN and not infinite. *)
Definition ffin (x : f64) : Prop := is_finite 53 1024 x = true.
Definition fnan (x : f64) : Prop := is_nan 53 1024 x = true.
(** Round to nearest, ties to even, in the format with 53 bits of precision
    and smallest positive number 2^-1074, exponent range unbounded above. *)
Definition rnd (x : R) : R := round radix2 (FLT_exp (-1074) 53) ZnearestE x.
(** Rounding overflows to an infinity from 2^1024 on. *)
Definition no_overflow (x : R) : Prop := Rabs (rnd x) < bpow radix2 1024.

(** The values that [FiniteAboveNegOneF64] is documented to contain. *)
Definition admissible (x : f64) : Prop := ffin x /\ -1 < fval x.
