(** Zeros among the doubles and bounded integrands. *)
From Coq Require Import Reals ZArith List.
From Flocq Require Import Core.
From Verif Require Import Arith F64 F64Spec.
Local Open Scope R_scope.

(** +0.0 or -0.0 *)
Definition is_zero (x : f64) : Prop := ffin x /\ fval x = 0.
(** A finite double of absolute value at most 2^960. *)
Definition moderate (x : f64) : Prop := ffin x /\ Rabs (fval x) <= bpow radix2 960.
