(** Vocabulary for where the integrand is evaluated in double arithmetic. *)
From Coq Require Import Reals ZArith List.
From Flocq Require Import Core.
From Verif Require Import Arith F64 F64Spec NCSpec.
Local Open Scope R_scope.

(** A finite double in the closed interval with the end points [a] and [b]. *)
Definition inside (a b x : f64) : Prop := ffin x /\ between (fval a) (fval b) (fval x).
(** The subintervals are not subnormal, or the interval is a single point. *)
Definition wide (n : Z) (a b : R) : Prop := a = b \/ bpow radix2 (-1022) <= Rabs (b - a) / IZR n.
(** The node is further from -1 and 1 than the rounding errors, relative to the interval. *)
Definition clear (a b x : R) : Prop := bpow radix2 (-51) * (Rabs a + Rabs b) + bpow radix2 (-1075) <= (1 - Rabs x) * Rabs (b - a).
Definition clear_nodes (a b : f64) (l : list (f64 * f64)) : Prop :=
  Forall (fun xw => ffin (fst xw) /\ clear (fval a) (fval b) (fval (fst xw))) l.
