(** Odd functions. *)
From Coq Require Import Reals.
From Verif Require Import Arith F64 F64Spec OrderSpec.
Local Open Scope R_scope.

(** the graph of [f] is mapped to itself by half a turn around (m, 0) *)
Definition odd_about (m : R) (f : R -> R) : Prop := forall x, f (2 * m - x) = - f x.
(** the same for functions of doubles, around 0 *)
Definition odd_double (f : f64 -> f64) : Prop := forall x y, opposite x y -> opposite (f x) (f y).
