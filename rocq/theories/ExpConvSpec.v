(** Vocabulary of the convergence theorems for integrands of exponential growth. *)
From Coq Require Import Reals.
Local Open Scope R_scope.

(** f grows at most like exp(c |x|) on the domain D. *)
Definition exponential_growth (D : R -> Prop) (c : R) (f : R -> R) : Prop :=
  exists C, forall x, D x -> Rabs (f x) <= C * exp (c * Rabs x).
(** f grows at most like exp(c x^2) on the real line. *)
Definition gaussian_growth (c : R) (f : R -> R) : Prop :=
  exists C, forall x, Rabs (f x) <= C * exp (c * (x * x)).
