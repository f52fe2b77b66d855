(** Vocabulary of the convergence theorems on unbounded domains. *)
From Coq Require Import Reals.
Local Open Scope R_scope.

(** f is continuous on [0, infinity); its values at negative arguments do not matter. *)
Definition continuous_half (f : R -> R) : Prop :=
  forall x, 0 <= x -> forall eps, 0 < eps ->
  exists delta, 0 < delta /\ forall y, 0 <= y -> Rabs (y - x) < delta -> Rabs (f y - f x) < eps.
(** f grows at most like a polynomial on the domain D. *)
Definition polynomial_growth (D : R -> Prop) (f : R -> R) : Prop :=
  exists C k, forall x, D x -> Rabs (f x) <= C * (1 + Rabs x ^ k).
