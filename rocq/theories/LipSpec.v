(** Vocabulary for integrands of which only a bound on the slope is known. *)
From Coq Require Import Reals.
Local Open Scope R_scope.

(** Between [a] and [b] (in this order) the values of [f] differ by at most [K] times the distance. *)
Definition lipschitz_on (a b K : R) (f : R -> R) : Prop :=
  forall x y, a <= x <= b -> a <= y <= b -> Rabs (f x - f y) <= K * Rabs (x - y).
