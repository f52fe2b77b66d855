(** Specification vocabulary: convex and monotone functions on an interval. *)
From Coq Require Import Reals.
Local Open Scope R_scope.

Definition convex_on (a b : R) (f : R -> R) : Prop :=
  forall x y t, a <= x <= b -> a <= y <= b -> 0 <= t <= 1 ->
  f (t * x + (1 - t) * y) <= t * f x + (1 - t) * f y.
Definition increasing_on (a b : R) (f : R -> R) : Prop :=
  forall x y, a <= x -> x <= y -> y <= b -> f x <= f y.
Definition decreasing_on (a b : R) (f : R -> R) : Prop :=
  forall x y, a <= x -> x <= y -> y <= b -> f y <= f x.
