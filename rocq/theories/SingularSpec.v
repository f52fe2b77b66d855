(** Integrands with singular end points. *)
From Coq Require Import Reals.
From Coquelicot Require Import Coquelicot.
Local Open Scope R_scope.

(** f is continuous inside (a,b) and grows at most like (b-x)^-c towards b and (x-a)^-d towards a. *)
Definition singular_ends (a b c d : R) (f : R -> R) : Prop :=
  (forall x, a < x < b -> continuous f x) /\
  exists C, forall x, a < x < b -> Rabs (f x) <= C * (Rpower (b - x) (- c) + Rpower (x - a) (- d)).
