(** The weighted integrals the Gauss-Chebyshev rules approximate. *)
From Coq Require Import Reals.
From Coquelicot Require Import Coquelicot.
Local Open Scope R_scope.

(** integral over (-1, 1) of f(x) / sqrt (1 - x^2) *)
Definition chebyshev1_integral (f : R -> R) (v : R) : Prop :=
  is_RInt_gen (fun x => f x / sqrt (1 - x * x)) (at_right (-1)) (at_left 1) v.
(** integral over [-1, 1] of f(x) sqrt (1 - x^2) *)
Definition chebyshev2_integral (f : R -> R) (v : R) : Prop :=
  is_RInt (fun x => f x * sqrt (1 - x * x)) (-1) 1 v.
