(** Integrands with geometrically decreasing expansions. *)
From Coq Require Import Reals.
From Coquelicot Require Import Coquelicot.
From Verif Require Import PolySpec ErrorSpec.
Local Open Scope R_scope.

(** On the interval with end points a and b, f is the sum of polynomials p k of degree at most k
    with |p k| <= C rho^k there. *)
Definition geometric_expansion (a b : R) (f : R -> R) (C rho : R) : Prop :=
  exists p : nat -> R -> R, (forall k, polynomial k (p k)) /\
  (forall k x, closed_between a b x -> Rabs (p k x) <= C * rho ^ k) /\
  (forall x, closed_between a b x -> is_series (fun k => p k x) (f x)).
