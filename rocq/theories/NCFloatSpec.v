(** Vocabulary for the Newton-Cotes rules in double arithmetic. *)
From Coq Require Import Reals ZArith List.
From Flocq Require Import Core.
From Verif Require Import Arith F64 F64Spec NCSpec InsideSpec.
Local Open Scope R_scope.

(** The doubles [a], [b] and the degree [n]: an interval without overflow and underflow. *)
Definition plain_interval (n : Z) (a b : f64) : Prop :=
  (1 <= n < 2 ^ 32)%Z /\ ffin a /\ ffin b /\ Rabs (fval b - fval a) <= bpow radix2 1022 /\ wide n (fval a) (fval b).
(** [g] computes [G] up to the error [e] at the doubles between [a] and [b]; there [G] is bounded
    by [B] and has the Lipschitz constant [L]. *)
Definition computes (g : f64 -> f64) (G : R -> R) (a b : f64) (e L B : R) : Prop :=
  0 <= L /\
  (forall x, inside a b x -> Rabs (fval (g x) - G (fval x)) <= e) /\
  (forall x y, between (fval a) (fval b) x -> between (fval a) (fval b) y -> Rabs (G x - G y) <= L * Rabs (x - y)) /\
  (forall x, between (fval a) (fval b) x -> Rabs (G x) <= B).
(** Errors of the evaluation of the integrand, of the computed points, of the sum, and underflow. *)
Definition float_excess (n : Z) (a b e L B : R) : R :=
  Rabs (b - a) * (e + L * (bpow radix2 (-50) * (Rabs a + Rabs b))) +
  (IZR n + 8) * bpow radix2 (-52) * (Rabs (b - a) * (B + e)) + (1 + Rabs (b - a)) * bpow radix2 (-1074).
