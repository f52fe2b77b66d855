(** Vocabulary for rules built in double arithmetic with an accurate math library. *)
From Coq Require Import Reals ZArith List.
From Flocq Require Import Core.
From Verif Require Import Arith F64 F64Spec RoundSpec.
Import ListNotations.
Local Open Scope R_scope.

(** The library's sine and cosine have the relative error [kappa] between 0 and 4, apart from
    underflow. A library that rounds correctly has kappa = 2^-53. A bound on
    kappa is part of the definition. *)
Definition accurate_trig (be : Backend) (kappa : R) : Prop :=
  0 <= kappa <= 1 / 10 ^ 6 /\
  forall x : f64, ffin x -> 0 <= fval x <= 4 ->
    (ffin (be_cos be x) /\ Rabs (fval (be_cos be x) - cos (fval x)) <= kappa * Rabs (cos (fval x)) + bpow radix2 (-1075)) /\
    (ffin (be_sin be x) /\ Rabs (fval (be_sin be x) - sin (fval x)) <= kappa * Rabs (sin (fval x)) + bpow radix2 (-1075)).
(** The nodes and weights of the first list are finite and within [dx] and [dw] of those of the second. *)
Definition close_pairs (dx dw : R) (ps : list (f64 * f64)) (qs : list (R * R)) : Prop :=
  Forall2 (fun p q => (ffin (fst p) /\ Rabs (fval (fst p) - fst q) <= dx) /\ (ffin (snd p) /\ Rabs (fval (snd p) - snd q) <= dw)) ps qs.

(** How far a computed point of an interval rule can be from the exact one. *)
Definition reach (a b dx : R) : R := Rabs (b - a) / 2 * dx + bpow radix2 (-51) * (Rabs a + Rabs b) + bpow radix2 (-1074).
(** [g] computes [G] up to the error [e] at the doubles between [lo] and [hi]; there [G] is bounded
    by [B] and has the Lipschitz constant [L]. *)
Definition computes_on (g : f64 -> f64) (G : R -> R) (lo hi e L B : R) : Prop :=
  0 <= L /\
  (forall x, ffin x -> lo <= fval x <= hi -> Rabs (fval (g x) - G (fval x)) <= e) /\
  (forall x y, lo <= x <= hi -> lo <= y <= hi -> Rabs (G x - G y) <= L * Rabs (x - y)) /\
  (forall x, lo <= x <= hi -> Rabs (G x) <= B).
(** ... between [a] and [b] and a little beyond *)
Definition computes_near (g : f64 -> f64) (G : R -> R) (a b dx e L B : R) : Prop :=
  computes_on g G (Rmin a b - reach a b dx) (Rmax a b + reach a b dx) e L B.
(** Errors of the evaluation of the integrand, of the points, of the weights, of the sum, and
    underflow, for [n] points, weights whose absolute values sum up to [W], and errors [dx] and [dw]
    of the nodes and weights. *)
Definition gauss_excess (n a b W dx dw e L B : R) : R :=
  Rabs (b - a) / 2 * (W * (e + L * reach a b dx) + n * dw * (B + e)) +
  (n + 4) * bpow radix2 (-52) * (Rabs (b - a) / 2 * ((W + n * dw) * (B + e))) +
  (1 + n * Rabs (b - a) + (W + n * dw) * (B + e)) * bpow radix2 (-1073).
(** Finite bounds, not too close to the largest double. *)
Definition usable (a b : f64) : Prop := ffin a /\ ffin b /\ Rabs (fval a) <= bpow radix2 1000 /\ Rabs (fval b) <= bpow radix2 1000.
