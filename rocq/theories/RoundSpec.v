(** Vocabulary for rounding error bounds. *)
From Coq Require Import Reals List.
From Flocq Require Import Core.
From Verif Require Import F64 F64Spec RSum.
Import ListNotations.
Local Open Scope R_scope.

(** Half the distance from 1 to the next double, 2^-53, and half the smallest positive double, 2^-1075. *)
Definition uro : R := bpow radix2 (-53).
Definition eta : R := bpow radix2 (-1075).

(** The exact sum of the products of two lists of doubles, and of their absolute values. *)
Definition exact_sum (vs ws : list f64) : R := lsum (map (fun vw => fval (fst vw) * fval (snd vw)) (combine vs ws)).
Definition abs_sum (vs ws : list f64) : R := lsum (map (fun vw => Rabs (fval (fst vw) * fval (snd vw))) (combine vs ws)).

(** The error bound for n products summed up in any order: ((1+u)^n - 1) * S for the rounding errors,
    where S is the sum of the absolute values, and n (1+u)^n eta for underflow of the products. *)
Definition sum_bound (n : nat) (S : R) : R := ((1 + uro) ^ n - 1) * S + INR n * (1 + uro) ^ n * eta.
(** ... and after a further multiplication by h. *)
Definition scaled_bound (n : nat) (h S : R) : R :=
  ((1 + uro) ^ (n + 1) - 1) * (Rabs h * S) + (Rabs h * INR n * (1 + uro) ^ (n + 1) + 1) * eta.

(** The sum of the values of a list of doubles, and of their absolute values. *)
Definition total (vs : list f64) : R := lsum (map fval vs).
Definition abs_total (vs : list f64) : R := lsum (map (fun v => Rabs (fval v)) vs).
(** A factor times a sum: m roundings and k underflows before the last multiplication. *)
Definition rule_bound (m : nat) (k h S : R) : R :=
  ((1 + uro) ^ m - 1) * (Rabs h * S) + (Rabs h * k + 1) * eta.
