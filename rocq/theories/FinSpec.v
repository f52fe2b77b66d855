(** Vocabulary for finite results: integrand values and weights of moderate size. *)
From Coq Require Import Reals ZArith List.
From Flocq Require Import Core.
From Verif Require Import F64 F64Spec RoundSpec TrigSpec.
Import ListNotations.
Local Open Scope R_scope.

(** At most 2^40 finite values and weights; the sum of the absolute values of their products is at most 2^1000. *)
Definition moderate (vs ws : list f64) : Prop :=
  INR (length vs) <= 2 ^ 40 /\ Forall ffin vs /\ Forall ffin ws /\ abs_sum vs ws <= bpow radix2 1000.
(** Bounds of integration of at most 2^1000 with room for a sum of the size [S]. *)
Definition room (a b : f64) (S : R) : Prop := usable a b /\ Rabs (fval b - fval a) * S <= bpow radix2 1000.
(** Finite integrand values whose absolute values sum up to at most 2^1000. *)
Definition moderate_values (vs : list f64) : Prop := Forall ffin vs /\ abs_total vs <= bpow radix2 1000.
(** Finite bounds of at most 2^60, and an integrand that maps the doubles [x] with [P x] to finite values of at most 2^900. *)
Definition moderate_bounds (a b : f64) : Prop := ffin a /\ ffin b /\ Rabs (fval a) <= bpow radix2 60 /\ Rabs (fval b) <= bpow radix2 60.
Definition tame (P : f64 -> Prop) (g : f64 -> f64) : Prop := forall x, P x -> ffin (g x) /\ Rabs (fval (g x)) <= bpow radix2 900.
(** The finite doubles between [a] and [b] and a little beyond *)
Definition near (a b : f64) (dx : R) (x : f64) : Prop :=
  ffin x /\ Rmin (fval a) (fval b) - reach (fval a) (fval b) dx <= fval x <= Rmax (fval a) (fval b) + reach (fval a) (fval b) dx.
