(** What [integrate] of a Newton-Cotes rule of degree [n] returns for a pure
    integrand [g] in exact arithmetic. *)
From Coq Require Import Reals ZArith.
From Verif Require Import Arith RInst NewtonCotes IntegrateSpec.

Definition midpoint_value (n : nat) (a b : R) (g : R -> R) : R :=
  fst (midpoint_integrate (A := RA) (pure g) (midpoint_new (Z.of_nat n)) a b tt).
Definition trapezoid_value (n : nat) (a b : R) (g : R -> R) : R :=
  fst (trapezoid_integrate (A := RA) (pure g) (trapezoid_new (Z.of_nat n)) a b tt).
Definition simpson_value (n : nat) (a b : R) (g : R -> R) : R :=
  fst (simpson_integrate (A := RA) (pure g) (simpson_new (Z.of_nat n)) a b tt).

(** [x] lies in the closed interval with the end points [a] and [b]. *)
Definition between (a b x : R) : Prop := (Rmin a b <= x <= Rmax a b)%R.
