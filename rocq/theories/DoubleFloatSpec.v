(** Double integrals in double arithmetic. *)
From Coq Require Import Reals ZArith List.
From Flocq Require Import Core.
From Verif Require Import Arith F64 F64Spec Machine Rules Par NewtonCotes IntegrateSpec NCSpec InsideSpec NCFloatSpec FinSpec.
Local Open Scope R_scope.

(** [result] is what integrate, or par_integrate with some splitting of the work, of the Newton-Cotes rule with the exact
    value [V] and the degree [n] returns for the integrand [g] and the bounds [a] and [b]. *)
Definition nc_returns (be : Backend) (V : nat -> R -> R -> (R -> R) -> R) (n : Z) (g : F64 be -> F64 be) (a b result : F64 be) : Prop :=
  (V = midpoint_value /\ (result = fst (midpoint_integrate (pure g) (midpoint_new n) a b tt) \/ exists t, result = midpoint_par_integrate g t (midpoint_new n) a b)) \/
  (V = trapezoid_value /\ (result = fst (trapezoid_integrate (pure g) (trapezoid_new n) a b tt) \/ exists t, result = trapezoid_par_integrate g t (trapezoid_new n) a b)) \/
  (V = simpson_value /\ (result = fst (simpson_integrate (pure g) (simpson_new n) a b tt) \/ exists t1 t2, result = simpson_par_integrate g t1 t2 (simpson_new n) a b)).
(** At the doubles of the rectangle [g] is finite and computes [G] up to the error [e]; on the rectangle [G] is bounded by [B]
    and has the Lipschitz constants [Lx] and [Ly] in its two variables. *)
Definition computes2 (g : f64 -> f64 -> f64) (G : R -> R -> R) (a b c d : f64) (e Lx Ly B : R) : Prop :=
  0 <= Lx /\ 0 <= Ly /\
  (forall x y, inside a b x -> inside c d y -> ffin (g x y) /\ Rabs (fval (g x y) - G (fval x) (fval y)) <= e) /\
  (forall x z y, between (fval a) (fval b) x -> between (fval a) (fval b) z -> between (fval c) (fval d) y -> Rabs (G x y - G z y) <= Lx * Rabs (x - z)) /\
  (forall x y z, between (fval a) (fval b) x -> between (fval c) (fval d) y -> between (fval c) (fval d) z -> Rabs (G x y - G x z) <= Ly * Rabs (y - z)) /\
  (forall x y, between (fval a) (fval b) x -> between (fval c) (fval d) y -> Rabs (G x y) <= B).
(** The same for the region between the graphs of [C] and [D], of which the bounds of the inner integral [c x] and [d x] are
    computed up to the error [eb]; [Lb] is a Lipschitz constant of [C] and [D]; all lies between [lo] and [hi]. *)
Definition computes_region (m : Z) (c d : f64 -> f64) (C D : R -> R) (g : f64 -> f64 -> f64) (G : R -> R -> R) (a b : f64) (lo hi e eb Lx Ly Lb B : R) : Prop :=
  0 <= Lx /\ 0 <= Ly /\ 0 <= Lb /\
  (forall x, inside a b x -> plain_interval m (c x) (d x) /\ moderate_bounds (c x) (d x) /\ lo <= fval (c x) <= fval (d x) /\ fval (d x) <= hi /\
    Rabs (fval (c x) - C (fval x)) <= eb /\ Rabs (fval (d x) - D (fval x)) <= eb) /\
  (forall x, between (fval a) (fval b) x -> lo <= C x <= hi /\ lo <= D x <= hi) /\
  (forall x z, between (fval a) (fval b) x -> between (fval a) (fval b) z -> Rabs (C x - C z) <= Lb * Rabs (x - z) /\ Rabs (D x - D z) <= Lb * Rabs (x - z)) /\
  (forall x y, inside a b x -> ffin y -> lo <= fval y <= hi -> ffin (g x y) /\ Rabs (fval (g x y) - G (fval x) (fval y)) <= e) /\
  (forall x z y, between (fval a) (fval b) x -> between (fval a) (fval b) z -> lo <= y <= hi -> Rabs (G x y - G z y) <= Lx * Rabs (x - z)) /\
  (forall x y z, between (fval a) (fval b) x -> lo <= y <= hi -> lo <= z <= hi -> Rabs (G x y - G x z) <= Ly * Rabs (y - z)) /\
  (forall x y, between (fval a) (fval b) x -> lo <= y <= hi -> Rabs (G x y) <= B).
