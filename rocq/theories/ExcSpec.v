(** Vocabulary for exceptional values: par_integrate of any rule, and zeros. *)
From Coq Require Import List ZArith Reals.
From Verif Require Import Arith F64 F64Spec Machine Rules Par NewtonCotes Chebyshev Hermite Laguerre Legendre Jacobi NestSpec.
Import ListNotations.

(** The call of par_integrate; Simpson's rule evaluates two parallel sums. *)
Definition par_run {A : Arith} (t1 t2 : Sched) (q : quadrature A) (g : A -> A) : A :=
  match q with
  | QMidpoint n a b => midpoint_par_integrate g t1 (midpoint_new n) a b
  | QTrapezoid n a b => trapezoid_par_integrate g t1 (trapezoid_new n) a b
  | QSimpson n a b => simpson_par_integrate g t1 t2 (simpson_new n) a b
  | QLegendre r a b => legendre_par_integrate t1 g r a b
  | QJacobi r a b => jacobi_par_integrate t1 g r a b
  | QChebyshev1 r a b => chebyshev1_par_integrate t1 g r a b
  | QChebyshev2 r a b => chebyshev2_par_integrate t1 g r a b
  | QHermite r => hermite_par_integrate t1 g r
  | QLaguerre r => laguerre_par_integrate t1 g r
  end.
(** The bounds passed to the call, and the weights of the rule. *)
Definition bounds {A : Arith} (q : quadrature A) : list A :=
  match q with
  | QMidpoint _ a b | QTrapezoid _ a b | QSimpson _ a b | QLegendre _ a b | QJacobi _ a b | QChebyshev1 _ a b | QChebyshev2 _ a b => [a; b]
  | QHermite _ | QLaguerre _ => []
  end.
Definition weights {A : Arith} (q : quadrature A) : list A :=
  match q with
  | QMidpoint _ _ _ | QTrapezoid _ _ _ | QSimpson _ _ _ => []
  | QLegendre r _ _ => map snd (legendre_pairs r)
  | QJacobi r _ _ => map snd (jacobi_pairs r)
  | QChebyshev1 r _ _ => map snd (chebyshev1_pairs r)
  | QChebyshev2 r _ _ => map snd (chebyshev2_pairs r)
  | QHermite r => map snd (hermite_pairs r)
  | QLaguerre r => map snd (laguerre_pairs r)
  end.
(** +0.0 or -0.0 *)
Definition fzero (x : f64) : Prop := ffin x /\ fval x = 0%R.
