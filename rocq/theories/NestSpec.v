(** Specification vocabulary for double and higher integrals, src/lib.rs:163-179: the integrand
    of one integrate call calls integrate of another rule, whose bounds may depend on the outer
    variables. *)
From Coq Require Import ZArith List Reals.
From Verif Require Import Arith RInst Machine Rules NewtonCotes Chebyshev Hermite Laguerre Legendre Jacobi IntegrateSpec RSum PolySpec.
Import ListNotations.

(** A rule together with the bounds passed to its integrate method. *)
Inductive quadrature (A : Arith) : Type :=
| QMidpoint (n : Z) (a b : A)
| QTrapezoid (n : Z) (a b : A)
| QSimpson (n : Z) (a b : A)
| QLegendre (r : GaussLegendre A) (a b : A)
| QJacobi (r : GaussJacobi A) (a b : A)
| QChebyshev1 (r : GaussChebyshevFirstKind A) (a b : A)
| QChebyshev2 (r : GaussChebyshevSecondKind A) (a b : A)
| QHermite (r : GaussHermite A)
| QLaguerre (r : GaussLaguerre A).
Arguments QMidpoint {A}. Arguments QTrapezoid {A}. Arguments QSimpson {A}. Arguments QLegendre {A}. Arguments QJacobi {A}.
Arguments QChebyshev1 {A}. Arguments QChebyshev2 {A}. Arguments QHermite {A}. Arguments QLaguerre {A}.

(** The call of integrate, for an integrand with state. *)
Definition run {A : Arith} {S : Type} (q : quadrature A) (f : S -> A -> A * S) (s : S) : A * S :=
  match q with
  | QMidpoint n a b => midpoint_integrate f (midpoint_new n) a b s
  | QTrapezoid n a b => trapezoid_integrate f (trapezoid_new n) a b s
  | QSimpson n a b => simpson_integrate f (simpson_new n) a b s
  | QLegendre r a b => legendre_integrate f r a b s
  | QJacobi r a b => jacobi_integrate f r a b s
  | QChebyshev1 r a b => chebyshev1_integrate f r a b s
  | QChebyshev2 r a b => chebyshev2_integrate f r a b s
  | QHermite r => hermite_integrate f r s
  | QLaguerre r => laguerre_integrate f r s
  end.
(** The degree of a Newton-Cotes rule is a NonZeroU32. *)
Definition usable {A : Arith} (q : quadrature A) : Prop :=
  match q with QMidpoint n _ _ | QTrapezoid n _ _ | QSimpson n _ _ => (1 <= n)%Z | _ => True end.
(** Value for a pure integrand; points of evaluation; number of evaluations. *)
Definition value {A : Arith} (q : quadrature A) (g : A -> A) : A := fst (run q (pure g) tt).
Definition points {A : Arith} (q : quadrature A) : list A := snd (run q (traced (fun x => x)) []).
Definition evaluations {A : Arith} (q : quadrature A) : nat :=
  match q with
  | QMidpoint n _ _ => Z.to_nat n
  | QTrapezoid n _ _ => Z.to_nat (n + 1)
  | QSimpson n _ _ => Z.to_nat (2 * n + 1)
  | QLegendre r _ _ => rule_degree (legendre_pairs r)
  | QJacobi r _ _ => rule_degree (jacobi_pairs r)
  | QChebyshev1 r _ _ => rule_degree (chebyshev1_pairs r)
  | QChebyshev2 r _ _ => rule_degree (chebyshev2_pairs r)
  | QHermite r => rule_degree (hermite_pairs r)
  | QLaguerre r => rule_degree (laguerre_pairs r)
  end.

(** [qs] lists the rules from the outermost to the innermost; each may depend on the variables
    outside of it.  [f] gets all variables, the outermost first. *)
Fixpoint nested {A : Arith} {S : Type} (qs : list (list A -> quadrature A)) (f : S -> list A -> A * S) (xs : list A) (s : S) : A * S :=
  match qs with
  | [] => f s xs
  | q :: qs' => run (q xs) (fun s x => nested qs' f (xs ++ [x]) s) s
  end.
(** The iterated value of a pure integrand, and the grid of all points. *)
Fixpoint iterated {A : Arith} (qs : list (list A -> quadrature A)) (g : list A -> A) (xs : list A) : A :=
  match qs with
  | [] => g xs
  | q :: qs' => value (q xs) (fun x => iterated qs' g (xs ++ [x]))
  end.
Fixpoint grid {A : Arith} (qs : list (list A -> quadrature A)) (xs : list A) : list (list A) :=
  match qs with
  | [] => [xs]
  | q :: qs' => flat_map (fun x => grid qs' (xs ++ [x])) (points (q xs))
  end.
(** Rules that do not depend on the outer variables. *)
Definition fixed {A : Arith} (qs : list (quadrature A)) : list (list A -> quadrature A) := map (fun q _ => q) qs.

(** A function of one variable per factor, and the product of the factors. *)
Local Open Scope R_scope.
Definition product (l : list R) : R := fold_right Rmult 1 l.
Definition product_function (ps : list (R -> R)) (xs : list R) : R := product (map (fun px => fst px (snd px)) (combine ps xs)).

(** [q] returns the integral [J] of every polynomial of degree at most [d]. *)
Definition exact_rule (q : quadrature RA) (d : nat) (J : (R -> R) -> R -> Prop) : Prop :=
  forall f, polynomial d f -> J f (value q f).
(** A polynomial in two variables. *)
Definition bivariate (d1 d2 : nat) (c : nat -> nat -> R) (x y : R) : R :=
  rsum (S d1) (fun i => rsum (S d2) (fun j => c i j * x ^ i * y ^ j)).
