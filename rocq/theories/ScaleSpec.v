(** Scaling a double by a power of two. *)
From Coq Require Import Reals ZArith List.
From Flocq Require Import Core.
From Verif Require Import Arith F64 F64Spec Rules NewtonCotes NestSpec GaussSpec.
Import ListNotations.
Local Open Scope R_scope.

(** [y] is 2^k times [x]; both finite *)
Definition times_power (k : Z) (x y : f64) : Prop := ffin x /\ ffin y /\ fval y = bpow radix2 k * fval x.
(** finite, and zero or of magnitude at least 2^e *)
Definition not_below (e : Z) (x : f64) : Prop := ffin x /\ (fval x = 0 \/ bpow radix2 e <= Rabs (fval x)).
(** The number by which a rule multiplies the weighted sum of the values of the integrand: the width of a cell (a sixth of it
    for Simpson), half the length of the interval, nothing for the rules on unbounded domains. *)
Definition outer_factor {A : Arith} (q : quadrature A) : A :=
  match q with
  | QMidpoint n a b | QTrapezoid n a b => ndiv (nsub b a) (nofZ n)
  | QSimpson n a b => ndiv (ndiv (nsub b a) (nofZ n)) (nlit 6 0)
  | QLegendre _ a b | QJacobi _ a b | QChebyshev1 _ a b | QChebyshev2 _ a b => half_width a b
  | QHermite _ | QLaguerre _ => lit1
  end.
(** the nodes of the rule; Newton-Cotes rules store none *)
Definition stored_nodes {A : Arith} (q : quadrature A) : list A :=
  match q with
  | QMidpoint _ _ _ | QTrapezoid _ _ _ | QSimpson _ _ _ => []
  | QLegendre r _ _ => map fst (legendre_pairs r)
  | QJacobi r _ _ => map fst (jacobi_pairs r)
  | QChebyshev1 r _ _ => map fst (chebyshev1_pairs r)
  | QChebyshev2 r _ _ => map fst (chebyshev2_pairs r)
  | QHermite r => map fst (hermite_pairs r)
  | QLaguerre r => map fst (laguerre_pairs r)
  end.
(** the same rule on the interval with both bounds multiplied by 2^k; the degree of a Newton-Cotes rule is a NonZeroU32 *)
Definition rescaled {be : Backend} (k : Z) (q q' : quadrature (F64 be)) : Prop :=
  match q, q' with
  | QMidpoint n a b, QMidpoint n' a' b' => n' = n /\ nonzero_u32 n /\ times_power k a a' /\ times_power k b b'
  | QTrapezoid n a b, QTrapezoid n' a' b' => n' = n /\ nonzero_u32 n /\ times_power k a a' /\ times_power k b b'
  | QSimpson n a b, QSimpson n' a' b' => n' = n /\ nonzero_u32 n /\ times_power k a a' /\ times_power k b b'
  | QLegendre r a b, QLegendre r' a' b' => r' = r /\ times_power k a a' /\ times_power k b b'
  | QJacobi r a b, QJacobi r' a' b' => r' = r /\ times_power k a a' /\ times_power k b b'
  | QChebyshev1 r a b, QChebyshev1 r' a' b' => r' = r /\ times_power k a a' /\ times_power k b b'
  | QChebyshev2 r a b, QChebyshev2 r' a' b' => r' = r /\ times_power k a a' /\ times_power k b b'
  | _, _ => False
  end.
(** finite and of magnitude at least 2^-1021: not affected by underflow *)
Definition normal_sized (x : f64) : Prop := ffin x /\ bpow radix2 (-1021) <= Rabs (fval x).
