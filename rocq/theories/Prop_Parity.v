(** Property C92: an integrand that is odd about the middle of the domain integrates to exactly 0, with every rule, degree
    and interval, because the nodes and weights are symmetric; the opposite contributions cancel whatever the integrand does
    in between. Exact arithmetic. In doubles the cancellation is only up to rounding, whose size is that of the integrand
    and not of the result: [C92_midpoint_rounding_limit].
    [odd_about], [odd_double]: ParSpec.v; [symmetric_rule]: RuleSpec.v. *)
From Coq Require Import Reals List ZArith Lia Lra.
From Verif Require Import Arith F64 F64Spec RInst Machine Param Rules GolubWelsch GWSpec EigenSpec WeightSpec MassSpec Hermite Laguerre Jacobi Chebyshev Legendre
  NewtonCotes NCSpec NestSpec RuleSpec SizeProof GaussExact JacobiMore ParSpec Parity ParEx Prop_Legendre.
Local Open Scope R_scope.

(** Hermite: the rule is symmetric, reflecting the integrand does not change the result, odd integrands give 0 *)
Theorem C92_hermite : forall (ext : Linalg RA) n (r : GaussHermite RA), (1 <= n)%Z -> sorts ext ->
  exact_on ext (Z.to_nat n) (@hermite_diag RA) (@hermite_off_diag RA) -> hermite_new ext n = Ok r ->
  symmetric_rule (hermite_pairs r) /\ (forall f, hermite_value r (fun x => f (- x)) = hermite_value r f) /\
  forall f, odd_about 0 f -> hermite_value r f = 0.
Proof. exact hermite_parity. Qed.
Print Assumptions C92_hermite.
(** The rules over an interval *)
Theorem C92_interval : forall a b f, odd_about ((a + b) / 2) f ->
  (forall t n (r : GaussLegendre RA), (100 <= usize_max t)%Z -> (1 <= n)%Z -> (2 * n <= usize_max t)%Z -> legendre_new t n = Ok r ->
    (n <= 100)%Z \/ (n mod 2 = 0)%Z -> legendre_value r a b f = 0) /\
  (forall t n (r : GaussChebyshevFirstKind RA), (1 <= n < usize_max t)%Z -> chebyshev1_new t n = Ok r -> chebyshev1_value r a b f = 0) /\
  (forall t n (r : GaussChebyshevSecondKind RA), (1 <= n < usize_max t)%Z -> chebyshev2_new t n = Ok r -> chebyshev2_value r a b f = 0) /\
  (forall t (e : Linalg RA) n (pa pb : Param RA) (r : GaussJacobi RA), (1 <= n)%Z ->
    -1 < param_get pa -> param_get pa = param_get pb -> param_get pa + param_get pb <> -1 -> ~ delegated (param_get pa) (param_get pb) ->
    sorts e -> exact_on e (Z.to_nat n) (@jacobi_diag RA (param_get pa) (param_get pb)) (@jacobi_off_diag RA (param_get pa) (param_get pb)) ->
    jacobi_new t e n pa pb = Ok r -> jacobi_value r a b f = 0) /\
  (forall n, (1 <= n)%nat -> midpoint_value n a b f = 0 /\ trapezoid_value n a b f = 0 /\ simpson_value n a b f = 0).
Proof. exact interval_parity. Qed.
Print Assumptions C92_interval.
(** Double arithmetic: the midpoint rule with four cells over [-1, 1] computes 1/2 for an odd integrand *)
Theorem C92_midpoint_rounding_limit : forall be : Backend, exists f : F64 be -> F64 be, odd_double f /\
  fval (value (QMidpoint (A := F64 be) 4 (nofZ (-1)) (nofZ 1)) f) = / 2.
Proof. exact rounding_limit. Qed.
Print Assumptions C92_midpoint_rounding_limit.

Example C92_odd : odd_about 3 (fun x => (x - 3) ^ 3) /\ odd_about 0 sin.
Proof. split; intros x; [ring|]. replace (2 * 0 - x) with (- x) by ring. apply sin_neg. Qed.
Example C92_hermite_case : forall n, (1 <= n)%Z -> exists (ext : Linalg RA) (r : GaussHermite RA), sorts ext /\
  exact_on ext (Z.to_nat n) (@hermite_diag RA) (@hermite_off_diag RA) /\ hermite_new ext n = Ok r.
Proof. exact hermite_solver. Qed.
Example C92_legendre_case : exists r : GaussLegendre RA, legendre_new target64 7 = Ok r.
Proof. destruct (legendre_new_ok (A := RA) target64 7) as (r & E & _); [vm_compute; discriminate|lia|vm_compute; discriminate|]. exists r. exact E. Qed.
