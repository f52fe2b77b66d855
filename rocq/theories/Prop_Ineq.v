(** Property C97: the inequalities that hold between integrals hold between the values of integrate, at every degree.
    In double arithmetic, rounding, overflow, infinities and NaN included, the absolute value of a result is not above the
    result for the absolute value of the integrand. In exact arithmetic the Cauchy-Schwarz inequality and Jensen's
    inequality hold too (so a variance computed as mean of squares minus square of the mean is not negative).
    For every rule without negative weights and bounds in order, whatever its nodes and weights are, and for nested integrals.
    [forward_exact], [convex], [magnitude]: IneqSpec.v. [forward], [not_above]: OrderSpec.v. [value], [iterated]: NestSpec.v.
    [par_run]: ExcSpec.v. *)
From Coq Require Import Reals ZArith List.
From Verif Require Import Arith F64 F64Spec RInst Machine Rules Legendre NestSpec ExcSpec OrderSpec IneqSpec Ineq IneqEx.
Import ListNotations.
Local Open Scope R_scope.

Theorem C97_triangle : forall (be : Backend) n t1 t2 (q : quadrature (F64 be)) (g : F64 be -> F64 be), forward q ->
  not_above (be := be) (magnitude n (value q g)) (value q (fun x => magnitude n (g x))) /\
  not_above (be := be) (magnitude n (par_run t1 t2 q g)) (par_run t1 t2 q (fun x => magnitude n (g x))).
Proof. exact float_triangle. Qed.
Print Assumptions C97_triangle.
Theorem C97_nested_triangle : forall (be : Backend) n (qs : list (list (F64 be) -> quadrature (F64 be))) (g : list (F64 be) -> F64 be) xs,
  Forall (fun q => forall xs, forward (q xs)) qs ->
  not_above (be := be) (magnitude n (iterated qs g xs)) (iterated qs (fun ys => magnitude n (g ys)) xs).
Proof. exact float_nested_triangle. Qed.
Print Assumptions C97_nested_triangle.

(** Exact arithmetic: triangle inequality, Cauchy-Schwarz, Jensen *)
Theorem C97_exact : forall (q : quadrature RA), forward_exact q -> forall f g : R -> R,
  Rabs (value q f) <= value q (fun x => Rabs (f x)) /\
  value q (fun x => f x * g x) ^ 2 <= value q (fun x => f x ^ 2) * value q (fun x => g x ^ 2) /\
  (forall phi, convex phi -> 0 < value q (fun _ => 1) -> phi (value q f / value q (fun _ => 1)) <= value q (fun x => phi (f x)) / value q (fun _ => 1)).
Proof. exact exact_inequalities. Qed.
Print Assumptions C97_exact.
Theorem C97_exact_nested : forall (qs : list (list R -> quadrature RA)) xs, Forall (fun q => forall xs, forward_exact (q xs)) qs -> forall f g : list R -> R,
  let J := fun h => iterated (A := RA) qs h xs in
  Rabs (J f) <= J (fun x => Rabs (f x)) /\
  J (fun x => f x * g x) ^ 2 <= J (fun x => f x ^ 2) * J (fun x => g x ^ 2) /\
  (forall phi, convex phi -> 0 < J (fun _ => 1) -> phi (J f / J (fun _ => 1)) <= J (fun x => phi (f x)) / J (fun _ => 1)).
Proof. exact nested_inequalities. Qed.
Print Assumptions C97_exact_nested.

(** Rules and functions that meet the hypotheses (for doubles see C84 and C49) *)
Example C97_newton_cotes : forall n a b, (1 <= n)%Z -> a <= b ->
  forward_exact (QMidpoint (A := RA) n a b) /\ forward_exact (QTrapezoid (A := RA) n a b) /\ forward_exact (QSimpson (A := RA) n a b).
Proof. exact newton_cotes_forward. Qed.
Example C97_legendre : forall t n (r : GaussLegendre RA) a b, (100 <= usize_max t)%Z -> (1 <= n)%Z -> (2 * n <= usize_max t)%Z ->
  legendre_new t n = Ok r -> a <= b -> forward_exact (QLegendre r a b).
Proof. exact legendre_forward. Qed.
Example C97_square : convex (fun x => x ^ 2).
Proof. exact square_convex. Qed.
Example C97_total : forall n a b, (1 <= n)%Z -> value (QMidpoint (A := RA) n a b) (fun _ => 1) = b - a.
Proof. exact midpoint_total. Qed.
