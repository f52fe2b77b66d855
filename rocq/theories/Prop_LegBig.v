(** Property C65: Gauss-Legendre rules of more than 100 points, in exact arithmetic.
    Vocabulary: ErrorSpec.v ([closed_between], [continuous_on], [oscillation]), RuleSpec.v. *)
From Coq Require Import Reals List ZArith Lra Lia.
From Coquelicot Require Import Coquelicot.
From Verif Require Import Arith RInst Machine Rules LegendreData Legendre LegSym RSum RuleSpec ErrorSpec ErrEx LegConv Prop_Legendre.
Local Open Scope R_scope.

(** Any integrable integrand, smooth or not, with a bound at every degree *)
Theorem C65_value : forall (t : Target) (n : nat) (r : GaussLegendre RA),
  (100 <= usize_max t)%Z -> (100 < n)%nat -> (2 * Z.of_nat n <= usize_max t)%Z -> legendre_new t (Z.of_nat n) = Ok r ->
  forall a b f M omega, a <> b -> ex_RInt f a b -> (forall x, closed_between a b x -> Rabs (f x) <= M) ->
  oscillation a b f (8 / 5 * Rabs (b - a) / INR n) omega ->
  Rabs (legendre_value r a b f - RInt f a b) <= (omega + (7 / INR n + 1 / 10 ^ 15) * M) * Rabs (b - a).
Proof. exact big_value. Qed.
Print Assumptions C65_value.

(** As the degree grows the error falls below any eps plus 10^-15 of the size of the integrand. *)
Theorem C65_converges : forall a b f M, a <> b -> continuous_on a b f -> (forall x, closed_between a b x -> Rabs (f x) <= M) ->
  forall eps, 0 < eps -> exists N, forall (t : Target) (n : nat) (r : GaussLegendre RA), (N <= n)%nat ->
    (100 <= usize_max t)%Z -> (2 * Z.of_nat n <= usize_max t)%Z -> legendre_new t (Z.of_nat n) = Ok r ->
    Rabs (legendre_value r a b f - RInt f a b) <= eps + 1 / 10 ^ 15 * M * Rabs (b - a).
Proof. exact big_converges. Qed.
Print Assumptions C65_converges.

(** The sum of the weights *)
Theorem C65_total_weight : forall (t : Target) (n : nat) (r : GaussLegendre RA),
  (100 <= usize_max t)%Z -> (100 < n)%nat -> (2 * Z.of_nat n <= usize_max t)%Z -> legendre_new t (Z.of_nat n) = Ok r ->
  Rabs (lsum (map snd (legendre_pairs r)) - 2) <= 13 / INR n + 2 / 10 ^ 15.
Proof. exact big_total. Qed.
Print Assumptions C65_total_weight.

Example C65_degree : exists r : GaussLegendre RA, legendre_new target64 (Z.of_nat 1000) = Ok r.
Proof. exact degree_1000. Qed.
Example C65_integrand : forall a b, continuous_on a b Rabs.
Proof. exact abs_continuous. Qed.
