(** Property C95: double integrals. The integrand of an outer integrate call is an inner integrate
    call whose bounds may depend on the outer variable (src/lib.rs:163-179). For every continuous integrand of two variables
    and continuous boundary functions the result converges to the integral over the region when both degrees grow,
    independently of each other and for any combination of Newton-Cotes rules; and for any inner rule the total error is at most
    the error of the outer rule plus (b - a) times the largest error of the inner one. The same holds for nested
    Gauss-Legendre rules of more than 100 points up to 3e-15 of the size of the problem, the accuracy of the asymptotic
    formulas. Exact arithmetic.
    [newton_cotes], [continuous2], [region_integral]: DoubleSpec.v. [closed_between]: ErrorSpec.v. *)
From Coq Require Import Reals Lra ZArith.
From Coquelicot Require Import Coquelicot.
From Verif Require Import Arith RInst Machine Rules Legendre RuleSpec NCSpec ErrorSpec DoubleSpec DoubleInt DoubleLeg.
Local Open Scope R_scope.

Theorem C95_converges : forall (c d : R -> R) (g : R -> R -> R), (forall x, continuous c x) -> (forall x, continuous d x) -> continuous2 g ->
  forall V1 V2 a b, newton_cotes V1 -> newton_cotes V2 -> a < b ->
  forall eps : posreal, exists N, forall n m, (N < n)%nat -> (N < m)%nat ->
  Rabs (V1 n a b (fun x => V2 m (c x) (d x) (g x)) - region_integral a b c d g) < eps.
Proof. exact double_converges. Qed.
Print Assumptions C95_converges.
Theorem C95_errors_add : forall V1 (Q : R -> R -> (R -> R) -> R) a b (c d : R -> R) (g : R -> R -> R) n e1 e2,
  newton_cotes V1 -> a < b -> (1 <= n)%nat ->
  (forall x, a <= x <= b -> Rabs (Q (c x) (d x) (g x) - RInt (g x) (c x) (d x)) <= e2) ->
  Rabs (V1 n a b (fun x => RInt (g x) (c x) (d x)) - region_integral a b c d g) <= e1 ->
  Rabs (V1 n a b (fun x => Q (c x) (d x) (g x)) - region_integral a b c d g) <= e1 + (b - a) * e2.
Proof. exact double_error. Qed.
Print Assumptions C95_errors_add.

Theorem C95_legendre : forall (c d : R -> R) (g : R -> R -> R) (a b M L : R), (forall x, continuous c x) -> (forall x, continuous d x) -> continuous2 g ->
  a < b -> (forall x y, a <= x <= b -> closed_between (c x) (d x) y -> Rabs (g x y) <= M) -> (forall x, a <= x <= b -> Rabs (d x - c x) <= L) ->
  forall eps, 0 < eps -> exists N, forall (t : Target) (n m : nat) (r r2 : GaussLegendre RA), (N <= n)%nat -> (N <= m)%nat ->
  (100 <= usize_max t)%Z -> (2 * Z.of_nat n <= usize_max t)%Z -> (2 * Z.of_nat m <= usize_max t)%Z ->
  legendre_new t (Z.of_nat n) = Ok r -> legendre_new t (Z.of_nat m) = Ok r2 ->
  Rabs (legendre_value r a b (fun x => legendre_value r2 (c x) (d x) (g x)) - region_integral a b c d g) <= eps + 3 / 10 ^ 15 * (M * L) * (b - a).
Proof. exact double_legendre. Qed.
Print Assumptions C95_legendre.

(** x + y over the half disc below the graph of sqrt (1 - x^2) *)
Example C95_half_disc : continuous2 (fun x y => x + y) /\ (forall x, continuous (fun x => sqrt (1 - x * x)) x) /\ newton_cotes simpson_value.
Proof. exact half_disc. Qed.
Example C95_half_disc_bounds :
  (forall x y, -1 <= x <= 1 -> closed_between 0 (sqrt (1 - x * x)) y -> Rabs (x + y) <= 2) /\ (forall x, -1 <= x <= 1 -> Rabs (sqrt (1 - x * x) - 0) <= 1).
Proof. exact half_disc_bounds. Qed.
