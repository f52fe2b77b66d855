(** Property C86: convergence for every Riemann integrable integrand, without any continuity. The
    Gauss-Legendre rules of all degrees converge to the integral (up to the rounding of their stored nodes
    and weights); the Gauss-Chebyshev rules are the midpoint and the trapezoid rule in the angle and
    converge whenever the integrand in the angle is Riemann integrable. Exact arithmetic.
    Vocabulary: RuleSpec.v, NCSpec.v (values of [integrate] for a pure integrand), ErrorSpec.v. *)
From Coq Require Import Reals List ZArith Lra Lia.
From Coquelicot Require Import Coquelicot.
From Verif Require Import Arith RInst Machine Rules NewtonCotes NCSpec Chebyshev Legendre RuleSpec ErrorSpec RieStep RieLeg AngleRule Prop_Legendre.
Local Open Scope R_scope.

Theorem C86_legendre : forall a b f, a <> b -> ex_RInt f a b -> forall eps, 0 < eps ->
  exists N, forall (t : Target) (n : nat) (r : GaussLegendre RA) M, (100 <= usize_max t)%Z -> (2 * Z.of_nat n <= usize_max t)%Z -> legendre_new t (Z.of_nat n) = Ok r ->
  (N <= n)%nat -> (forall x, closed_between a b x -> Rabs (f x) <= M) ->
  Rabs (legendre_value r a b f - RInt f a b) <= eps + 24 / 10 ^ 14 * M * Rabs (b - a).
Proof. exact legendre_riemann. Qed.
Print Assumptions C86_legendre.

(** n points of the first kind: the midpoint rule with n cells in the angle *)
Theorem C86_chebyshev1_is_midpoint : forall t n (r : GaussChebyshevFirstKind RA), (1 <= n < usize_max t)%Z -> chebyshev1_new t n = Ok r ->
  forall a b f, chebyshev1_value r a b f = (b - a) / 2 * midpoint_value (Z.to_nat n) 0 PI (fun u => f ((b - a) / 2 * cos u + (a + b) / 2)).
Proof. exact chebyshev1_angle. Qed.
Print Assumptions C86_chebyshev1_is_midpoint.

(** n points of the second kind: the trapezoid rule with n+1 cells in the angle *)
Theorem C86_chebyshev2_is_trapezoid : forall t n (r : GaussChebyshevSecondKind RA), (1 <= n < usize_max t)%Z -> chebyshev2_new t n = Ok r ->
  forall a b f, chebyshev2_value r a b f = (b - a) / 2 * trapezoid_value (Z.to_nat n + 1) 0 PI (fun u => sin u * sin u * f ((b - a) / 2 * cos u + (a + b) / 2)).
Proof. exact chebyshev2_angle. Qed.
Print Assumptions C86_chebyshev2_is_trapezoid.

Theorem C86_chebyshev1 : forall a b f, ex_RInt (fun u => f ((b - a) / 2 * cos u + (a + b) / 2)) 0 PI -> forall eps, 0 < eps ->
  exists N, forall t n (r : GaussChebyshevFirstKind RA), (N <= n)%Z -> (1 <= n < usize_max t)%Z -> chebyshev1_new t n = Ok r ->
  Rabs (chebyshev1_value r a b f - (b - a) / 2 * RInt (fun u => f ((b - a) / 2 * cos u + (a + b) / 2)) 0 PI) < eps.
Proof. exact chebyshev1_riemann. Qed.
Print Assumptions C86_chebyshev1.

Theorem C86_chebyshev2 : forall a b f, ex_RInt (fun u => sin u * sin u * f ((b - a) / 2 * cos u + (a + b) / 2)) 0 PI -> forall eps, 0 < eps ->
  exists N, forall t n (r : GaussChebyshevSecondKind RA), (N <= n)%Z -> (1 <= n < usize_max t)%Z -> chebyshev2_new t n = Ok r ->
  Rabs (chebyshev2_value r a b f - (b - a) / 2 * RInt (fun u => sin u * sin u * f ((b - a) / 2 * cos u + (a + b) / 2)) 0 PI) < eps.
Proof. exact chebyshev2_riemann. Qed.
Print Assumptions C86_chebyshev2.

(** Functions with jumps meet the hypotheses. *)
Example C86_jump : ex_RInt (fun x => if Rle_dec (/ 3) x then 1 else 0) 0 1 /\ forall x, closed_between 0 1 x -> Rabs (if Rle_dec (/ 3) x then 1 else 0) <= 1.
Proof.
  split.
  - apply (ex_RInt_Chasles (V := R_NormedModule) _ 0 (/ 3) 1).
    + apply (ex_RInt_ext (V := R_NormedModule) (fun _ => 0)); [|apply ex_RInt_const]. intros x Hx. rewrite Rmin_left, Rmax_right in Hx by lra. destruct (Rle_dec (/ 3) x); [lra|reflexivity].
    + apply (ex_RInt_ext (V := R_NormedModule) (fun _ => 1)); [|apply ex_RInt_const]. intros x Hx. rewrite Rmin_left, Rmax_right in Hx by lra. destruct (Rle_dec (/ 3) x); [reflexivity|lra].
  - intros x _. destruct (Rle_dec (/ 3) x); [rewrite Rabs_R1|rewrite Rabs_R0]; lra.
Qed.
Example C86_jump_in_the_angle : ex_RInt (fun u => if Rle_dec 0 ((1 - -1) / 2 * cos u + (-1 + 1) / 2) then 1 else 0) 0 PI.
Proof.
  assert (P := PI_RGT_0). apply (ex_RInt_Chasles (V := R_NormedModule) _ 0 (PI / 2) PI).
  - apply (ex_RInt_ext (V := R_NormedModule) (fun _ => 1)); [|apply ex_RInt_const]. intros x Hx. rewrite Rmin_left, Rmax_right in Hx by lra.
    assert (C := cos_gt_0 x ltac:(lra) ltac:(lra)). destruct (Rle_dec 0 _); [reflexivity|lra].
  - apply (ex_RInt_ext (V := R_NormedModule) (fun _ => 0)); [|apply ex_RInt_const]. intros x Hx. rewrite Rmin_left, Rmax_right in Hx by lra.
    assert (C := cos_lt_0 x ltac:(lra) ltac:(lra)). destruct (Rle_dec 0 _); [lra|reflexivity].
Qed.
Example C86_rule : exists r : GaussLegendre RA, legendre_new target64 (Z.of_nat 7) = Ok r.
Proof. eexists. reflexivity. Qed.
