(** Properties C13-C22 for the Newton-Cotes rules in exact arithmetic.
    [midpoint_value n a b g] etc. (NCSpec) is what integrate of a rule of degree
    [n] returns for the integrand [g]; [between], [traced] as in NCSpec and
    IntegrateSpec; integrals are Coquelicot's Riemann integrals. *)
From Coq Require Import Reals ZArith List.
From Coquelicot Require Import Coquelicot.
From Verif Require Import Arith RInst NewtonCotes IntegrateSpec NCSpec NCExact NCBound NCExamples TraceProof.
Import ListNotations.
Local Open Scope R_scope.

(** C13: midpoint makes exactly n calls of the integrand. *)
Theorem C13_midpoint_number_of_calls : forall (A : Arith) (g : A -> A) n a b, (1 <= n)%Z ->
  length (snd (midpoint_integrate (traced g) (midpoint_new n) a b [])) = Z.to_nat n.
Proof. exact @midpoint_count. Qed.
Print Assumptions C13_midpoint_number_of_calls.
(** C13: trapezoid makes exactly n+1 calls of the integrand. *)
Theorem C13_trapezoid_number_of_calls : forall (A : Arith) (g : A -> A) n a b, (1 <= n)%Z ->
  length (snd (trapezoid_integrate (traced g) (trapezoid_new n) a b [])) = Z.to_nat (n + 1).
Proof. exact @trapezoid_count. Qed.
Print Assumptions C13_trapezoid_number_of_calls.
(** C13: simpson makes exactly 2n+1 calls of the integrand. *)
Theorem C13_simpson_number_of_calls : forall (A : Arith) (g : A -> A) n a b, (1 <= n)%Z ->
  length (snd (simpson_integrate (traced g) (simpson_new n) a b [])) = Z.to_nat (2 * n + 1).
Proof. exact @simpson_count. Qed.
Print Assumptions C13_simpson_number_of_calls.

(** C14: the midpoint rule is exact on affine functions. *)
Theorem C14_midpoint_exact_on_affine : forall n a b c0 c1, (1 <= n)%nat ->
  is_RInt (fun x => c0 + c1 * x) a b (midpoint_value n a b (fun x => c0 + c1 * x)).
Proof. exact @midpoint_exact. Qed.
Print Assumptions C14_midpoint_exact_on_affine.
(** C15: the trapezoid rule is exact on affine functions. *)
Theorem C15_trapezoid_exact_on_affine : forall n a b c0 c1, (1 <= n)%nat ->
  is_RInt (fun x => c0 + c1 * x) a b (trapezoid_value n a b (fun x => c0 + c1 * x)).
Proof. exact @trapezoid_exact. Qed.
Print Assumptions C15_trapezoid_exact_on_affine.
(** C16: the Simpson rule is exact on cubics. *)
Theorem C16_simpson_exact_on_cubics : forall n a b c0 c1 c2 c3, (1 <= n)%nat ->
  is_RInt (fun x => c0 + c1 * x + c2 * x ^ 2 + c3 * x ^ 3) a b
    (simpson_value n a b (fun x => c0 + c1 * x + c2 * x ^ 2 + c3 * x ^ 3)).
Proof. exact @simpson_exact. Qed.
Print Assumptions C16_simpson_exact_on_cubics.

(** C17: error bound of the midpoint rule; for a > b too. *)
Theorem C17_midpoint_error_bound : forall (f f1 f2 : R -> R) a b n M, (1 <= n)%nat ->
  (forall x, Rmin a b <= x <= Rmax a b -> continuous f x) ->
  (forall x, Rmin a b < x < Rmax a b -> is_derive f x (f1 x)) ->
  (forall x, Rmin a b < x < Rmax a b -> is_derive f1 x (f2 x)) ->
  (forall x, Rmin a b < x < Rmax a b -> Rabs (f2 x) <= M) ->
  Rabs (midpoint_value n a b f - RInt f a b) <= M * Rabs (b - a) ^ 3 / (24 * INR n ^ 2).
Proof. exact @midpoint_bound. Qed.
Print Assumptions C17_midpoint_error_bound.
Example C17_example : forall a b n, (1 <= n)%nat ->
  Rabs (midpoint_value n a b sin - RInt sin a b) <= 1 * Rabs (b - a) ^ 3 / (24 * INR n ^ 2).
Proof. exact midpoint_sin. Qed.
(** C18: error bound of the trapezoid rule; for a > b too. *)
Theorem C18_trapezoid_error_bound : forall (f f1 f2 : R -> R) a b n M, (1 <= n)%nat ->
  (forall x, Rmin a b <= x <= Rmax a b -> continuous f x) ->
  (forall x, Rmin a b < x < Rmax a b -> is_derive f x (f1 x)) ->
  (forall x, Rmin a b < x < Rmax a b -> is_derive f1 x (f2 x)) ->
  (forall x, Rmin a b < x < Rmax a b -> Rabs (f2 x) <= M) ->
  Rabs (trapezoid_value n a b f - RInt f a b) <= M * Rabs (b - a) ^ 3 / (12 * INR n ^ 2).
Proof. exact @trapezoid_bound. Qed.
Print Assumptions C18_trapezoid_error_bound.
Example C18_example : forall a b n, (1 <= n)%nat ->
  Rabs (trapezoid_value n a b sin - RInt sin a b) <= 1 * Rabs (b - a) ^ 3 / (12 * INR n ^ 2).
Proof. exact trapezoid_sin. Qed.
(** C19: error bound of the simpson rule; for a > b too. *)
Theorem C19_simpson_error_bound : forall (f f1 f2 f3 f4 : R -> R) a b n M, (1 <= n)%nat ->
  (forall x, Rmin a b <= x <= Rmax a b -> continuous f x) ->
  (forall x, Rmin a b < x < Rmax a b -> is_derive f x (f1 x)) ->
  (forall x, Rmin a b < x < Rmax a b -> is_derive f1 x (f2 x)) ->
  (forall x, Rmin a b < x < Rmax a b -> is_derive f2 x (f3 x)) ->
  (forall x, Rmin a b < x < Rmax a b -> is_derive f3 x (f4 x)) ->
  (forall x, Rmin a b < x < Rmax a b -> Rabs (f4 x) <= M) ->
  Rabs (simpson_value n a b f - RInt f a b) <= M * Rabs (b - a) ^ 5 / (2880 * INR n ^ 4).
Proof. exact @simpson_bound. Qed.
Print Assumptions C19_simpson_error_bound.
Example C19_example : forall a b n, (1 <= n)%nat ->
  Rabs (simpson_value n a b sin - RInt sin a b) <= 1 * Rabs (b - a) ^ 5 / (2880 * INR n ^ 4).
Proof. exact simpson_sin. Qed.

(** C20: convergence for every continuous integrand. *)
Theorem C20_midpoint_converges : forall (f : R -> R) a b,
  (forall x, Rmin a b <= x <= Rmax a b -> continuous f x) ->
  is_lim_seq (fun n => midpoint_value (S n) a b f) (RInt f a b).
Proof. exact @midpoint_converges. Qed.
Print Assumptions C20_midpoint_converges.
Theorem C20_trapezoid_converges : forall (f : R -> R) a b,
  (forall x, Rmin a b <= x <= Rmax a b -> continuous f x) ->
  is_lim_seq (fun n => trapezoid_value (S n) a b f) (RInt f a b).
Proof. exact @trapezoid_converges. Qed.
Print Assumptions C20_trapezoid_converges.
Theorem C20_simpson_converges : forall (f : R -> R) a b,
  (forall x, Rmin a b <= x <= Rmax a b -> continuous f x) ->
  is_lim_seq (fun n => simpson_value (S n) a b f) (RInt f a b).
Proof. exact @simpson_converges. Qed.
Print Assumptions C20_simpson_converges.
Example C20_example : forall x, continuous sin x.
Proof. exact sin_cont. Qed.

(** C21: linearity, antisymmetry in the bounds, empty interval. *)
Theorem C21_midpoint_linear : forall n a b c d f g, (1 <= n)%nat ->
  midpoint_value n a b (fun x => c * f x + d * g x) =
  c * midpoint_value n a b f + d * midpoint_value n a b g.
Proof. exact @midpoint_linear. Qed.
Print Assumptions C21_midpoint_linear.
Theorem C21_midpoint_antisymmetric : forall n a b g, (1 <= n)%nat ->
  midpoint_value n b a g = - midpoint_value n a b g.
Proof. exact @midpoint_antisym. Qed.
Print Assumptions C21_midpoint_antisymmetric.
Theorem C21_midpoint_empty_interval : forall n a g, (1 <= n)%nat -> midpoint_value n a a g = 0.
Proof. exact @midpoint_empty. Qed.
Print Assumptions C21_midpoint_empty_interval.
Theorem C21_trapezoid_linear : forall n a b c d f g, (1 <= n)%nat ->
  trapezoid_value n a b (fun x => c * f x + d * g x) =
  c * trapezoid_value n a b f + d * trapezoid_value n a b g.
Proof. exact @trapezoid_linear. Qed.
Print Assumptions C21_trapezoid_linear.
Theorem C21_trapezoid_antisymmetric : forall n a b g, (1 <= n)%nat ->
  trapezoid_value n b a g = - trapezoid_value n a b g.
Proof. exact @trapezoid_antisym. Qed.
Print Assumptions C21_trapezoid_antisymmetric.
Theorem C21_trapezoid_empty_interval : forall n a g, (1 <= n)%nat -> trapezoid_value n a a g = 0.
Proof. exact @trapezoid_empty. Qed.
Print Assumptions C21_trapezoid_empty_interval.
Theorem C21_simpson_linear : forall n a b c d f g, (1 <= n)%nat ->
  simpson_value n a b (fun x => c * f x + d * g x) =
  c * simpson_value n a b f + d * simpson_value n a b g.
Proof. exact @simpson_linear. Qed.
Print Assumptions C21_simpson_linear.
Theorem C21_simpson_antisymmetric : forall n a b g, (1 <= n)%nat ->
  simpson_value n b a g = - simpson_value n a b g.
Proof. exact @simpson_antisym. Qed.
Print Assumptions C21_simpson_antisymmetric.
Theorem C21_simpson_empty_interval : forall n a g, (1 <= n)%nat -> simpson_value n a a g = 0.
Proof. exact @simpson_empty. Qed.
Print Assumptions C21_simpson_empty_interval.

(** C22: every evaluation point lies in the interval. *)
Theorem C22_midpoint_points_inside : forall (g : R -> R) (n : Z) (a b : R), (1 <= n)%Z ->
  List.Forall (between a b) (snd (midpoint_integrate (A := RA) (traced g) (midpoint_new n) a b [])).
Proof. exact midpoint_inside. Qed.
Print Assumptions C22_midpoint_points_inside.
Theorem C22_trapezoid_points_inside : forall (g : R -> R) (n : Z) (a b : R), (1 <= n)%Z ->
  List.Forall (between a b) (snd (trapezoid_integrate (A := RA) (traced g) (trapezoid_new n) a b [])).
Proof. exact trapezoid_inside. Qed.
Print Assumptions C22_trapezoid_points_inside.
Theorem C22_simpson_points_inside : forall (g : R -> R) (n : Z) (a b : R), (1 <= n)%Z ->
  List.Forall (between a b) (snd (simpson_integrate (A := RA) (traced g) (simpson_new n) a b [])).
Proof. exact simpson_inside. Qed.
Print Assumptions C22_simpson_points_inside.
