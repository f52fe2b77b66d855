(** Properties C20 (for all integrable functions) and C61-C63: the Newton-Cotes
    rules in exact arithmetic. *)
From Coq Require Import Reals Lra Lia.
From Coquelicot Require Import Coquelicot.
From Verif Require Import RSum NCSpec NCRiemann NCMoreSpec NCMore NCShape NCShapeEx.
Local Open Scope R_scope.

(** C20 for every Riemann integrable function, continuous or not. *)
Theorem C20_midpoint_converges_integrable : forall (f : R -> R) a b, ex_RInt f a b ->
  is_lim_seq (fun n => midpoint_value (S n) a b f) (RInt f a b).
Proof. exact midpoint_lim. Qed.
Print Assumptions C20_midpoint_converges_integrable.
Theorem C20_trapezoid_converges_integrable : forall (f : R -> R) a b, ex_RInt f a b ->
  is_lim_seq (fun n => trapezoid_value (S n) a b f) (RInt f a b).
Proof. exact trapezoid_lim. Qed.
Print Assumptions C20_trapezoid_converges_integrable.
Theorem C20_simpson_converges_integrable : forall (f : R -> R) a b, ex_RInt f a b ->
  is_lim_seq (fun n => simpson_value (S n) a b f) (RInt f a b).
Proof. exact simpson_lim. Qed.
Print Assumptions C20_simpson_converges_integrable.
(** A function with a jump. *)
Example C20_example_jump : ex_RInt (fun x => if Rlt_dec x 0 then 0 else 1) (-1) 1.
Proof. exact step_integrable. Qed.

(** C61: the three rules fit together. *)
Theorem C61_simpson_is_a_combination : forall n a b g, (1 <= n)%nat ->
  simpson_value n a b g = (2 * midpoint_value n a b g + trapezoid_value n a b g) / 3 /\
  trapezoid_value (2 * n) a b g = (trapezoid_value n a b g + midpoint_value n a b g) / 2 /\
  simpson_value n a b g = (4 * trapezoid_value (2 * n) a b g - trapezoid_value n a b g) / 3.
Proof.
  exact (fun n a b g Hn => conj (simpson_combination n a b g Hn)
    (conj (trapezoid_double n a b g Hn) (simpson_richardson n a b g Hn))).
Qed.
Print Assumptions C61_simpson_is_a_combination.
(** A rule of degree k*n is the sum of the rules of degree n over k equal parts. *)
Theorem C61_composite : forall n k a b g, (1 <= n)%nat -> (1 <= k)%nat ->
  let x j := a + (b - a) / INR k * INR j in
  midpoint_value (k * n) a b g = rsum k (fun j => midpoint_value n (x j) (x (S j)) g) /\
  trapezoid_value (k * n) a b g = rsum k (fun j => trapezoid_value n (x j) (x (S j)) g) /\
  simpson_value (k * n) a b g = rsum k (fun j => simpson_value n (x j) (x (S j)) g).
Proof.
  exact (fun n k a b g Hn Hk => conj (midpoint_composite n k a b g Hn Hk)
    (conj (trapezoid_composite n k a b g Hn Hk) (simpson_composite n k a b g Hn Hk))).
Qed.
Print Assumptions C61_composite.
Example C61_example : trapezoid_value 2 0 1 (fun x => x ^ 2) = 3 / 8.
Proof. exact trapezoid_two_square. Qed.

(** C62: bounds without any smoothness. *)
Theorem C62_convex : forall (f : R -> R) a b n, a <= b -> (1 <= n)%nat -> ex_RInt f a b -> convex_on a b f ->
  midpoint_value n a b f <= RInt f a b <= trapezoid_value n a b f /\
  trapezoid_value (2 * n) a b f <= trapezoid_value n a b f /\
  Rabs (simpson_value n a b f - RInt f a b) <= 2 / 3 * (trapezoid_value n a b f - midpoint_value n a b f).
Proof. exact convex_refine. Qed.
Print Assumptions C62_convex.
Theorem C62_monotone : forall (f : R -> R) a b n, a <= b -> (1 <= n)%nat -> ex_RInt f a b ->
  increasing_on a b f \/ decreasing_on a b f ->
  Rabs (midpoint_value n a b f - RInt f a b) <= (b - a) * Rabs (f b - f a) / (2 * INR n) /\
  Rabs (trapezoid_value n a b f - RInt f a b) <= (b - a) * Rabs (f b - f a) / (2 * INR n) /\
  Rabs (simpson_value n a b f - RInt f a b) <= (b - a) * Rabs (f b - f a) / (2 * INR n).
Proof. exact monotone_bound. Qed.
Print Assumptions C62_monotone.
(** The absolute value is convex; the step function is increasing. *)
Example C62_example : convex_on (-1) 1 Rabs /\ ex_RInt Rabs (-1) 1 /\
  increasing_on (-1) 1 (fun x => if Rlt_dec x 0 then 0 else 1).
Proof. exact shapes_exist. Qed.

(** C63: the bounds of C17-C19 are attained for every degree and interval, so
    the rules are not exact beyond affine functions and cubics. *)
Theorem C63_bounds_are_attained : forall n a b, (1 <= n)%nat ->
  midpoint_value n a b (fun x => x ^ 2) - RInt (fun x => x ^ 2) a b = - (2 * (b - a) ^ 3 / (24 * INR n ^ 2)) /\
  trapezoid_value n a b (fun x => x ^ 2) - RInt (fun x => x ^ 2) a b = 2 * (b - a) ^ 3 / (12 * INR n ^ 2) /\
  simpson_value n a b (fun x => x ^ 4) - RInt (fun x => x ^ 4) a b = 24 * (b - a) ^ 5 / (2880 * INR n ^ 4).
Proof.
  exact (fun n a b Hn => conj (midpoint_sharp n a b Hn) (conj (trapezoid_sharp n a b Hn) (simpson_sharp n a b Hn))).
Qed.
Print Assumptions C63_bounds_are_attained.
