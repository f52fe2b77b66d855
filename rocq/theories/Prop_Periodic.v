(** Property C93: periodic integrands over a full period. With n cells the trapezoid, midpoint and Simpson rules integrate
    every trigonometric polynomial of degree below n exactly, and n is the limit; for any other integrand they are as good
    as the best approximation by such polynomials; for analytic periodic integrands (geometrically decreasing Fourier
    coefficients) the error decreases geometrically. Exact arithmetic.
    [harmonic], [trig_poly], [fourier]: FourierSpec.v; [midpoint_value], ...: what integrate returns (NCSpec.v). *)
From Coq Require Import Reals Lra Lia.
From Coquelicot Require Import Coquelicot.
From Verif Require Import RSum NCSpec FourierSpec Trig Fourier FourierEx.
Local Open Scope R_scope.

Theorem C93_exact : forall a b n, b - a <> 0 -> (1 <= n)%nat -> forall f, trig_poly (b - a) (n - 1) f ->
  is_RInt f a b (midpoint_value n a b f) /\ is_RInt f a b (trapezoid_value n a b f) /\ is_RInt f a b (simpson_value n a b f).
Proof. exact trig_exact. Qed.
Print Assumptions C93_exact.
(** Not for degree n *)
Theorem C93_limit : forall a b n, b - a <> 0 -> (1 <= n)%nat -> let f := fun x => cos (2 * PI * INR n / (b - a) * (x - a)) in
  trig_poly (b - a) n f /\ is_RInt f a b 0 /\
  trapezoid_value n a b f = b - a /\ midpoint_value n a b f = - (b - a) /\ simpson_value n a b f = - (b - a) / 3.
Proof. exact trig_sharp. Qed.
Print Assumptions C93_limit.
(** Any integrable function that is within e of a trigonometric polynomial of degree below n *)
Theorem C93_best_approximation : forall a b n f T e, a < b -> (1 <= n)%nat -> trig_poly (b - a) (n - 1) T ->
  (forall x, a <= x <= b -> Rabs (f x - T x) <= e) -> ex_RInt f a b ->
  Rabs (midpoint_value n a b f - RInt f a b) <= 2 * (b - a) * e /\
  Rabs (trapezoid_value n a b f - RInt f a b) <= 2 * (b - a) * e /\
  Rabs (simpson_value n a b f - RInt f a b) <= 2 * (b - a) * e.
Proof. exact trig_near. Qed.
Print Assumptions C93_best_approximation.
(** Geometric convergence *)
Theorem C93_geometric : forall a b c M r f n, a < b -> 0 <= r < 1 -> fourier (b - a) c M r f -> (1 <= n)%nat ->
  is_RInt f a b ((b - a) * c) /\
  Rabs (midpoint_value n a b f - RInt f a b) <= (b - a) * (2 * M * r ^ n / (1 - r)) /\
  Rabs (trapezoid_value n a b f - RInt f a b) <= (b - a) * (2 * M * r ^ n / (1 - r)) /\
  Rabs (simpson_value n a b f - RInt f a b) <= (b - a) * (2 * M * r ^ n / (1 - r)).
Proof. exact fourier_rate. Qed.
Print Assumptions C93_geometric.

(** cos^2 over [0, 2 pi] *)
Example C93_square : trig_poly (2 * PI - 0) (3 - 1) (fun x => cos x * cos x) /\ 2 * PI - 0 <> 0.
Proof. exact square_trig. Qed.
(** The Poisson kernel, the classical analytic periodic function, meets the hypotheses of the last theorem *)
Example C93_poisson : forall r, 0 <= r < 1 -> fourier (2 * PI - 0) 1 2 r (fun x => (1 - r * r) / (1 - 2 * r * cos x + r * r)).
Proof. exact poisson. Qed.
