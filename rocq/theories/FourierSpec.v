(** Trigonometric polynomials and Fourier series. *)
From Coq Require Import Reals.
From Coquelicot Require Import Coquelicot.
From Verif Require Import RSum.
Local Open Scope R_scope.

(** the k-th harmonic of period p: A cos (2 pi k x / p) + B sin (2 pi k x / p) *)
Definition harmonic (p : R) (k : nat) (A B x : R) : R := A * cos (2 * PI * INR k / p * x) + B * sin (2 * PI * INR k / p * x).
(** c plus the harmonics 1, ..., m *)
Definition trig (p : R) (m : nat) (c : R) (A B : nat -> R) (x : R) : R := c + rsum m (fun i => harmonic p (S i) (A (S i)) (B (S i)) x).
Definition trig_poly (p : R) (m : nat) (f : R -> R) : Prop := exists c A B, forall x, f x = trig p m c A B x.
(** [f] is the sum of its Fourier series with constant term c, and the k-th coefficients are at most M r^k *)
Definition fourier (p : R) (c M r : R) (f : R -> R) : Prop := exists A B : nat -> R,
  (forall k, Rabs (A k) <= M * r ^ k /\ Rabs (B k) <= M * r ^ k) /\
  forall x, is_series (fun i => harmonic p (S i) (A (S i)) (B (S i)) x) (f x - c).
