(** The weighted integrals the Gauss rules approximate. *)
From Coq Require Import Reals.
From Coquelicot Require Import Coquelicot.
Local Open Scope R_scope.

(** integral over the real line of exp(-x^2) f(x) *)
Definition hermite_integral (f : R -> R) (v : R) : Prop :=
  is_RInt_gen (fun x => exp (- (x * x)) * f x) (Rbar_locally m_infty) (Rbar_locally p_infty) v.
(** integral over (0, infinity) of x^alpha exp(-x) f(x) *)
Definition laguerre_integral (alpha : R) (f : R -> R) (v : R) : Prop :=
  is_RInt_gen (fun x => Rpower x alpha * exp (- x) * f x) (at_right 0) (Rbar_locally p_infty) v.
(** integral over (-1, 1) of (1-x)^alpha (1+x)^beta f(x) *)
Definition jacobi_integral (alpha beta : R) (f : R -> R) (v : R) : Prop :=
  is_RInt_gen (fun x => Rpower (1 - x) alpha * Rpower (1 + x) beta * f x) (at_right (-1)) (at_left 1) v.
(** Euler's integral: v = Gamma(x) *)
Definition is_Gamma (x v : R) : Prop :=
  is_RInt_gen (fun t => Rpower t (x - 1) * exp (- t)) (at_right 0) (Rbar_locally p_infty) v.
(** The pairs (alpha, beta) for which GaussJacobi::new delegates to another rule. *)
Definition delegated (alpha beta : R) : Prop :=
  (alpha = 0 /\ beta = 0) \/ (alpha = - / 2 /\ beta = - / 2) \/ (alpha = / 2 /\ beta = / 2).
