(** A weight function on [-1,1] carried over to another interval. *)
From Coq Require Import Reals.
From Coquelicot Require Import Coquelicot.
From Verif Require Import PolySpec.
Local Open Scope R_scope.

(** The point of [-1,1] that corresponds to x in [a,b]. *)
Definition to_unit (a b x : R) : R := 2 * (x - a) / (b - a) - 1.

(** v is the integral from a to b of w((2(x-a)/(b-a)-1) f(x); the integral may be
    improper at both ends, and a may be the right end. *)
Definition weighted_integral (w : R -> R) (a b : R) (f : R -> R) (v : R) : Prop :=
  (a < b /\ is_RInt_gen (fun x => w (to_unit a b x) * f x) (at_right a) (at_left b) v) \/
  (b < a /\ is_RInt_gen (fun x => w (to_unit a b x) * f x) (at_left a) (at_right b) v).

(** The pairs l integrate all polynomials of degree at most d exactly against w, as an
    improper integral over (-1,1), or as a proper one over [-1,1]. *)
Definition exact_against (w : R -> R) (d : nat) (l : list (R * R)) : Prop :=
  forall p, polynomial d p -> is_RInt_gen (fun x => w x * p x) (at_right (-1)) (at_left 1) (apply_rule l p).
Definition properly_exact_against (w : R -> R) (d : nat) (l : list (R * R)) : Prop :=
  forall p, polynomial d p -> is_RInt (fun x => w x * p x) (-1) 1 (apply_rule l p).
