(** Polynomial functions and what it means for a rule to be exact. *)
From Coq Require Import Reals List.
From Verif Require Import RSum.
Local Open Scope R_scope.

(** [f] is a polynomial function of degree at most [d]:
    f x = c 0 + c 1 x + ... + c d x^d. *)
Definition polynomial (d : nat) (f : R -> R) : Prop :=
  exists c : nat -> R, forall x, f x = rsum (S d) (fun i => c i * x ^ i).

(** The plain weighted sum of a list of (node, weight) pairs. *)
Definition apply_rule (l : list (R * R)) (g : R -> R) : R :=
  lsum (map (fun xw => g (fst xw) * snd xw) l).

(** A functional that is linear on polynomials. *)
Definition linear_on_polynomials (L : (R -> R) -> R) : Prop :=
  forall d c e f g, polynomial d f -> polynomial d g ->
  L (fun x => c * f x + e * g x) = c * L f + e * L g.
