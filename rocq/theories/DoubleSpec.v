(** Double integrals. *)
From Coq Require Import Reals.
From Coquelicot Require Import Coquelicot.
From Verif Require Import NCSpec.
Local Open Scope R_scope.

(** [V n a b f] is what integrate of one of the three Newton-Cotes rules of degree n returns *)
Definition newton_cotes (V : nat -> R -> R -> (R -> R) -> R) : Prop := V = midpoint_value \/ V = trapezoid_value \/ V = simpson_value.
(** [g] is a continuous function of two variables *)
Definition continuous2 (g : R -> R -> R) : Prop := forall x y, continuous (fun z : R * R => g (fst z) (snd z)) (x, y).
(** the integral over the region between the graphs of [c] and [d] *)
Definition region_integral (a b : R) (c d : R -> R) (g : R -> R -> R) : R := RInt (fun x => RInt (g x) (c x) (d x)) a b.
