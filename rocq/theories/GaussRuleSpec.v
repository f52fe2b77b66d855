(** The Gauss rule with n points for the interval [-1,1]: the rule whose n nodes, listed in
    ascending order, integrate every polynomial of degree at most 2n-1 exactly. *)
From Coq Require Import Reals List.
From Coquelicot Require Import Coquelicot.
From Verif Require Import PolySpec MassSpec.
Local Open Scope R_scope.

Definition gauss_rule (n : nat) (l : list (R * R)) : Prop :=
  length l = n /\ strictly_ascending l /\ forall p, polynomial (2 * n - 1) p -> apply_rule l p = RInt p (-1) 1.
