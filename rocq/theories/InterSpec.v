(** Interlacing of the nodes of two rules. *)
From Coq Require Import Reals List.
Import ListNotations.
Local Open Scope R_scope.

(** [l] is the list of (node, weight) pairs of a rule with one point less than the rule [m]:
    between any two neighbouring nodes of [m] lies exactly one node of [l], strictly, and [l] has no other nodes. *)
Definition interlaced (l m : list (R * R)) : Prop :=
  length m = S (length l) /\
  forall i, (i < length l)%nat -> fst (nth i m (0, 0)) < fst (nth i l (0, 0)) < fst (nth (S i) m (0, 0)).
