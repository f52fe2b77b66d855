(** Total variation. *)
From Coq Require Import Reals List Sorted.
Local Open Scope R_scope.
Import ListNotations.

(** how far [f] travels along the points [x], [l] *)
Fixpoint travel (f : R -> R) (x : R) (l : list R) : R :=
  match l with
  | [] => 0
  | y :: r => Rabs (f y - f x) + travel f y r
  end.
(** Along ascending points of the set [D] the function travels at most [V]: its total variation on [D] is at most [V]. *)
Definition varies_at_most (D : R -> Prop) (f : R -> R) (V : R) : Prop :=
  forall x l, Sorted Rle (x :: l) -> Forall D (x :: l) -> travel f x l <= V.
