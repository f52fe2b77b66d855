(** Vocabulary for integrands that are only known to be monotone; they may jump. *)
From Coq Require Import Reals List.
Local Open Scope R_scope.
Import ListNotations.

(** [f] does not decrease on the set [D] and keeps between [bot] and [top] there. *)
Definition rises_between (D : R -> Prop) (f : R -> R) (bot top : R) : Prop :=
  (forall x y, D x -> D y -> x <= y -> f x <= f y) /\ forall x, D x -> bot <= f x <= top.

(** The weighted sum of a rule with every node replaced by the next one to the right; [top] stands for
    the value right of the last node. *)
Fixpoint sum_right (top : R) (f : R -> R) (l : list (R * R)) : R :=
  match l with
  | [] => 0
  | (_, w) :: r => w * (match r with [] => top | (y, _) :: _ => f y end) + sum_right top f r
  end.
(** The weighted sum of a rule with every node replaced by the next one to the left; [bot] stands for
    the value left of the first node. *)
Fixpoint sum_left (bot : R) (f : R -> R) (l : list (R * R)) : R :=
  match l with
  | [] => 0
  | (x, w) :: r => w * bot + sum_left (f x) f r
  end.

(** The rule carried from [-1,1] to [a,b]. *)
Definition carried (a b : R) (l : list (R * R)) : list (R * R) :=
  map (fun xw => ((b - a) / 2 * fst xw + (a + b) / 2, (b - a) / 2 * snd xw)) l.
