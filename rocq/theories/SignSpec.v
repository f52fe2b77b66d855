(** Signs of doubles. *)
From Coq Require Import List.
From Verif Require Import Arith F64.

(** Not a negative number: zero, positive, +infinity or NaN, i.e. [x < 0.0] is false. *)
Definition not_negative {be : Backend} (x : F64 be) : Prop := nlt x lit0 = false.
(** No weight of a list of (node, weight) pairs is negative. *)
Definition weights_not_negative {be : Backend} (p : list (F64 be * F64 be)) : Prop :=
  Forall (fun q => not_negative (snd q)) p.
