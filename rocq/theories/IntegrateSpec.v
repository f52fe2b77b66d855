(** Specification vocabulary for [integrate]: calling a stateful integrand at a
    list of points. *)
From Coq Require Import List ZArith.
From Verif Require Import Arith.
Import ListNotations.

(** Call [f] at the given points, in order, threading its state; collect the
    values. *)
Fixpoint call_all {P V S : Type} (f : S -> P -> V * S) (pts : list P) (s : S) : list V * S :=
  match pts with
  | [] => ([], s)
  | x :: r => let '(v, s1) := f s x in
              let '(vs, s2) := call_all f r s1 in (v :: vs, s2)
  end.

(** Left-to-right floating-point sum, starting from -0.0. *)
Definition float_sum {A : Arith} (l : list A) : A := fold_left nadd l nnegzero.

(** A pure integrand has no state. *)
Definition pure {P V : Type} (g : P -> V) : unit -> P -> V * unit := fun s x => (g x, s).

(** The integers lo, lo+1, ..., lo+n-1. *)
Definition ints (lo : Z) (n : nat) : list Z := map (fun i => (lo + Z.of_nat i)%Z) (seq 0 n).

(** An integrand that records the points at which it is called. *)
Definition traced {P V : Type} (g : P -> V) : list P -> P -> V * list P :=
  fun trace x => (g x, trace ++ [x]).
