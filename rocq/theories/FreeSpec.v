(** Arithmetic on formal expressions: used to observe which calls of the
    integrand a computation makes, whatever it does with the results. *)
From Coq Require Import ZArith List.
From Verif Require Import Arith.
Import ListNotations.

Inductive expr : Type :=
| Const (m e : Z)              (* literals, converted integers, constants, given numbers *)
| Fun1 (f : nat) (x : expr)
| Fun2 (f : nat) (x y : expr)
| Call (point : expr).         (* the value of the integrand at a point *)

(** Expressions as numbers: nothing is evaluated. *)
Definition FA : Arith := {|
  num := expr;
  nadd := Fun2 0; nsub := Fun2 1; nmul := Fun2 2; ndiv := Fun2 3;
  nsin := Fun1 0; ncos := Fun1 1; npow := Fun2 4; nsqrt := Fun1 2;
  ncmp := fun _ _ => None;
  ntotal_cmp := fun _ _ => Eq;
  nfinite := fun _ => true;
  nofZ := fun z => Const z 0;
  nlit := Const;
  nnegzero := Const 0 1; npi := Const 0 2; neul := Const 0 3
|}.

(** The points of all calls of the integrand in an expression, from left to right. *)
Fixpoint calls (e : expr) : list expr :=
  match e with
  | Const _ _ => []
  | Fun1 _ x => calls x
  | Fun2 _ x y => calls x ++ calls y
  | Call p => [p]
  end.

(** The nodes and weights of a rule, as expressions without calls. *)
Definition call_free (l : list (expr * expr)) : Prop :=
  Forall (fun xw => calls (fst xw) = [] /\ calls (snd xw) = []) l.
