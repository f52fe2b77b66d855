(** Specification vocabulary for the parameter type: how user code can come by
    a value of type [FiniteAboveNegOneF64] without deserializing one. *)
From Verif Require Import Arith F64 F64Spec Param.

Section Reach.
Variable be : Backend.
Context {Str PFE : Type}.
Variable parse : Str -> f64 + PFE.

Inductive Reachable : Param (F64 be) -> Prop :=
| reach_default : Reachable param_default
| reach_new : forall v p, param_new v = Some p -> Reachable p
| reach_try_from : forall v p, param_try_from v = inl p -> Reachable p
| reach_parse : forall s p, param_from_str (A := F64 be) parse s = inl p -> Reachable p
| reach_add : forall p y q, Reachable p -> param_checked_add p y = Some q -> Reachable q
| reach_sub : forall p y q, Reachable p -> param_checked_sub p y = Some q -> Reachable q
| reach_mul : forall p y q, Reachable p -> param_checked_mul p y = Some q -> Reachable q
| reach_div : forall p y q, Reachable p -> param_checked_div p y = Some q -> Reachable q
| reach_pow : forall p y q, Reachable p -> param_checked_pow p y = Some q -> Reachable q.
End Reach.
