(** Inequalities between integrals. *)
From Coq Require Import Reals ZArith List.
From Flocq Require Import IEEE754.Binary.
From Verif Require Import Arith F64 F64Spec RInst NestSpec ExcSpec.
Import ListNotations.
Local Open Scope R_scope.

(** Exact arithmetic: the integral runs forward and no weight is negative (OrderSpec.v has the same for doubles). *)
Definition forward_exact (q : quadrature RA) : Prop :=
  usable q /\ match bounds q with [a; b] => (a : R) <= b | _ => True end /\ Forall (fun w : R => 0 <= w) (weights q).
Definition convex (phi : R -> R) : Prop := forall x y t, 0 <= t <= 1 -> phi (t * x + (1 - t) * y) <= t * phi x + (1 - t) * phi y.
(** The absolute value of a double; [n] chooses the NaN that the absolute value of a NaN is. *)
Definition magnitude (n : f64 -> nan64) (x : f64) : f64 := Babs 53 1024 n x.
