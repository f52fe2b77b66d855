(** Vocabulary for the order of nodes in double arithmetic. *)
From Coq Require Import Reals ZArith List Sorting.Sorted.
From Verif Require Import Arith F64 F64Spec.
Import ListNotations.
Local Open Scope R_scope.

(** Finite nodes strictly between -1 and 1, in strictly ascending order, and finite positive weights *)
Definition separated (l : list (f64 * f64)) : Prop :=
  StronglySorted (fun p q => fval (fst p) < fval (fst q)) l /\
  Forall (fun p => (ffin (fst p) /\ -1 < fval (fst p) < 1) /\ (ffin (snd p) /\ 0 < fval (snd p))) l.
(** The library's cosine does not increase between 0 and pi, with respect to f64::total_cmp. *)
Definition falling_cos (be : Backend) : Prop :=
  forall x y : f64, ffin x -> ffin y -> 0 <= fval x <= fval y -> fval y <= PI -> f64_total_cmp (be_cos be y) (be_cos be x) <> Gt.
(** The two largest nodes are both equal to 1. *)
Definition ends_in_ones (l : list (f64 * f64)) : Prop := exists l' p q, l = l' ++ [p; q] /\ fval (fst p) = 1 /\ fval (fst q) = 1.
