(** Eigenvalue solvers in double arithmetic. *)
From Coq Require Import Reals List.
From Verif Require Import Arith F64 F64Spec RSum GolubWelsch GWSpec EigenSpec InexactSpec.
Import ListNotations.
Local Open Scope R_scope.

(** The solver returns finite doubles and has errors of at most rho and phi on the matrix of doubles
    with the given diagonals; its eigenvalues are at most tau. *)
Definition float_solver {be : Backend} (ext : Linalg (F64 be)) (n : nat) (diag off : nat -> F64 be) (tau rho phi : R) : Prop :=
  forall m, square n m -> (forall i j, (i < n)%nat -> (j < n)%nat -> entry m i j = tridiagonal diag off i j) ->
    let ev := symmetric_eigen ext m in
    length (fst ev) = n /\ square n (snd ev) /\
    Forall ffin (fst ev) /\ Forall (Forall ffin) (snd ev) /\
    (forall k, (k < n)%nat -> Rabs (fval (nth k (fst ev) lit0)) <= tau) /\
    eigen_error n (fun i j => fval (entry m i j)) (fun k => fval (nth k (fst ev) lit0)) (fun i j => fval (entry (snd ev) i j)) rho phi.

(** The real numbers that the nodes and weights of a rule are. *)
Definition real_pairs (l : list (f64 * f64)) : list (R * R) := map (fun p => (fval (fst p), fval (snd p))) l.
