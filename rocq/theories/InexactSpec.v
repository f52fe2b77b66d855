(** Eigenvalue solvers with errors. *)
From Coq Require Import Reals List.
From Verif Require Import Arith RInst RSum GolubWelsch GWSpec EigenSpec.
Import ListNotations.
Local Open Scope R_scope.

(** lam and the columns of V are eigenvalues and eigenvectors of the n by n matrix M up to rho in every
    component of M v - lam v; up to phi, the products of the rows of V with its first row are those of
    an orthogonal matrix and the squares in every column sum to 1. *)
Definition eigen_error (n : nat) (M : nat -> nat -> R) (lam : nat -> R) (V : nat -> nat -> R) (rho phi : R) : Prop :=
  (forall i k, (i < n)%nat -> (k < n)%nat -> Rabs (rsum n (fun j => M i j * V j k) - lam k * V i k) <= rho) /\
  (forall i, (i < n)%nat -> Rabs (rsum n (fun k => V i k * V O k) - kronecker i 0) <= phi) /\
  (forall k, (k < n)%nat -> Rabs (rsum n (fun i => V i k * V i k) - 1) <= phi).

(** The solver has errors of at most rho and phi on the matrix of the recurrence; tau bounds the
    eigenvalues it returns and the row sums of the matrix. *)
Definition row_sums (n : nat) (a b : nat -> R) (tau : R) : Prop :=
  forall i, (i < n)%nat -> rsum n (fun j => Rabs (@tridiagonal RA a b i j)) <= tau.
Definition inexact_on (ext : Linalg RA) (n : nat) (a b : nat -> R) (tau rho phi : R) : Prop :=
  row_sums n a b tau /\
  forall m, square n m ->
    (forall i j, (i < n)%nat -> (j < n)%nat -> @entry RA m i j = @tridiagonal RA a b i j) ->
    let ev := symmetric_eigen ext m in
    length (fst ev) = n /\ square n (snd ev) /\ (forall k, (k < n)%nat -> Rabs (nth k (fst ev) 0) <= tau) /\
    eigen_error n (@entry RA m) (fun k => nth k (fst ev) 0) (@entry RA (snd ev)) rho phi.

(** What such errors do to the integral of x^j (relative to the integral of 1). *)
Definition moment_error (n : nat) (tau rho phi : R) (j : nat) : R :=
  phi * tau ^ j + rho * sqrt (INR n * (1 + phi)) * (INR j * tau ^ (j - 1)).
