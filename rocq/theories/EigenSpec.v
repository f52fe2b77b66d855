(** Exact eigendecompositions and the orthogonal polynomials of a three-term
    recurrence. *)
From Coq Require Import Reals List Arith.
From Verif Require Import Arith RInst RSum GolubWelsch GWSpec.
Import ListNotations.
Local Open Scope R_scope.

Definition kronecker (i j : nat) : R := if Nat.eqb i j then 1 else 0.

(** [ev] = (eigenvalues, rows of the matrix V of eigenvectors): V is an orthogonal
    n by n matrix and column j of V is an eigenvector of [m] for eigenvalue j. *)
Definition exact_eigen (n : nat) (m : list (list RA)) (ev : list RA * list (list RA)) : Prop :=
  let V := @entry RA (snd ev) in
  length (fst ev) = n /\ square n (snd ev) /\
  (forall i j, (i < n)%nat -> (j < n)%nat ->
     rsum n (fun k => @entry RA m i k * V k j) = nth j (fst ev) 0 * V i j) /\
  (forall i j, (i < n)%nat -> (j < n)%nat -> rsum n (fun k => V i k * V j k) = kronecker i j) /\
  (forall i j, (i < n)%nat -> (j < n)%nat -> rsum n (fun k => V k i * V k j) = kronecker i j).

(** The monic polynomials of the recurrence with diagonal [a] and off-diagonal [b]:
    P_0 = 1, P_{k+1} = (x - a_k) P_k - b_{k-1}^2 P_{k-1}. *)
Fixpoint monic (a b : nat -> R) (k : nat) (x : R) : R :=
  match k with
  | O => 1
  | S j => (x - a j) * monic a b j x
           - match j with O => 0 | S i => b i * b i * monic a b i x end
  end.

(** The polynomials P_0, ..., P_n are orthogonal with respect to the functional. *)
Definition orthogonal_up_to (n : nat) (L : (R -> R) -> R) (P : nat -> R -> R) : Prop :=
  forall i k, (i < k)%nat -> (k <= n)%nat -> L (fun x => P i x * P k x) = 0.

(** The eigenvalue solver is exact on the matrix of the recurrence (on nothing else
    is it required to be). *)
Definition exact_on (ext : Linalg RA) (n : nat) (a b : nat -> R) : Prop :=
  forall m, square n m ->
    (forall i j, (i < n)%nat -> (j < n)%nat -> @entry RA m i j = @tridiagonal RA a b i j) ->
    exact_eigen n m (symmetric_eigen ext m).
