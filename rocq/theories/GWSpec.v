(** Specification vocabulary for the Golub-Welsch driver. *)
From Coq Require Import List Arith ZArith Permutation Sorted.
From Verif Require Import Arith GolubWelsch.
Import ListNotations.

(** [m] is an n by n matrix, given by its rows. *)
Definition square {X} (n : nat) (m : list (list X)) : Prop :=
  length m = n /\ Forall (fun row => length row = n) m.
Definition entry {A : Arith} (m : list (list A)) (i j : nat) : A := nth j (nth i m []) lit0.

(** The symmetric tridiagonal matrix with the given diagonals. *)
Definition tridiagonal {A : Arith} (diag off_diag : nat -> A) (i j : nat) : A :=
  if i =? j then diag i
  else if j =? i + 1 then off_diag i
  else if i =? j + 1 then off_diag j
  else lit0.

(** A comparator that describes a total preorder. *)
Definition total_preorder {X} (cmp : X -> X -> comparison) : Prop :=
  (forall x y, cmp y x = CompOpp (cmp x y)) /\
  (forall x y z, cmp x y <> Gt -> cmp y z <> Gt -> cmp x z <> Gt).

(** What the standard library promises about sort_unstable_by. *)
Definition sorts {A : Arith} (ext : Linalg A) : Prop :=
  forall cmp l, Permutation (sort_unstable_by ext cmp l) l /\
  (total_preorder cmp -> StronglySorted (fun p q => cmp p q <> Gt) (sort_unstable_by ext cmp l)).

(** Ascending order of the nodes with respect to total_cmp. *)
Definition ascending {A : Arith} (l : list (A * A)) : Prop :=
  StronglySorted (fun p q => ntotal_cmp (fst p) (fst q) <> Gt) l.

(** The eigenvalue solver returns as many eigenvalues and eigenvector rows and
    columns as the matrix has rows. *)
Definition shape_preserving {A : Arith} (ext : Linalg A) : Prop :=
  forall n m, square n m ->
  length (fst (symmetric_eigen ext m)) = n /\ square n (snd (symmetric_eigen ext m)).
