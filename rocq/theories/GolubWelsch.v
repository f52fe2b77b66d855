(** The Golub-Welsch driver, src/golub_welsch.rs. *)
From Coq Require Import ZArith List.
From Verif Require Import Arith Machine Rules.
Import ListNotations.
Local Open Scope num_scope.

(** External code that golub_welsch calls. *)
Record Linalg (A : Arith) : Type := {
  (* nalgebra [symmetric_eigen]: (eigenvalues, rows of the eigenvector matrix);
     the matrix is given by its rows *)
  symmetric_eigen : list (list A) -> list A * list (list A);
  (* core [sort_unstable_by] on node-weight pairs *)
  sort_unstable_by : (A * A -> A * A -> comparison) -> list (A * A) -> list (A * A)
}.
Arguments symmetric_eigen {_} _ _. Arguments sort_unstable_by {_} _ _ _.

Section GolubWelsch.
Context {A : Arith}.

(** Dense square matrix given by its rows. *)
Definition zeros (n : nat) : list (list A) := repeat (repeat lit0 n) n.

(** [l[i] = v] and [m[(i, j)] = v] with bounds checks. *)
Fixpoint list_set {X} (l : list X) (i : nat) (v : X) : Res (list X) :=
  match l, i with
  | [], _ => Panic
  | _ :: r, O => Ok (v :: r)
  | x :: r, S i' => let! r' := list_set r i' v in Ok (x :: r')
  end.
Definition mat_set (m : list (list A)) (i j : nat) (v : A) : Res (list (list A)) :=
  match nth_error m i with
  | None => Panic
  | Some row => let! row' := list_set row j v in list_set m i row'
  end.

(** The loop body of src/golub_welsch.rs:35-40. *)
Definition fill_step (diag off_diag : nat -> A) (m : list (list A)) (idx : nat)
  : Res (list (list A)) :=
  let! m := mat_set m idx idx (diag idx) in
  let off_diag_elem := off_diag idx in
  let! m := mat_set m idx (idx + 1) off_diag_elem in
  mat_set m (idx + 1) idx off_diag_elem.

Fixpoint fill_loop (diag off_diag : nat -> A) (idxs : list nat) (m : list (list A))
  : Res (list (list A)) :=
  match idxs with
  | [] => Ok m
  | i :: r => let! m := fill_step diag off_diag m i in fill_loop diag off_diag r m
  end.

(** src/golub_welsch.rs:32-41: building the companion matrix. *)
Definition companion_matrix (degree : nat) (diag off_diag : nat -> A) : Res (list (list A)) :=
  let! m := fill_loop diag off_diag (seq 0 (degree - 1)) (zeros degree) in
  mat_set m (degree - 1) (degree - 1) (diag (degree - 1)).

(** src/golub_welsch.rs:22-61.  [row(0)] of an empty matrix would panic. *)
Definition golub_welsch (ext : Linalg A) (degree : nat) (diag off_diag : nat -> A)
  (scale_factor : A) : Res (Pairs A) :=
  let! m := companion_matrix degree diag off_diag in
  let '(eigenvalues, eigenvectors) := symmetric_eigen ext m in
  let! row0 := index eigenvectors 0 in
  let node_weight_pairs :=
    combine eigenvalues (map (fun x => x [*] x [*] scale_factor) row0) in
  Ok (sort_unstable_by ext (fun p q => ntotal_cmp (fst p) (fst q)) node_weight_pairs).

End GolubWelsch.
