(** Vocabulary of the error bounds. *)
From Coq Require Import Reals.
From Coquelicot Require Import Coquelicot.
Local Open Scope R_scope.

(** [F 0, F 1, ..., F m] are a function and its first m derivatives on the domain D. *)
Definition has_derivatives (D : R -> Prop) (m : nat) (F : nat -> R -> R) : Prop :=
  forall i x, (i < m)%nat -> D x -> is_derive (F i) x (F (S i) x).

(** (alpha+1)(alpha+2)...(alpha+n) *)
Fixpoint rising (alpha : R) (n : nat) : R :=
  match n with O => 1 | S k => rising alpha k * (alpha + INR (S k)) end.

(** The open interval with end points a and b, in either order. *)
Definition open_between (a b x : R) : Prop := Rmin a b < x < Rmax a b.

(** product of 4k(k+alpha)(k+beta)(k+alpha+beta) / ((2k+alpha+beta)^2 ((2k+alpha+beta)^2 - 1)), k = 1..n:
    the integral of the squared monic Jacobi polynomial of degree n relative to the integral of 1 *)
Fixpoint jacobi_norm (alpha beta : R) (n : nat) : R :=
  match n with
  | O => 1
  | S j => let k := INR n in let s := 2 * k + alpha + beta in
           jacobi_norm alpha beta j * (4 * k * (k + alpha) * (k + beta) * (k + alpha + beta) / (s * s * (s * s - 1)))
  end.

(** The closed interval with end points a and b, in either order. *)
Definition closed_between (a b x : R) : Prop := Rmin a b <= x <= Rmax a b.

(** f is continuous on the closed interval; its values elsewhere do not matter. *)
Definition continuous_on (a b : R) (f : R -> R) : Prop :=
  forall x, closed_between a b x -> forall eps, 0 < eps ->
  exists delta, 0 < delta /\ forall y, closed_between a b y -> Rabs (y - x) < delta -> Rabs (f y - f x) < eps.

(** f changes by at most omega between points of the closed interval at most delta apart. *)
Definition oscillation (a b : R) (f : R -> R) (delta omega : R) : Prop :=
  forall x y, closed_between a b x -> closed_between a b y -> Rabs (x - y) <= delta -> Rabs (f x - f y) <= omega.
