(** The values the library uses for the total mass of the Jacobi weight, in exact
    arithmetic; [gamma] is the library's own approximation (src/math.rs). *)
From Coq Require Import Reals List Sorted.
From Verif Require Import Arith RInst Gamma.
Local Open Scope R_scope.

(** degree at least two: 2^(alpha+beta+1) gamma(alpha+1) gamma(beta+1) / gamma(alpha+beta+1) / (alpha+beta+1) *)
Definition jacobi_mass (alpha beta : R) : R :=
  Rpower 2 (alpha + beta + 1) * @gamma RA (alpha + 1) * @gamma RA (beta + 1) / @gamma RA (alpha + beta + 1) / (alpha + beta + 1).
(** degree one: 2^(alpha+beta+1) gamma(alpha+1) gamma(beta+1) / gamma(alpha+beta+2) *)
Definition jacobi_mass1 (alpha beta : R) : R :=
  Rpower 2 (alpha + beta + 1) * @gamma RA (alpha + 1) * @gamma RA (beta + 1) / @gamma RA (alpha + beta + 2).

(** Nodes strictly increase along the list. *)
Definition strictly_ascending (l : list (R * R)) : Prop := StronglySorted (fun p q => fst p < fst q) l.
