(** The classical constant of the Gauss-Legendre rule: 2^(2n+1) (n!)^4 / ((2n+1) ((2n)!)^2), the
    integral over [-1,1] of the square of the monic Legendre polynomial of degree n. *)
From Coq Require Import Reals.
Local Open Scope R_scope.

Definition leg_const (n : nat) : R := 2 ^ (2 * n + 1) * INR (fact n) ^ 4 / (INR (2 * n + 1) * INR (fact (2 * n)) ^ 2).
