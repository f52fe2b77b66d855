(** The checks of all tabulated angles and weights. *)
From Coq Require Import ZArith List Bool.
From Verif Require Import LegTable LegCheck LegZero.
Lemma all_zeros : forallb zeros_check (seq 2 99) = true. Proof. vm_cast_no_check (eq_refl true). Time Qed.
Lemma all_middles : forallb middle_check (seq 1 100) = true. Proof. vm_cast_no_check (eq_refl true). Time Qed.
