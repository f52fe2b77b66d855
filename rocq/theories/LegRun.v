(** The checks of all tabulated degrees. *)
From Coq Require Import ZArith List Bool.
From Verif Require Import LegTable LegCheck.
Lemma all_checked : forallb n_check (seq 1 100) = true. Proof. vm_cast_no_check (eq_refl true). Time Qed.
Lemma small_all : forallb weights_small (seq 2 99) = true. Proof. vm_compute. reflexivity. Qed.
