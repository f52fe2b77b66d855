(** Integrands with singular end points. *)
From Coq Require Import Reals Lra.
From Coquelicot Require Import Coquelicot.
From Verif Require Import SingularSpec.
Local Open Scope R_scope.

Lemma ln_singular : singular_ends 0 1 0 (1 / 4) ln.
Proof.
  split.
  - intros x Hx. apply (ex_derive_continuous (V := R_NormedModule)). auto_derive. lra.
  - exists 4. intros x [H1 H2]. assert (L : ln x < 0) by (rewrite <- ln_1; apply ln_increasing; lra).
    rewrite Rabs_left by exact L. unfold Rpower. rewrite Rminus_0_r.
    assert (A := exp_ineq1_le (- (1 / 4) * ln x)). assert (B := exp_pos (- 0 * ln (1 - x))). lra.
Qed.
Lemma root_singular : singular_ends (-1) 1 (1 / 2) 0 (fun x => / sqrt (1 - x)).
Proof.
  split.
  - intros x Hx. apply (ex_derive_continuous (V := R_NormedModule)).
    assert (P : 0 < sqrt (1 - x)) by (apply sqrt_lt_R0; lra). auto_derive. replace (1 + - x) with (1 - x) by ring. repeat split; lra.
  - exists 1. intros x [H1 H2]. assert (P : 0 < sqrt (1 - x)) by (apply sqrt_lt_R0; lra).
    rewrite Rabs_pos_eq by (left; apply Rinv_0_lt_compat, P). rewrite Rpower_Ropp. replace (1 / 2) with (/ 2) by field. rewrite Rpower_sqrt by lra.
    assert (B := exp_pos (- 0 * ln (x - -1))). fold (Rpower (x - -1) (- 0)) in B. lra.
Qed.
