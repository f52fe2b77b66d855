(** The hypotheses of the error bounds hold for concrete integrands. *)
From Coq Require Import Reals Lra.
From Coquelicot Require Import Coquelicot.
From Verif Require Import NCSpec NCBound.
Local Open Scope R_scope.

Lemma sin_d x : is_derive sin x (cos x). Proof. auto_derive; [trivial|ring]. Qed.
Lemma cos_d x : is_derive cos x (- sin x). Proof. auto_derive; [trivial|ring]. Qed.
Lemma nsin_d x : is_derive (fun y => - sin y) x (- cos x). Proof. auto_derive; [trivial|ring]. Qed.
Lemma ncos_d x : is_derive (fun y => - cos y) x (sin x). Proof. auto_derive; [trivial|ring]. Qed.
Lemma sin_cont x : continuous sin x.
Proof. apply (ex_derive_continuous (V := R_NormedModule)). exists (cos x). apply sin_d. Qed.
Lemma sin_abs x : Rabs (sin x) <= 1. Proof. apply Rabs_le, SIN_bound. Qed.
Lemma nsin_abs x : Rabs (- sin x) <= 1. Proof. rewrite Rabs_Ropp. apply sin_abs. Qed.

Lemma midpoint_sin : forall a b n, (1 <= n)%nat ->
  Rabs (midpoint_value n a b sin - RInt sin a b) <= 1 * Rabs (b - a) ^ 3 / (24 * INR n ^ 2).
Proof.
  intros. apply (midpoint_bound sin cos (fun y => - sin y)); auto using sin_cont, sin_d, cos_d, nsin_abs.
Qed.
Lemma trapezoid_sin : forall a b n, (1 <= n)%nat ->
  Rabs (trapezoid_value n a b sin - RInt sin a b) <= 1 * Rabs (b - a) ^ 3 / (12 * INR n ^ 2).
Proof.
  intros. apply (trapezoid_bound sin cos (fun y => - sin y)); auto using sin_cont, sin_d, cos_d, nsin_abs.
Qed.
Lemma simpson_sin : forall a b n, (1 <= n)%nat ->
  Rabs (simpson_value n a b sin - RInt sin a b) <= 1 * Rabs (b - a) ^ 5 / (2880 * INR n ^ 4).
Proof.
  intros. apply (simpson_bound sin cos (fun y => - sin y) (fun y => - cos y) sin);
  auto using sin_cont, sin_d, cos_d, nsin_d, ncos_d, sin_abs.
Qed.
