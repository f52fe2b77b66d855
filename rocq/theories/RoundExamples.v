(** Concrete cases for the rounding error theorems, and the size of the bound. *)
From Coq Require Import Reals ZArith List Lra Lia Psatz.
From Flocq Require Import Core.
From Verif Require Import Arith F64 F64Spec Machine Rules Par Hermite Legendre NewtonCotes
  IntegrateSpec GaussSpec RoundSpec RoundProof.
Import ListNotations.
Local Open Scope R_scope.
Lemma ex_hermite : forall be : Backend, let r := {| hermite_pairs := [(nlit (-5) (-1), nlit 1 0); (nlit 3 (-1), nlit 2 0)] |} in
  ffin (fst (hermite_integrate (A := F64 be) (pure (fun x => nmul x x)) r tt)) /\
  ffin (hermite_par_integrate (A := F64 be) (Split 1 Seq Seq) (fun x => nmul x x) r).
Proof. intros be r. split; vm_compute; reflexivity. Qed.
Lemma ex_legendre : forall be : Backend, let r := {| legendre_pairs := [(nlit (-5) (-1), nlit 1 0); (nlit 3 (-1), nlit 2 0)] |} in
  ffin (fst (legendre_integrate (A := F64 be) (pure (fun x => nmul x x)) r lit1 lit2 tt)) /\
  ffin (legendre_par_integrate (A := F64 be) (Split 1 Seq Seq) (fun x => nmul x x) r lit1 lit2).
Proof. intros be r. split; vm_compute; reflexivity. Qed.
Lemma ex_nc : forall be : Backend,
  ffin (fst (midpoint_integrate (A := F64 be) (pure (fun x => nmul x x)) (midpoint_new 3) lit1 lit2 tt)) /\
  ffin (fst (trapezoid_integrate (A := F64 be) (pure (fun x => nmul x x)) (trapezoid_new 3) lit1 lit2 tt)) /\
  ffin (fst (simpson_integrate (A := F64 be) (pure (fun x => nmul x x)) (simpson_new 3) lit1 lit2 tt)) /\
  ffin (midpoint_par_integrate (A := F64 be) (fun x => nmul x x) (Split 1 Seq Seq) (midpoint_new 3) lit1 lit2) /\
  ffin (trapezoid_par_integrate (A := F64 be) (fun x => nmul x x) (Split 1 Seq Seq) (trapezoid_new 3) lit1 lit2) /\
  ffin (simpson_par_integrate (A := F64 be) (fun x => nmul x x) (Split 1 Seq Seq) Seq (simpson_new 3) lit1 lit2).
Proof. intros be. repeat split; vm_compute; reflexivity. Qed.
Lemma uro_small : uro <= / 1000000.
Proof. unfold uro. apply Rle_trans with (bpow radix2 (-20)); [apply bpow_le; lia|]. simpl. lra. Qed.
Lemma ex_size : INR 1000 * uro <= / 100.
Proof. pose proof uro_small. rewrite INR_IZR_INZ. change (Z.of_nat 1000) with 1000%Z. lra. Qed.
Lemma bound_size : forall n, INR n * uro <= / 100 -> (1 + uro) ^ n - 1 <= 102 / 100 * (INR n * uro).
Proof.
  assert (B : forall n, INR n * uro <= 1 -> (1 + uro) ^ n * (1 - INR n * uro) <= 1).
  { induction n as [|n IH]; intros H; [simpl; lra|]. rewrite S_INR in *. pose proof uro_pos as U. pose proof (pos_INR n) as P.
    assert (G : 1 <= (1 + uro) ^ n) by apply g_ge1. assert (IH' : (1 + uro) ^ n * (1 - INR n * uro) <= 1) by (apply IH; nra).
    cbn [pow]. replace ((1 + uro) * (1 + uro) ^ n * (1 - (INR n + 1) * uro)) with ((1 + uro) ^ n * (1 - INR n * uro) - (1 + uro) ^ n * (uro * uro * (INR n + 1))) by ring.
    assert (0 <= (1 + uro) ^ n * (uro * uro * (INR n + 1))) by (apply Rmult_le_pos; [lra|apply Rmult_le_pos; [nra|lra]]). lra. }
  intros n H. assert (B1 := B n ltac:(lra)). pose proof uro_pos as U. pose proof (pos_INR n) as P. set (x := INR n * uro) in *. assert (0 <= x) by (unfold x; nra).
  set (y := (1 + uro) ^ n) in *. nra.
Qed.
