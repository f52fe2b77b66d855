(** change_degree / From / new of the Newton-Cotes rules, and the doubles their
    iterators deliver. *)
From Coq Require Import ZArith List Reals Lia Lra.
From Flocq Require Import Core.
From Verif Require Import Arith F64 F64Spec F64Proof Machine Iter Rules NewtonCotes
  IntegrateSpec IterSpec IterProof IntegrateProof.
Import ListNotations.

Lemma midpoint_history : forall ds r,
  fold_left midpoint_change_degree ds r = midpoint_new (last ds (midpoint_degree r)).
Proof.
  induction ds as [|d ds IH]; intros [n]; [reflexivity|]. simpl fold_left. rewrite IH.
  destruct ds; [reflexivity|]. simpl. f_equal. clear. revert z. induction ds; intros; [reflexivity|].
  simpl. destruct ds; auto.
Qed.
Lemma trapezoid_history : forall ds r,
  fold_left trapezoid_change_degree ds r = trapezoid_new (last ds (trapezoid_degree r)).
Proof.
  induction ds as [|d ds IH]; intros [n]; [reflexivity|]. simpl fold_left. rewrite IH.
  destruct ds; [reflexivity|]. simpl. f_equal. clear. revert z. induction ds; intros; [reflexivity|].
  simpl. destruct ds; auto.
Qed.
Lemma simpson_history : forall ds r,
  fold_left simpson_change_degree ds r = simpson_new (last ds (simpson_degree r)).
Proof.
  induction ds as [|d ds IH]; intros [n]; [reflexivity|]. simpl fold_left. rewrite IH.
  destruct ds; [reflexivity|]. simpl. f_equal. clear. revert z. induction ds; intros; [reflexivity|].
  simpl. destruct ds; auto.
Qed.

Lemma midpoint_no_trace : forall ds d r,
  fold_left midpoint_change_degree (ds ++ [d]) r = midpoint_new d /\ midpoint_from d = midpoint_new d
  /\ midpoint_degree (midpoint_new d) = d.
Proof. intros. rewrite midpoint_history, last_last. repeat split. Qed.
Lemma trapezoid_no_trace : forall ds d r,
  fold_left trapezoid_change_degree (ds ++ [d]) r = trapezoid_new d /\ trapezoid_from d = trapezoid_new d
  /\ trapezoid_degree (trapezoid_new d) = d.
Proof. intros. rewrite trapezoid_history, last_last. repeat split. Qed.
Lemma simpson_no_trace : forall ds d r,
  fold_left simpson_change_degree (ds ++ [d]) r = simpson_new d /\ simpson_from d = simpson_new d
  /\ simpson_degree (simpson_new d) = d.
Proof. intros. rewrite simpson_history, last_last. repeat split. Qed.

Lemma node_iter_items : forall be d, nonzero_u32 d ->
  exists xs : list f64,
    behaves_like_deque (NodeRuleIter (@nofZ (F64 be))) (node_rule_iter d) xs /\
    Forall ffin xs /\ map fval xs = map IZR (ints 0 (Z.to_nat d)).
Proof.
  intros be d [H1 H2]. exists (map f64_of_Z (zrange 0 d)). split; [|split].
  - apply (node_rule_deque f64 f64_of_Z 0 d).
  - apply Forall_forall. intros x Hx. apply in_map_iff in Hx. destruct Hx as (i & <- & Hi).
    apply in_map_iff in Hi. destruct Hi as (k & <- & Hk). apply in_seq in Hk.
    apply ofZ_exact. lia.
  - rewrite map_map, zrange_ints, Z.sub_0_r. apply map_ext_in. intros i Hi.
    apply in_map_iff in Hi. destruct Hi as (k & <- & Hk). apply in_seq in Hk.
    apply ofZ_exact. lia.
Qed.
