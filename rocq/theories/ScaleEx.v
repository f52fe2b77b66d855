(** Instances of the scaling laws, and what underflow does to them. *)
From Coq Require Import Reals ZArith List Lra Lia.
From Flocq Require Import Core IEEE754.Binary.
From Verif Require Import Arith F64 F64Spec F64Proof Machine Rules NewtonCotes IntegrateSpec NestSpec ExcSpec ScaleSpec Scale ScaleVar.
Import ListNotations.
Local Open Scope R_scope.

Section Float.
Variable be : Backend.
Notation A := (F64 be).
Lemma same_double : forall x y : A, B2FF 53 1024 x = B2FF 53 1024 y -> x = y.
Proof. intros x y. apply B2FF_inj. Qed.
Definition zero : A := nofZ 0. Definition one : A := nofZ 1. Definition two : A := nofZ 2.
Lemma zero_val : ffin zero /\ fval zero = 0. Proof. exact (ofZ_exact 0 ltac:(lia)). Qed.
Lemma one_val : ffin one /\ fval one = 1. Proof. exact (ofZ_exact 1 ltac:(lia)). Qed.
Lemma two_val : ffin two /\ fval two = 2. Proof. exact (ofZ_exact 2 ltac:(lia)). Qed.
(** midpoint with one cell on [0, 1] and [0, 2] *)
Definition cell : quadrature A := QMidpoint 1 zero one.
Definition wide : quadrature A := QMidpoint 1 zero two.
(** the constants 1 and 2 over [0, 1] *)
Lemma values_case : usable cell /\ Forall2 (times_power 1) (map (fun _ => one) (points cell)) (map (fun _ => two) (points cell)) /\
  Forall (not_below 0) (map (fun _ => one) (points cell)) /\ Forall (not_below 0) (map (fun _ => two) (points cell)) /\
  Forall (not_below 0) (weights cell) /\ not_below 0 (outer_factor cell) /\ ffin (value cell (fun _ => one)) /\ ffin (value cell (fun _ => two)).
Proof.
  destruct one_val as [F1 E1]. destruct two_val as [F2 E2].
  assert (T : times_power 1 one two) by (split; [exact F1|]; split; [exact F2|]; rewrite E1, E2; change (bpow radix2 1) with 2; ring).
  assert (N1 : not_below 0 one) by (split; [exact F1|]; right; rewrite E1, Rabs_R1; simpl; lra).
  assert (N2 : not_below 0 two) by (split; [exact F2|]; right; rewrite E2, Rabs_pos_eq by lra; simpl; lra).
  assert (L : length (points cell) = 1%nat) by (vm_compute; reflexivity). destruct (points cell) as [|p [|]]; try discriminate L. cbn [map].
  split; [simpl; lia|]. split; [constructor; [exact T|constructor]|]. split; [constructor; [exact N1|constructor]|]. split; [constructor; [exact N2|constructor]|].
  split; [constructor|]. split; [|split; vm_compute; reflexivity].
  replace (outer_factor cell) with one by (apply same_double; vm_compute; reflexivity). exact N1.
Qed.
Lemma variable_case : rescaled 1 cell wide /\ Forall (not_below 0) (bounds cell) /\ Forall (not_below 0) (bounds wide) /\ Forall ffin (points cell) /\ Forall ffin (points wide) /\
  normal_sized (value cell (fun _ => one)) /\ normal_sized (value wide (fun _ => one)).
Proof.
  destruct one_val as [F1 E1]. destruct two_val as [F2 E2]. destruct zero_val as [F0 E0].
  assert (T : times_power 1 one two) by (split; [exact F1|]; split; [exact F2|]; rewrite E1, E2; change (bpow radix2 1) with 2; ring).
  assert (T0 : times_power 1 zero zero) by (split; [exact F0|]; split; [exact F0|]; rewrite E0; ring).
  assert (N0 : not_below 0 zero) by (split; [exact F0|]; left; exact E0).
  assert (N1 : not_below 0 one) by (split; [exact F1|]; right; rewrite E1, Rabs_R1; simpl; lra).
  assert (N2 : not_below 0 two) by (split; [exact F2|]; right; rewrite E2, Rabs_pos_eq by lra; simpl; lra).
  split; [unfold cell, wide; cbn [rescaled]; unfold nonzero_u32; repeat split; try lia; try apply T; try apply T0|].
  split; [constructor; [exact N0|constructor; [exact N1|constructor]]|]. split; [constructor; [exact N0|constructor; [exact N2|constructor]]|].
  split; [repeat constructor|]. split; [repeat constructor|].
  assert (B : bpow radix2 (-1021) <= 1) by (change 1 with (bpow radix2 0); apply bpow_le; lia).
  split.
  - replace (value cell (fun _ => one)) with one by (apply same_double; vm_compute; reflexivity). split; [exact F1|]. rewrite E1, Rabs_R1. exact B.
  - replace (value wide (fun _ => one)) with two by (apply same_double; vm_compute; reflexivity). split; [exact F2|]. rewrite E2, Rabs_pos_eq by lra. lra.
Qed.

(** the smallest double and its double, integrated over [0, 1/2] *)
Definition tiny : A := B754_finite 53 1024 false 1 (-1074) eq_refl.
Definition tiny2 : A := B754_finite 53 1024 false 2 (-1074) eq_refl.
Definition half_cell : quadrature A := QMidpoint 1 zero lit_half.
Lemma underflow : usable half_cell /\ Forall2 (times_power 1) (map (fun _ => tiny) (points half_cell)) (map (fun _ => tiny2) (points half_cell)) /\
  Forall (not_below 0) (weights half_cell) /\ not_below (-1) (outer_factor half_cell) /\
  ffin (value half_cell (fun _ => tiny)) /\ ffin (value half_cell (fun _ => tiny2)) /\
  ~ times_power 1 (value half_cell (fun _ => tiny)) (value half_cell (fun _ => tiny2)).
Proof.
  assert (L : length (points half_cell) = 1%nat) by (vm_compute; reflexivity). destruct (points half_cell) as [|p [|]]; try discriminate L. cbn [map].
  split; [simpl; lia|]. split.
  { constructor; [|constructor]. split; [reflexivity|]. split; [reflexivity|]. unfold tiny, tiny2, fval, B2R, F2R. cbn [Fnum Fexp cond_Zopp]. change (bpow radix2 1) with 2. ring. }
  split; [constructor|]. split.
  { replace (outer_factor half_cell) with (@lit_half A) by (apply same_double; vm_compute; reflexivity). destruct half_exact as [F E]. split; [exact F|]. right.
    change (bpow radix2 (-1) <= Rabs (fval (f64_lit 5 (-1)))). rewrite E, Rabs_pos_eq by lra. change (bpow radix2 (-1)) with (/ 2). lra. }
  split; [vm_compute; reflexivity|]. split; [vm_compute; reflexivity|].
  intros (_ & _ & E).
  assert (E1 : fval (value half_cell (fun _ => tiny)) = 0). { replace (value half_cell (fun _ => tiny)) with (B754_zero 53 1024 false : A) by (apply same_double; vm_compute; reflexivity). reflexivity. }
  assert (E2 : fval (value half_cell (fun _ => tiny2)) = bpow radix2 (-1074)).
  { replace (value half_cell (fun _ => tiny2)) with tiny by (apply same_double; vm_compute; reflexivity). unfold tiny, fval, B2R, F2R. cbn [Fnum Fexp cond_Zopp]. ring. }
  rewrite E1, E2, Rmult_0_r in E. assert (P := bpow_gt_0 radix2 (-1074)). lra.
Qed.
End Float.
Lemma underflow_cases : forall be, exists (q : quadrature (F64 be)) (c c2 : F64 be), usable q /\
  Forall2 (times_power 1) (map (fun _ => c) (points q)) (map (fun _ => c2) (points q)) /\
  Forall (not_below 0) (weights q) /\ not_below (-1) (outer_factor q) /\ ffin (value q (fun _ => c)) /\ ffin (value q (fun _ => c2)) /\
  ~ times_power 1 (value q (fun _ => c)) (value q (fun _ => c2)).
Proof. intros be. exists (half_cell be), (tiny be), (tiny2 be). exact (underflow be). Qed.
