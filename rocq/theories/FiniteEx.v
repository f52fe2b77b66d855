(** Instances for the finiteness theorems. *)
From Coq Require Import Reals ZArith List Lra Lia.
From Flocq Require Import Core IEEE754.Binary.
From Verif Require Import RSum Arith F64 F64Spec F64Proof Machine Rules NewtonCotes IntegrateSpec NCSpec InsideSpec RoundSpec RoundNC AccF64 TrigSpec FinSpec FiniteNC.
Import ListNotations.
Local Open Scope R_scope.

Lemma square_tame : forall be : Backend, moderate_bounds (@lit1 (F64 be)) (@lit2 (F64 be)) /\
  tame (inside (@lit1 (F64 be)) (@lit2 (F64 be))) (fun x => @nmul (F64 be) x x) /\
  tame (near (@lit1 (F64 be)) (@lit2 (F64 be)) (1 / 10 ^ 5)) (fun x => @nmul (F64 be) x x).
Proof.
  intros be. destruct (lit_int_exact 1 ltac:(lia)) as [F1 E1]. destruct (lit_int_exact 2 ltac:(lia)) as [F2 E2].
  change (f64_lit 1 0) with (@lit1 (F64 be)) in *. change (f64_lit 2 0) with (@lit2 (F64 be)) in *.
  assert (K : forall x : F64 be, ffin x -> 0 <= fval x <= 3 -> ffin (nmul x x : F64 be) /\ Rabs (fval (nmul x x : F64 be)) <= bpow radix2 900).
  { intros x Fx Hx. assert (P : 0 <= fval x * fval x <= 9) by nra. assert (P2 : Rabs (fval x * fval x) <= 9) by (rewrite Rabs_pos_eq; lra).
    assert (Q : 16 <= bpow radix2 900) by (change 16 with (bpow radix2 4); apply bpow_le; lia).
    destruct (mul_finite be x x Fx Fx) as [F E]. { apply no_overflow_small. eapply Rle_trans; [exact P2|]. apply Rle_trans with (bpow radix2 4); [simpl; lra|apply bpow_le; lia]. }
    split; [exact F|]. refine (eq_ind_r (fun z => Rabs z <= _) _ E). eapply Rle_trans; [apply rnd_size|]. pose proof eta_le1. lra. }
  split; [|split].
  - assert (2 <= bpow radix2 60) by (change 2 with (bpow radix2 1); apply bpow_le; lia). unfold moderate_bounds. rewrite E1, E2. rewrite !Rabs_pos_eq by lra. repeat split; try assumption; lra.
  - intros x [Fx Hx]. apply K; [exact Fx|]. rewrite E1, E2 in Hx. unfold between in Hx. rewrite Rmin_left, Rmax_right in Hx by lra. lra.
  - intros x [Fx Hx]. apply K; [exact Fx|]. rewrite E1, E2 in Hx. rewrite Rmin_left, Rmax_right in Hx by lra.
    assert (RB : 0 <= reach 1 2 (1 / 10 ^ 5) <= 1 / 10).
    { unfold reach. replace (2 - 1) with 1 by lra. rewrite !Rabs_R1, (Rabs_pos_eq 2) by lra. assert (B1 : bpow radix2 (-51) <= 1 / 1000) by (simpl; lra).
      assert (B2 : bpow radix2 (-1074) <= bpow radix2 (-51)) by (apply bpow_le; lia). pose proof (bpow_ge_0 radix2 (-51)). pose proof (bpow_ge_0 radix2 (-1074)). lra. }
    lra.
Qed.
(** Without a bound on the values the sum can overflow although the integral is representable. *)
Definition huge : f64 := f64_lit 1 308.
Lemma overflow_possible : forall be : Backend, ffin huge /\
  ~ ffin (fst (midpoint_integrate (A := F64 be) (pure (fun _ => huge)) (midpoint_new 2) (@lit1 (F64 be)) (@lit2 (F64 be)) tt)).
Proof. intros be. split; [vm_compute; reflexivity|]. vm_compute. discriminate. Qed.
(** Values and weights 1, 2 and bounds 1, 2. *)
Lemma small_moderate : forall be : Backend, let l := [@lit1 (F64 be); @lit2 (F64 be)] in
  moderate l l /\ moderate_values l /\ room (@lit1 (F64 be)) (@lit2 (F64 be)) (abs_sum l l).
Proof.
  intros be l. destruct (lit_int_exact 1 ltac:(lia)) as [F1 E1]. destruct (lit_int_exact 2 ltac:(lia)) as [F2 E2].
  change (f64_lit 1 0) with (@lit1 (F64 be)) in *. change (f64_lit 2 0) with (@lit2 (F64 be)) in *.
  assert (Q : 16 <= bpow radix2 1000) by (change 16 with (bpow radix2 4); apply bpow_le; lia).
  assert (AS : abs_sum l l = 5). { unfold abs_sum, l. cbn [combine map fst snd lsum]. rewrite E1, E2, !Rabs_pos_eq by lra. cbn [lsum]. lra. }
  assert (FL : List.Forall ffin l) by (repeat constructor; assumption).
  split; [|split].
  - split; [simpl; lra|]. split; [exact FL|]. split; [exact FL|]. rewrite AS. lra.
  - split; [exact FL|]. unfold abs_total, l. cbn [map]. rewrite E1, E2, !Rabs_pos_eq by lra. cbn [lsum]. lra.
  - unfold room, usable. rewrite E1, E2, AS, !Rabs_pos_eq by lra. repeat split; try assumption; lra.
Qed.
