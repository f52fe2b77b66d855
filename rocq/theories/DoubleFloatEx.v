(** The product of the coordinates on the square [1,2] x [1,2]. *)
From Coq Require Import Reals ZArith List Lia Lra.
From Coquelicot Require Import Coquelicot.
From Flocq Require Import Core.
From Verif Require Import Arith F64 F64Spec F64Proof Machine Rules Par NewtonCotes IntegrateSpec NCSpec InsideSpec NCFloatSpec NCFloat NCFloatEnd FinSpec FiniteCall RoundSpec RoundProof DoubleFloatSpec.
Local Open Scope R_scope.

Lemma product_square : forall be : Backend, plain_interval 1000 (@lit1 (F64 be)) (@lit2 (F64 be)) /\ moderate_bounds (@lit1 (F64 be)) (@lit2 (F64 be)) /\
  computes2 (fun x y => @nmul (F64 be) x y) (fun x y => x * y) (@lit1 (F64 be)) (@lit2 (F64 be)) (@lit1 (F64 be)) (@lit2 (F64 be)) (bpow radix2 (-50)) 2 2 4 /\
  4 + bpow radix2 (-50) <= bpow radix2 900 /\
  (fval (@lit2 (F64 be)) - fval (@lit1 (F64 be))) * 4 + ((fval (@lit2 (F64 be)) - fval (@lit1 (F64 be))) ^ 2 / (4 * IZR 1000) * 2 +
    float_excess 1000 (fval (@lit1 (F64 be))) (fval (@lit2 (F64 be))) (bpow radix2 (-50)) 2 4) <= bpow radix2 900.
Proof.
  intros be. split; [apply ex_plain|]. destruct (lit_int_exact 1 ltac:(lia)) as [F1 E1]. destruct (lit_int_exact 2 ltac:(lia)) as [F2 E2].
  change (f64_lit 1 0) with (@lit1 (F64 be)) in *. change (f64_lit 2 0) with (@lit2 (F64 be)) in *.
  assert (I : forall k, (k <= 0)%Z -> 0 <= bpow radix2 k <= 1) by (intros k Hk; split; [apply bpow_ge_0|apply (bpow_le radix2 k 0 Hk)]).
  assert (T : 8192 <= bpow radix2 900) by (apply (bpow_le radix2 13 900); lia).
  split; [|split; [|split]].
  - unfold moderate_bounds. rewrite E1, E2, !Rabs_pos_eq by lra. assert (4 <= bpow radix2 60) by (apply (bpow_le radix2 2 60); lia). repeat split; try assumption; lra.
  - unfold computes2, inside, between. rewrite E1, E2. rewrite Rmin_left, Rmax_right by lra. split; [lra|]. split; [lra|]. split; [|split; [|split]].
    + intros x y [Fx Hx] [Fy Hy]. assert (O : no_overflow (fval x * fval y)). { apply no_overflow_small. apply Rle_trans with (bpow radix2 2); [|apply bpow_le; lia]. simpl. rewrite Rabs_pos_eq by nra. nra. }
      destruct (mul_finite be x y Fx Fy O) as [FF E]. split; [exact FF|]. rewrite E. pose proof (rnd_err (fval x * fval y)) as R.
      eapply Rle_trans; [exact R|]. rewrite Rabs_pos_eq by nra. apply Rle_trans with (bpow radix2 (-51) + bpow radix2 (-51)).
      * apply Rplus_le_compat; [|apply bpow_le; lia]. replace (bpow radix2 (-51)) with (uro * 4) by (unfold uro; change 4 with (bpow radix2 2); rewrite <- bpow_plus; reflexivity). apply Rmult_le_compat_l; [apply bpow_ge_0|nra].
      * right. replace (bpow radix2 (-50)) with (bpow radix2 (-51) * 2) by (change 2 with (bpow radix2 1); rewrite <- bpow_plus; reflexivity). ring.
    + intros x z y Hx Hz Hy. replace (x * y - z * y) with (y * (x - z)) by ring. rewrite Rabs_mult, (Rabs_pos_eq y) by lra. apply Rmult_le_compat_r; [apply Rabs_pos|lra].
    + intros x y z Hx Hy Hz. replace (x * y - x * z) with (x * (y - z)) by ring. rewrite Rabs_mult, (Rabs_pos_eq x) by lra. apply Rmult_le_compat_r; [apply Rabs_pos|lra].
    + intros x y Hx Hy. rewrite Rabs_pos_eq by nra. nra.
  - pose proof (I (-50)%Z ltac:(lia)). lra.
  - rewrite E1, E2. unfold float_excess. replace (2 - 1) with 1 by lra. rewrite !Rabs_R1, (Rabs_pos_eq 2) by lra.
    pose proof (I (-50)%Z ltac:(lia)). pose proof (I (-52)%Z ltac:(lia)). pose proof (I (-1074)%Z ltac:(lia)). revert H H0 H1 T. 
    generalize (bpow radix2 (-50)) (bpow radix2 (-52)) (bpow radix2 (-1074)) (bpow radix2 900). intros u v w z Hu Hv Hw T.
    assert (v * (4 + u) <= 1 * 5) by (apply Rmult_le_compat; lra). lra.
Qed.
