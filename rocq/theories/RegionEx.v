(** The product of the coordinates on the region 1 <= x <= 2, 0 <= y <= x. *)
From Coq Require Import Reals ZArith List Lia Lra.
From Flocq Require Import Core.
From Verif Require Import Arith F64 F64Spec F64Proof Machine Rules Par NewtonCotes IntegrateSpec NCSpec InsideSpec NCFloatSpec NCFloat NCFloatEnd FinSpec FiniteCall RoundSpec RoundProof DoubleFloatSpec DoubleFloatEx.
Local Open Scope R_scope.

Lemma product_region : forall be : Backend,
  computes_region 1000 (fun _ => @lit0 (F64 be)) (fun x => x) (fun _ => 0) (fun x => x) (fun x y => @nmul (F64 be) x y) (fun x y => x * y) (@lit1 (F64 be)) (@lit2 (F64 be))
    0 2 (bpow radix2 (-50)) 0 2 2 1 4 /\
  (2 - 0) * 4 + ((2 - 0) ^ 2 / (4 * IZR 1000) * 2 + float_excess 1000 0 2 (bpow radix2 (-50)) (2 * 2) 4 + 2 * 4 * 0) <= bpow radix2 900.
Proof.
  intros be. destruct (lit_int_exact 0 ltac:(lia)) as [F0 E0]. destruct (lit_int_exact 1 ltac:(lia)) as [F1 E1]. destruct (lit_int_exact 2 ltac:(lia)) as [F2 E2].
  change (f64_lit 0 0) with (@lit0 (F64 be)) in *. change (f64_lit 1 0) with (@lit1 (F64 be)) in *. change (f64_lit 2 0) with (@lit2 (F64 be)) in *.
  split.
  - unfold computes_region, inside, between. rewrite E0, E1, E2. rewrite Rmin_left, Rmax_right by lra. split; [lra|]. split; [lra|]. split; [lra|].
    split; [|split; [|split; [|split; [|split; [|split]]]]].
    + intros x [Fx Hx]. assert (X4 : 4 <= bpow radix2 60) by (apply (bpow_le radix2 2 60); lia). assert (X5 : bpow radix2 60 <= bpow radix2 1022) by (apply bpow_le; lia).
      unfold plain_interval, moderate_bounds, wide. rewrite E0, !Rminus_0_r, Rabs_R0, !(Rabs_pos_eq (fval x)) by lra. replace (fval x - fval x) with 0 by ring. rewrite ?Rminus_0_r, ?Rabs_R0.
      assert (bpow radix2 (-1022) <= bpow radix2 (-10)) by (apply bpow_le; lia). assert (bpow radix2 (-10) <= 1 / 1000) by (simpl; lra).
      repeat split; try assumption; try lra; try lia.
    + intros x Hx. lra.
    + intros x z Hx Hz. rewrite Rminus_0_r, Rabs_R0. pose proof (Rabs_pos (x - z)). lra.
    + intros x y [Fx Hx] Fy Hy. assert (O : no_overflow (fval x * fval y)). { apply no_overflow_small. apply Rle_trans with (bpow radix2 2); [|apply bpow_le; lia]. simpl. rewrite Rabs_pos_eq by nra. nra. }
      destruct (mul_finite be x y Fx Fy O) as [FF E]. split; [exact FF|]. rewrite E. pose proof (rnd_err (fval x * fval y)) as R.
      eapply Rle_trans; [exact R|]. rewrite Rabs_pos_eq by nra. apply Rle_trans with (bpow radix2 (-51) + bpow radix2 (-51)).
      * apply Rplus_le_compat; [|apply bpow_le; lia]. replace (bpow radix2 (-51)) with (uro * 4) by (unfold uro; change 4 with (bpow radix2 2); rewrite <- bpow_plus; reflexivity). apply Rmult_le_compat_l; [apply bpow_ge_0|nra].
      * right. replace (bpow radix2 (-50)) with (bpow radix2 (-51) * 2) by (change 2 with (bpow radix2 1); rewrite <- bpow_plus; reflexivity). ring.
    + intros x z y Hx Hz Hy. replace (x * y - z * y) with (y * (x - z)) by ring. rewrite Rabs_mult, (Rabs_pos_eq y) by lra. apply Rmult_le_compat_r; [apply Rabs_pos|lra].
    + intros x y z Hx Hy Hz. replace (x * y - x * z) with (x * (y - z)) by ring. rewrite Rabs_mult, (Rabs_pos_eq x) by lra. apply Rmult_le_compat_r; [apply Rabs_pos|lra].
    + intros x y Hx Hy. rewrite Rabs_pos_eq by nra. nra.
  - assert (I : forall k, (k <= 0)%Z -> 0 <= bpow radix2 k <= 1) by (intros k Hk; split; [apply bpow_ge_0|apply (bpow_le radix2 k 0 Hk)]).
    assert (T : 32768 <= bpow radix2 900) by (apply (bpow_le radix2 15 900); lia).
    unfold float_excess. rewrite Rminus_0_r, Rabs_R0, (Rabs_pos_eq 2) by lra.
    pose proof (I (-50)%Z ltac:(lia)) as Hu. pose proof (I (-52)%Z ltac:(lia)) as Hv. pose proof (I (-1074)%Z ltac:(lia)) as Hw. revert Hu Hv Hw T.
    generalize (bpow radix2 (-50)) (bpow radix2 (-52)) (bpow radix2 (-1074)) (bpow radix2 900). intros u v w z Hu Hv Hw T.
    assert (v * (4 + u) <= 1 * 5) by (apply Rmult_le_compat; lra). lra.
Qed.
