(** A math library that rounds correctly, as an instance of [accurate_trig]. *)
From Coq Require Import Reals ZArith List Lra Lia.
From Flocq Require Import Core IEEE754.Binary.
From Verif Require Import Arith F64 F64Spec F64Proof InsideSpec RoundSpec RoundProof RoundNC InsideProof RoundRules AccF64 TrigSpec.
Import ListNotations.
Local Open Scope R_scope.

(** The double nearest to a real number *)
Definition nearest (x : R) : f64 :=
  binary_normalize 53 1024 prec53 prec53_emax BinarySingleNaN.mode_NE (ZnearestE (scaled_mantissa radix2 (FLT_exp (-1074) 53) x)) (cexp radix2 (FLT_exp (-1074) 53) x) false.
Definition correct_library : Backend :=
  {| nan_add _ _ := quiet_nan; nan_sub _ _ := quiet_nan; nan_mul _ _ := quiet_nan; nan_div _ _ := quiet_nan; nan_sqrt _ := quiet_nan;
     be_sin x := nearest (sin (fval x)); be_cos x := nearest (cos (fval x)); be_pow x y := nearest (Rpower (fval x) (fval y)) |}.

Lemma nearest_ok : forall x, Rabs x <= 1 -> ffin (nearest x) /\ fval (nearest x) = rnd x.
Proof.
  intros x Hx. unfold nearest.
  pose proof (binary_normalize_correct 53 1024 prec53 prec53_emax BinarySingleNaN.mode_NE (ZnearestE (scaled_mantissa radix2 (FLT_exp (-1074) 53) x)) (cexp radix2 (FLT_exp (-1074) 53) x) false) as H.
  change (F2R (Float radix2 (ZnearestE (scaled_mantissa radix2 (FLT_exp (-1074) 53) x)) (cexp radix2 (FLT_exp (-1074) 53) x))) with (rnd x) in H.
  change (round radix2 (SpecFloat.fexp 53 1024) (BinarySingleNaN.round_mode BinarySingleNaN.mode_NE) (rnd x)) with (rnd (rnd x)) in H.
  assert (E : rnd (rnd x) = rnd x) by (apply rnd_fmt, rnd_format).
  rewrite E in H. rewrite Rlt_bool_true in H.
  - destruct H as (H1 & H2 & _). split; assumption.
  - change (no_overflow x). apply no_overflow_small. eapply Rle_trans; [exact Hx|]. change 1 with (bpow radix2 0). apply bpow_le. lia.
Qed.
Lemma correct_accurate : accurate_trig correct_library (bpow radix2 (-53)).
Proof.
  split.
  - split; [apply bpow_ge_0|]. simpl. lra.
  - intros x _ _. cbn [be_cos be_sin correct_library]. pose proof (COS_bound (fval x)). pose proof (SIN_bound (fval x)).
    destruct (nearest_ok (cos (fval x))) as [F1 E1]; [apply Rabs_le; lra|]. destruct (nearest_ok (sin (fval x))) as [F2 E2]; [apply Rabs_le; lra|].
    rewrite E1, E2. split; split; try assumption; exact (rnd_err _).
Qed.
(** x * x between 1 and 2 *)
Lemma square_near : forall (be : Backend) dx, 0 <= dx <= 1 / 1000 ->
  computes_near (fun x => @nmul (F64 be) x x) (fun x => x ^ 2) (fval (@lit1 (F64 be))) (fval (@lit2 (F64 be))) dx (bpow radix2 (-48)) 6 9.
Proof.
  intros be dx Hdx. destruct (lit_int_exact 1 ltac:(lia)) as [F1 E1]. destruct (lit_int_exact 2 ltac:(lia)) as [F2 E2].
  change (f64_lit 1 0) with (@lit1 (F64 be)) in *. change (f64_lit 2 0) with (@lit2 (F64 be)) in *.
  unfold computes_near. rewrite E1, E2. rewrite Rmin_left, Rmax_right by lra.
  assert (RB : 0 <= reach 1 2 dx <= 1 / 10).
  { unfold reach. replace (2 - 1) with 1 by lra. rewrite !Rabs_R1, (Rabs_pos_eq 2) by lra. assert (B1 : bpow radix2 (-51) <= 1 / 1000) by (simpl; lra).
    assert (B2 : bpow radix2 (-1074) <= bpow radix2 (-51)) by (apply bpow_le; lia). pose proof (bpow_ge_0 radix2 (-51)). pose proof (bpow_ge_0 radix2 (-1074)). lra. }
  set (h := reach 1 2 dx) in *. clearbody h. unfold computes_on. split; [lra|]. split; [|split].
  - intros x Fx Hx. assert (O : no_overflow (fval x * fval x)). { apply no_overflow_small. apply Rle_trans with (bpow radix2 4); [|apply bpow_le; lia]. simpl. rewrite Rabs_pos_eq by nra. nra. }
    destruct (mul_finite be x x Fx Fx O) as [_ E]. rewrite E. pose proof (rnd_err (fval x * fval x)) as R. replace (fval x ^ 2) with (fval x * fval x) by ring.
    eapply Rle_trans; [exact R|]. rewrite Rabs_pos_eq by nra. apply Rle_trans with (bpow radix2 (-49) + bpow radix2 (-49)).
    * apply Rplus_le_compat; [|apply bpow_le; lia]. replace (bpow radix2 (-49)) with (uro * 16) by (unfold uro; change 16 with (bpow radix2 4); rewrite <- bpow_plus; reflexivity). apply Rmult_le_compat_l; [apply bpow_ge_0|nra].
    * right. replace (bpow radix2 (-48)) with (bpow radix2 (-49) * 2) by (change 2 with (bpow radix2 1); rewrite <- bpow_plus; reflexivity). ring.
  - intros x y Hx Hy. replace (x ^ 2 - y ^ 2) with ((x + y) * (x - y)) by ring. rewrite Rabs_mult, (Rabs_pos_eq (x + y)) by lra. apply Rmult_le_compat_r; [apply Rabs_pos|lra].
  - intros x Hx. rewrite Rabs_pos_eq by nra. nra.
Qed.
Lemma one_two_usable : forall be : Backend, usable (@lit1 (F64 be)) (@lit2 (F64 be)) /\ fval (@lit1 (F64 be)) <> fval (@lit2 (F64 be)).
Proof.
  intros be. destruct (lit_int_exact 1 ltac:(lia)) as [F1 E1]. destruct (lit_int_exact 2 ltac:(lia)) as [F2 E2].
  change (f64_lit 1 0) with (@lit1 (F64 be)) in *. change (f64_lit 2 0) with (@lit2 (F64 be)) in *.
  assert (2 <= bpow radix2 1000) by (change 2 with (bpow radix2 1); apply bpow_le; lia).
  unfold usable. rewrite E1, E2. rewrite !Rabs_pos_eq by lra. repeat split; try assumption; lra.
Qed.
