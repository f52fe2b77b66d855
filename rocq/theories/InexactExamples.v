(** Solvers with errors, for the examples. *)
From Coq Require Import Reals List Lia Lra Arith ZArith.
From Flocq Require Import Core IEEE754.Binary.
From Verif Require Import Arith F64 F64Spec F64Proof RInst RInstProof Machine Param Rules RSum RoundSpec RoundProof GolubWelsch GWSpec EigenSpec WeightSpec InexactSpec InexactF64Spec
  EigenProof GWProof Inexact InexactF64 InexactF64Rules Gamma Hermite Laguerre ParamProof GammaTrue.
Import ListNotations.
Local Open Scope R_scope.

(** a one-point Hermite rule whose node is off by 1/1000 *)
Definition shifted : Linalg RA := Build_Linalg RA (fun _ => ([1 / 1000], [[1]])) (sort_unstable_by (@toy_linalg RA)).
Lemma shifted_example : sorts shifted /\ inexact_on shifted 1 (@hermite_diag RA) (@hermite_off_diag RA) 1 (1 / 1000) 0 /\
  exists r : GaussHermite RA, hermite_new shifted 1 = Ok r.
Proof.
  split; [exact (@toy_sorts RA)|]. split; [|eexists; reflexivity].
  assert (D : @tridiagonal RA (@hermite_diag RA) (@hermite_off_diag RA) 0 0 = 0) by (unfold tridiagonal; simpl; unfold hermite_diag; apply ra_lit0).
  split.
  - intros i Hi. replace i with O by lia. unfold rsum; simpl. rewrite D, Rabs_R0. lra.
  - intros m Sq Hm. cbn [shifted symmetric_eigen fst snd]. split; [reflexivity|]. split; [repeat constructor|]. split.
    + intros k Hk. replace k with O by lia. cbn [nth]. rewrite Rabs_right; lra.
    + split; [|split].
      * intros i k Hi Hk. replace i with O by lia. replace k with O by lia. unfold rsum; simpl. rewrite Hm, D by lia. unfold entry; simpl. rewrite Rabs_left1; lra.
      * intros i Hi. replace i with O by lia. unfold rsum, kronecker, entry; simpl. rewrite Rabs_right; lra.
      * intros k Hk. replace k with O by lia. unfold rsum, entry; simpl. rewrite Rabs_right; lra.
Qed.

(** the two-point Hermite rule in doubles, with the eigenvectors rounded *)
Section Two.
Context (be : Backend).
Notation A := (F64 be).
Definition root_half : A := hermite_off_diag 0.
Definition minus_root_half : A := Bopp 53 1024 (nan_sqrt be) root_half.
Definition two_point : Linalg A := Build_Linalg A (fun _ => ([root_half; minus_root_half], [[root_half; root_half]; [root_half; minus_root_half]]))
  (sort_unstable_by (@toy_linalg A)).
Lemma root_half_val : ffin root_half /\ ffin minus_root_half /\ fval minus_root_half = - fval root_half /\
  Rabs (2 * (fval root_half * fval root_half) - 1) <= 1 / 10 ^ 15 /\ Rabs (fval root_half) <= 1.
Proof.
  assert (E := hermite_off_val (be := be) 0 ltac:(reflexivity)). fold root_half in E.
  assert (F : ffin root_half).
  { unfold root_half, hermite_off_diag. destruct (count_val (be := be) 0 ltac:(reflexivity)) as [F1 E1]. 
    assert (M : fval (@nadd A lit1 (nofZ (Z.of_nat 0))) * fval (@lit_half A) = / 2) by (rewrite E1; change (fval (@lit_half A)) with (fval (f64_lit 5 (-1))); rewrite (proj2 half_exact); simpl; lra).
    destruct (mul_finite be _ lit_half F1 (proj1 half_exact)) as [F2 E2].
    - rewrite M. apply no_overflow_small. rewrite Rabs_right by lra. apply Rle_trans with (bpow radix2 0); [simpl; lra|apply bpow_le; lia].
    - refine (proj1 (sqrt_val (be := be) _ F2 _)). rewrite E2, M. unfold rnd. apply round_ge_generic; [apply FLT_exp_valid; reflexivity|apply valid_rnd_N|apply generic_format_0|lra]. }
  assert (S : @hermite_off_diag RA 0 = sqrt (/ 2)) by (unfold hermite_off_diag; ra_simpl; ra_lits; f_equal; simpl; field).
  rewrite S in E. replace (INR 1 / 2) with (/ 2) in E by (simpl; field).
  assert (Q := sqrt_sqrt (/ 2) ltac:(lra)). assert (Q0 := sqrt_pos (/ 2)). set (s := sqrt (/ 2)) in *.
  assert (Q1 : s <= 3 / 4) by nra. assert (U0 := uro_pos). assert (UV := uro_val). assert (E0 := eta_pos).
  assert (EV : eta <= 1 / 10 ^ 30). { apply Rle_trans with (1 * eta); [lra|]. eapply Rle_trans; [apply tiny; apply IZR_le; lia|apply tiny_small]. }
  assert (D : Rabs (fval root_half - s) <= 1 / 10 ^ 16). { eapply Rle_trans; [exact E|]. assert (uro * s <= 112 / 10 ^ 18 * (3 / 4)) by (apply Rmult_le_compat; lra). lra. }
  split; [exact F|]. split; [unfold ffin, minus_root_half; rewrite is_finite_Bopp; exact F|]. split; [apply B2R_Bopp|].
  assert (X := Rle_abs (fval root_half - s)). assert (Y := Rle_abs (- (fval root_half - s))). rewrite Rabs_Ropp in Y. set (b := fval root_half) in *. split.
  - replace (2 * (b * b) - 1) with (2 * ((b - s) * (b + s))) by (rewrite <- (Rinv_r 2) by lra; rewrite <- Q; ring).
    rewrite Rabs_mult, (Rabs_right 2) by lra. rewrite Rabs_mult. apply Rle_trans with (2 * (1 / 10 ^ 16 * 2)); [|lra]. apply Rmult_le_compat_l; [lra|].
    apply Rmult_le_compat; try apply Rabs_pos; [exact D|]. apply Rabs_le. lra.
  - apply Rabs_le. lra.
Qed.
Lemma two_point_example : sorts two_point /\ float_solver two_point 2 hermite_diag hermite_off_diag 2 0 (1 / 10 ^ 15) /\
  exists r : GaussHermite A, hermite_new two_point 2 = Ok r.
Proof.
  destruct root_half_val as (F1 & F2 & E & B & B1). split; [exact (@toy_sorts A)|]. split; [|eexists; reflexivity].
  intros m Sq Hm. cbn [two_point symmetric_eigen fst snd].
  assert (M00 := Hm 0%nat 0%nat ltac:(lia) ltac:(lia)). assert (M01 := Hm 0%nat 1%nat ltac:(lia) ltac:(lia)). assert (M10 := Hm 1%nat 0%nat ltac:(lia) ltac:(lia)). assert (M11 := Hm 1%nat 1%nat ltac:(lia) ltac:(lia)).
  cbn [tridiagonal Nat.eqb Nat.add] in M00, M01, M10, M11. unfold hermite_diag in M00, M11. fold root_half in M01, M10.
  split; [reflexivity|]. split; [repeat constructor|]. split; [repeat constructor; assumption|]. split; [repeat constructor; assumption|].
  assert (T : 0 <= 1 / 10 ^ 15) by lra. assert (R2 : forall g, rsum 2 g = g 0%nat + g 1%nat) by (intros; unfold rsum; simpl; ring).
  split.
  - intros [|[|k]] Hk; try lia; cbn [nth]; [lra|]. rewrite E, Rabs_Ropp. lra.
  - split; [|split].
    + intros [|[|i]] [|[|k]] Hi Hk; try lia; rewrite R2, ?M00, ?M01, ?M10, ?M11; unfold entry; cbn [nth]; rewrite ?E, ?lit0_val;
        match goal with |- Rabs ?x <= 0 => replace x with 0 by ring; rewrite Rabs_R0; lra end.
    + intros [|[|i]] Hi; try lia; rewrite R2; unfold kronecker, entry; cbn [nth Nat.eqb]; rewrite ?E.
      * match goal with |- Rabs ?x <= _ => replace x with (2 * (fval root_half * fval root_half) - 1) by ring end. exact B.
      * match goal with |- Rabs ?x <= _ => replace x with 0 by ring end. rewrite Rabs_R0. exact T.
    + intros [|[|i]] Hi; try lia; rewrite R2; unfold entry; cbn [nth]; rewrite ?E;
        match goal with |- Rabs ?x <= _ => replace x with (2 * (fval root_half * fval root_half) - 1) by ring end; exact B.
Qed.
End Two.

(** the one-point Laguerre rule with alpha = 0 in doubles *)
Definition one_point : Linalg (F64 be0) := Build_Linalg (F64 be0) (fun _ => ([@lit1 (F64 be0)], [[@lit1 (F64 be0)]])) (sort_unstable_by (@toy_linalg (F64 be0))).
Definition alpha_zero : Param (F64 be0) := MkParam (A := F64 be0) lit0.
Lemma one_point_example : ffin (param_get alpha_zero) /\ -1 < fval (param_get alpha_zero) <= bpow radix2 500 /\ sorts one_point /\
  ffin (@gamma (F64 be0) (nadd (param_get alpha_zero) lit1)) /\ Rabs (fval (@gamma (F64 be0) (nadd (param_get alpha_zero) lit1))) <= bpow radix2 1000 /\
  (exists G, is_Gamma (fval (param_get alpha_zero) + 1) G) /\
  float_solver one_point 1 (laguerre_diag (param_get alpha_zero)) (laguerre_off_diag (param_get alpha_zero)) 5 0 0 /\
  exists r : GaussLaguerre (F64 be0), laguerre_new one_point 1 alpha_zero = Ok r.
Proof.
  assert (Z0 : fval (param_get alpha_zero) = 0) by exact (lit0_val (be := be0)).
  split; [reflexivity|]. rewrite Z0. split; [split; [lra|apply bpow_ge_0]|]. split; [exact (@toy_sorts (F64 be0))|].
  set (g := @gamma (F64 be0) (nadd (param_get alpha_zero) lit1)).
  assert (V : ffin g /\ (Bcompare 53 1024 g (f64_lit 1000 0) = Some Lt) /\ Bcompare 53 1024 (f64_lit 0 0) g = Some Lt) by (vm_compute; repeat split; reflexivity).
  clearbody g. destruct V as (V1 & V2 & V3). split; [exact V1|]. split.
  { destruct (lit_int_exact 1000 ltac:(vm_compute; discriminate)) as [Fk Ek]. destruct (lit_int_exact 0 ltac:(vm_compute; discriminate)) as [Fz Ez].
    rewrite Bcompare_correct in V2, V3 by assumption. fold (fval g) in V2, V3. fold (fval (f64_lit 1000 0)) in V2. fold (fval (f64_lit 0 0)) in V3. rewrite Ek in V2. rewrite Ez in V3.
    injection V2; intros V2'. injection V3; intros V3'. apply Rcompare_Lt_inv in V2'. apply Rcompare_Lt_inv in V3'. rewrite Rabs_right by lra.
    apply Rle_trans with (bpow radix2 10); [simpl; lra|apply bpow_le; lia]. }
  split; [exists (Gam (0 + 1)); apply Gam_is; lra|]. split; [|eexists; reflexivity].
  destruct (lit_int_exact 1 ltac:(vm_compute; discriminate)) as [F1 L1]. change (f64_lit 1 0) with (@lit1 (F64 be0)) in F1, L1.
  assert (D : fval (@laguerre_diag (F64 be0) (param_get alpha_zero) 0) = 1).
  { set (d := @laguerre_diag (F64 be0) (param_get alpha_zero) 0).
    assert (D : ffin d /\ Bcompare 53 1024 d (@lit1 (F64 be0)) = Some Eq) by (vm_compute; split; reflexivity). clearbody d. destruct D as [D1 D2].
    rewrite Bcompare_correct in D2 by assumption. fold (fval d) in D2. fold (fval (@lit1 (F64 be0))) in D2. rewrite L1 in D2. injection D2; intros D3. apply Rcompare_Eq_inv in D3. exact D3. }
  assert (R1 : forall h, rsum 1 h = h 0%nat) by (intros; unfold rsum; simpl; ring).
  intros m Sq Hm. cbn [one_point symmetric_eigen fst snd]. assert (M00 := f_equal fval (Hm 0%nat 0%nat ltac:(lia) ltac:(lia))).
  cbn [tridiagonal Nat.eqb] in M00. rewrite D in M00.
  set (one := @lit1 (F64 be0)) in *. clearbody one.
  split; [reflexivity|]. split; [repeat constructor|]. split; [constructor; [exact F1|constructor]|]. split; [constructor; [constructor; [exact F1|constructor]|constructor]|]. split.
  - intros k Hk. replace k with O by lia. cbn [nth]. rewrite L1, Rabs_right; lra.
  - split; [|split].
    + intros i k Hi Hk. replace i with O by lia. replace k with O by lia. rewrite R1, M00. unfold entry; cbn [nth]. rewrite L1, Rabs_right; lra.
    + intros i Hi. replace i with O by lia. rewrite R1. unfold kronecker, entry; cbn [nth Nat.eqb]. rewrite L1, Rabs_right; lra.
    + intros k Hk. replace k with O by lia. rewrite R1. unfold entry; cbn [nth]. rewrite L1, Rabs_right; lra.
Qed.
