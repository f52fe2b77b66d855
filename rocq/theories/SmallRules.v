(** Small Laguerre and Jacobi rules in doubles, over any library of elementary functions. *)
From Coq Require Import Reals List Lia Lra Arith ZArith.
From Flocq Require Import Core IEEE754.Binary.
From Verif Require Import Arith F64 F64Spec F64Proof RInst RInstProof Machine Param Rules RSum RoundSpec RoundProof GolubWelsch GWSpec EigenSpec WeightSpec InexactSpec InexactF64Spec
  EigenProof GWProof Inexact InexactF64 InexactF64Rules Gamma Laguerre Jacobi ParamProof GaussExact InexactExamples JacFloat.
Import ListNotations.
Local Open Scope R_scope.

Section Ex.
Variable be : Backend.
Notation A := (F64 be).
Definition unit_point : Linalg A := Build_Linalg A (fun _ => ([@lit1 A], [[@lit1 A]])) (sort_unstable_by (@toy_linalg A)).
Definition zero_par : Param A := MkParam (A := A) lit0.
Lemma unit_point_example : ffin (param_get zero_par) /\ fval (param_get zero_par) = 0 /\ sorts unit_point /\
  float_solver unit_point 1 (laguerre_diag (param_get zero_par)) (laguerre_off_diag (param_get zero_par)) 5 0 0 /\
  exists r : GaussLaguerre A, laguerre_new unit_point 1 zero_par = Ok r.
Proof.
  assert (Z0 : fval (param_get zero_par) = 0) by exact (lit0_val (be := be)).
  split; [reflexivity|]. split; [exact Z0|]. split; [exact (@toy_sorts A)|]. split; [|eexists; reflexivity].
  destruct (lit_int_exact 1 ltac:(vm_compute; discriminate)) as [F1 L1]. change (f64_lit 1 0) with (@lit1 A) in F1, L1.
  assert (D : fval (@laguerre_diag A (param_get zero_par) 0) = 1).
  { set (d := @laguerre_diag A (param_get zero_par) 0).
    assert (D : ffin d /\ Bcompare 53 1024 d (@lit1 A) = Some Eq) by (vm_compute; split; reflexivity). clearbody d. destruct D as [D1 D2].
    rewrite Bcompare_correct in D2 by assumption. fold (fval d) in D2. fold (fval (@lit1 A)) in D2. rewrite L1 in D2. injection D2; intros D3. apply Rcompare_Eq_inv in D3. exact D3. }
  assert (R1 : forall h, rsum 1 h = h 0%nat) by (intros; unfold rsum; simpl; ring).
  intros m Sq Hm. cbn [unit_point symmetric_eigen fst snd]. assert (M00 := f_equal fval (Hm 0%nat 0%nat ltac:(lia) ltac:(lia))).
  cbn [tridiagonal Nat.eqb] in M00. rewrite D in M00.
  set (one := @lit1 A) in *. clearbody one.
  split; [reflexivity|]. split; [repeat constructor|]. split; [constructor; [exact F1|constructor]|]. split; [constructor; [constructor; [exact F1|constructor]|constructor]|]. split.
  - intros k Hk. replace k with O by lia. cbn [nth]. rewrite L1, Rabs_right; lra.
  - split; [|split].
    + intros i k Hi Hk. replace i with O by lia. replace k with O by lia. rewrite R1, M00. unfold entry; cbn [nth]. rewrite L1, Rabs_right; lra.
    + intros i Hi. replace i with O by lia. rewrite R1. unfold kronecker, entry; cbn [nth Nat.eqb]. rewrite L1, Rabs_right; lra.
    + intros k Hk. replace k with O by lia. rewrite R1. unfold entry; cbn [nth]. rewrite L1, Rabs_right; lra.
Qed.
Definition one_par : Param A := MkParam (A := A) lit1.
Definition jac_node : A := jacobi_off_diag (param_get one_par) (param_get one_par) 0.
Definition jac_solver : Linalg A := Build_Linalg A (fun _ => ([jac_node; Bopp 53 1024 (nan_sqrt be) jac_node],
  [[root_half be; root_half be]; [root_half be; minus_root_half be]])) (sort_unstable_by (@toy_linalg A)).
Lemma unit_double : forall g : A, Bcompare 53 1024 g (f64_lit 1 0) = Some Lt -> Bcompare 53 1024 (f64_lit 0 0) g = Some Lt -> ffin g -> Rabs (fval g) <= 1.
Proof.
  intros g V2 V3 V1. destruct (lit_int_exact 1 ltac:(vm_compute; discriminate)) as [Fk Ek]. destruct (lit_int_exact 0 ltac:(vm_compute; discriminate)) as [Fz Ez].
  rewrite Bcompare_correct in V2, V3 by assumption. fold (fval g) in V2, V3. fold (fval (f64_lit 1 0)) in V2. fold (fval (f64_lit 0 0)) in V3. rewrite Ek in V2. rewrite Ez in V3.
  injection V2; intros V2'. injection V3; intros V3'. apply Rcompare_Lt_inv in V2'. apply Rcompare_Lt_inv in V3'. apply Rabs_le. lra.
Qed.
Lemma one_val : fval (param_get one_par) = 1. Proof. exact (proj2 (lit_int_exact 1 ltac:(vm_compute; discriminate))). Qed.
Lemma jac_two_points : ffin (param_get one_par) /\ fval (param_get one_par) = 1 /\ ~ delegated 1 1 /\ sorts jac_solver /\
  float_solver jac_solver 2 (jacobi_diag (param_get one_par) (param_get one_par)) (jacobi_off_diag (param_get one_par) (param_get one_par)) 1 0 (1 / 10 ^ 15) /\
  forall t, exists r : GaussJacobi A, jacobi_new t jac_solver 2 one_par one_par = Ok r.
Proof.
  split; [reflexivity|]. split; [exact one_val|]. split; [intros [[]|[[]|[]]]; lra|]. split; [exact (@toy_sorts A)|]. split; [|intros t; eexists; reflexivity].
  destruct (root_half_val be) as (F1 & F2 & E & B & B1).
  assert (G0 : forall i, (i < 2)%nat -> fval (jacobi_diag (param_get one_par) (param_get one_par) i : A) = 0).
  { intros [|[|i]] Hi; try lia.
    - set (d := jacobi_diag _ _ _). assert (X : B2SF 53 1024 d = SpecFloat.S754_zero false) by (vm_compute; reflexivity). unfold fval. destruct d; try discriminate X. reflexivity.
    - set (d := jacobi_diag _ _ _). assert (X : B2SF 53 1024 d = SpecFloat.S754_zero false) by (vm_compute; reflexivity). unfold fval. destruct d; try discriminate X. reflexivity. }
  assert (Fn : ffin jac_node) by (vm_compute; reflexivity).
  assert (X1 : Bcompare 53 1024 jac_node (f64_lit 1 0) = Some Lt) by (vm_compute; reflexivity). assert (X2 : Bcompare 53 1024 (f64_lit 0 0) jac_node = Some Lt) by (vm_compute; reflexivity).
  assert (Bn := unit_double jac_node X1 X2 Fn). clear X1 X2.
  assert (En : fval (Bopp 53 1024 (nan_sqrt be) jac_node) = - fval jac_node) by apply B2R_Bopp.
  intros m Sq Hm. cbn [jac_solver symmetric_eigen fst snd].
  assert (M00 := f_equal fval (Hm 0%nat 0%nat ltac:(lia) ltac:(lia))). assert (M01 := f_equal fval (Hm 0%nat 1%nat ltac:(lia) ltac:(lia))).
  assert (M10 := f_equal fval (Hm 1%nat 0%nat ltac:(lia) ltac:(lia))). assert (M11 := f_equal fval (Hm 1%nat 1%nat ltac:(lia) ltac:(lia))).
  change (fval (entry m 0 0) = fval (jacobi_diag (param_get one_par) (param_get one_par) 0 : A)) in M00. change (fval (entry m 1 1) = fval (jacobi_diag (param_get one_par) (param_get one_par) 1 : A)) in M11.
  change (fval (entry m 0 1) = fval jac_node) in M01. change (fval (entry m 1 0) = fval jac_node) in M10.
  rewrite (G0 0%nat ltac:(lia)) in M00. rewrite (G0 1%nat ltac:(lia)) in M11. clear G0 Hm.
  assert (Fm : ffin (Bopp 53 1024 (nan_sqrt be) jac_node)) by (unfold ffin; rewrite is_finite_Bopp; exact Fn).
  set (mn := Bopp 53 1024 (nan_sqrt be) jac_node) in *. clearbody mn. set (jn := jac_node) in *. clearbody jn.
  set (rh := root_half be) in *. clearbody rh. set (mrh := minus_root_half be) in *. clearbody mrh.
  split; [reflexivity|]. split; [repeat constructor|]. split; [repeat constructor; assumption|]. split; [repeat constructor; assumption|].
  assert (T : 0 <= 1 / 10 ^ 15) by lra. assert (R2 : forall g, rsum 2 g = g 0%nat + g 1%nat) by (intros; unfold rsum; simpl; ring).
  split.
  - intros [|[|k]] Hk; try lia; cbn [nth]; [exact Bn|]. rewrite En, Rabs_Ropp. exact Bn.
  - split; [|split].
    + intros [|[|i]] [|[|k]] Hi Hk; try lia; rewrite R2, ?M00, ?M01, ?M10, ?M11; unfold entry; cbn [nth]; rewrite ?E, ?En;
        match goal with |- Rabs ?x <= 0 => replace x with 0 by ring; rewrite Rabs_R0; lra end.
    + intros [|[|i]] Hi; try lia; rewrite R2; unfold kronecker, entry; cbn [nth Nat.eqb]; rewrite ?E.
      * match goal with |- Rabs ?x <= _ => replace x with (2 * (fval rh * fval rh) - 1) by ring end. exact B.
      * match goal with |- Rabs ?x <= _ => replace x with 0 by ring end. rewrite Rabs_R0. exact T.
    + intros [|[|i]] Hi; try lia; rewrite R2; unfold entry; cbn [nth]; rewrite ?E;
        match goal with |- Rabs ?x <= _ => replace x with (2 * (fval rh * fval rh) - 1) by ring end; exact B.
Qed.
End Ex.
