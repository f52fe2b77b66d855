(** Gauss-Jacobi parameters for which the matrix contains a NaN. *)
From Coq Require Import Reals ZArith List Lra Lia Bool.
From Flocq Require Import Core IEEE754.Binary.
From Flocq Require IEEE754.BinarySingleNaN.
From Verif Require Import Arith F64 F64Spec F64Proof Machine Param GolubWelsch Jacobi GWSpec GWProof ParamProof SignProof SignWeights ZeroSpec ZeroProof JacobiFloat JacobiFinite.
Local Open Scope R_scope.
Section J.
Variable be : Backend.
Notation A := (F64 be).
Lemma lit_exact : forall m e k, (e < 0)%Z -> (Z.abs k <= 2 ^ 53)%Z -> IZR m / IZR (10 ^ (- e)) = IZR k * pw (-52) -> dy k (f64_lit m e).
Proof.
  intros m e k He Hk E. destruct (lit_neg_correct m e He) as [H1 H2]; [rewrite E; now apply dy_no|].
  split; [exact H1|]. rewrite H2, E. unfold rnd. apply round_generic; [apply valid_rnd_N|]. apply fmt_dyadic; lia.
Qed.
Lemma quarter : dy (- 2 ^ 50) (f64_lit (-25) (-2)).
Proof.
  apply lit_exact; [lia|lia|]. change (IZR (10 ^ (- -2))) with 100. rewrite opp_IZR.
  change (IZR (2 ^ 50)) with (pw 50). rewrite Ropp_mult_distr_l_reverse, <- bpow_plus. simpl. lra.
Qed.
Lemma three_quarters : dy (- (3 * 2 ^ 50)) (f64_lit (-75) (-2)).
Proof.
  apply lit_exact; [lia|lia|]. change (IZR (10 ^ (- -2))) with 100. rewrite opp_IZR, mult_IZR.
  change (IZR (2 ^ 50)) with (pw 50). replace (- (3 * pw 50) * pw (-52)) with (- (3 * (pw 50 * pw (-52)))) by ring. rewrite <- bpow_plus. simpl. lra.
Qed.
Lemma dy_adm : forall k x, (- 2 ^ 52 < k)%Z -> dy k x -> admissible x.
Proof.
  intros k x Hk [H1 H2]. split; [exact H1|]. rewrite H2. apply Rmult_lt_reg_r with (pw 52); [apply bpow_gt_0|].
  rewrite Rmult_assoc, <- bpow_plus. change (pw (-52 + 52)) with 1. change (pw 52) with (IZR (2 ^ 52)).
  rewrite Rmult_1_r. replace (-1 * IZR (2 ^ 52)) with (IZR (- 2 ^ 52)) by (rewrite opp_IZR; ring). apply IZR_lt, Hk.
Qed.

Theorem family_nan : forall n (alpha beta : A) a b, (2 <= n)%nat -> dy a alpha -> dy b beta ->
  (- 2 ^ 52 < a)%Z -> (- 2 ^ 52 < b)%Z -> (a + b = - 2 ^ 52)%Z ->
  exists m, companion_matrix n (jacobi_diag alpha beta) (jacobi_off_diag alpha beta) = Ok m /\ fnan (entry m 0 1).
Proof.
  intros n alpha beta a b Hn Ha Hb La Lb Hab.
  destruct (companion_ok (A := A) n (jacobi_diag alpha beta) (jacobi_off_diag alpha beta) ltac:(lia)) as (m & E & S & G).
  exists m. split; [exact E|]. rewrite G by lia. change (fnan (jacobi_off_diag alpha beta 0)). now apply (off_diag_nan be alpha beta a b).
Qed.
Theorem witness_nan : exists alpha beta : Param A,
  param_new (A := A) (f64_lit (-25) (-2)) = Some alpha /\ param_new (A := A) (f64_lit (-75) (-2)) = Some beta /\ forall n, (2 <= n)%nat ->
  exists m, companion_matrix n (jacobi_diag (param_get alpha) (param_get beta)) (jacobi_off_diag (param_get alpha) (param_get beta)) = Ok m
    /\ fnan (entry m 0 1).
Proof.
  assert (H1 : param_new (A := A) (f64_lit (-25) (-2)) = Some (MkParam (f64_lit (-25) (-2) : A))) by (apply new_complete, (dy_adm (- 2 ^ 50)); [lia|apply quarter]).
  assert (H2 : param_new (A := A) (f64_lit (-75) (-2)) = Some (MkParam (f64_lit (-75) (-2) : A))) by (apply new_complete, (dy_adm (- (3 * 2 ^ 50))); [lia|apply three_quarters]).
  exists (MkParam (f64_lit (-25) (-2) : A)), (MkParam (f64_lit (-75) (-2) : A)). split; [exact H1|]. split; [exact H2|].
  intros n Hn. apply (family_nan n (f64_lit (-25) (-2)) (f64_lit (-75) (-2)) (- 2 ^ 50) (- (3 * 2 ^ 50))); try lia; [apply quarter|apply three_quarters].
Qed.
Lemma huge_adm : admissible (f64_of_Z (2 ^ 600)).
Proof.
  assert (E : IZR (2 ^ 600) = pw 600) by (rewrite <- IZR_Zpower by lia; reflexivity).
  destruct (ofZ_correct (2 ^ 600)) as [H1 H2].
  { apply no_overflow_small. rewrite E, Rabs_pos_eq by apply bpow_ge_0. apply pw_le. lia. }
  split; [exact H1|]. rewrite H2, E. unfold rnd. rewrite round_generic; [|apply valid_rnd_N|apply fmt_bpow; lia].
  pose proof (bpow_ge_0 radix2 600). lra.
Qed.
(** large parameters: beta^2 - alpha^2 is inf - inf *)
Lemma nan_div_l : forall x y : A, fnan x -> fnan (ndiv x y).
Proof. intros x y H. apply nan_Bdiv. destruct x; try discriminate H. destruct y; reflexivity. Qed.
Lemma huge_nan : fnan (jacobi_diag (A := A) (f64_of_Z (2 ^ 600)) (f64_of_Z (2 ^ 600)) 1).
Proof.
  unfold jacobi_diag. cbv zeta. apply nan_div_l. apply nan_Bminus. vm_compute. reflexivity.
Qed.
Theorem witness_huge : exists alpha : Param A,
  param_new (A := A) (f64_of_Z (2 ^ 600)) = Some alpha /\ forall n, (2 <= n)%nat ->
  exists m, companion_matrix n (jacobi_diag (param_get alpha) (param_get alpha)) (jacobi_off_diag (param_get alpha) (param_get alpha)) = Ok m
    /\ fnan (entry m 1 1).
Proof.
  assert (H1 : param_new (A := A) (f64_of_Z (2 ^ 600)) = Some (MkParam (f64_of_Z (2 ^ 600) : A))) by (apply new_complete, huge_adm).
  exists (MkParam (f64_of_Z (2 ^ 600) : A)). split; [exact H1|]. intros n Hn.
  destruct (companion_ok (A := A) n (jacobi_diag (param_get (MkParam (f64_of_Z (2 ^ 600) : A))) (param_get (MkParam (f64_of_Z (2 ^ 600) : A)))) (jacobi_off_diag (param_get (MkParam (f64_of_Z (2 ^ 600) : A))) (param_get (MkParam (f64_of_Z (2 ^ 600) : A)))) ltac:(lia)) as (m & E & S & G).
  exists m. split; [exact E|]. rewrite G by lia. exact huge_nan.
Qed.
Theorem entries_finite : forall n (alpha beta : A), (1 <= n)%nat -> (Z.of_nat n <= 2 ^ 50)%Z ->
  admissible alpha -> admissible beta -> fval alpha <= pw 200 -> fval beta <= pw 200 ->
  pw (-48) <= Rabs (fval alpha + fval beta + 1) ->
  exists m, companion_matrix n (jacobi_diag alpha beta) (jacobi_off_diag alpha beta) = Ok m /\ square n m /\ forall i j, (i < n)%nat -> (j < n)%nat -> ffin (entry m i j).
Proof.
  intros n alpha beta Hn Hn2 [Fa La] [Fb Lb] Ua Ub Hs.
  assert (Hd : forall i, (i < n)%nat -> ffin (jacobi_diag alpha beta i)).
  { intros [|i] Hi; [now apply diag0_finite|apply diagS_finite; try assumption; lia]. }
  assert (Ho : forall i, (i < n)%nat -> ffin (jacobi_off_diag alpha beta i)).
  { intros [|i] Hi; [now apply off0_finite|apply offS_finite; try assumption; lia]. }
  destruct (companion_ok (A := A) n (jacobi_diag alpha beta) (jacobi_off_diag alpha beta) Hn) as (m & E & S & G).
  exists m. split; [exact E|]. split; [exact S|]. intros i j Hi Hj. rewrite G by assumption. unfold tridiagonal.
  destruct (i =? j)%nat; [now apply Hd|]. destruct (j =? i + 1)%nat; [now apply Ho|]. destruct (i =? j + 1)%nat; [now apply Ho|]. reflexivity.
Qed.
(** without the condition on alpha + beta, only the first off-diagonal entry may fail *)
Theorem other_entries_finite : forall n (alpha beta : A), (1 <= n)%nat -> (Z.of_nat n <= 2 ^ 50)%Z ->
  admissible alpha -> admissible beta -> fval alpha <= pw 200 -> fval beta <= pw 200 ->
  exists m, companion_matrix n (jacobi_diag alpha beta) (jacobi_off_diag alpha beta) = Ok m /\ square n m /\ forall i j, (i < n)%nat -> (j < n)%nat -> (1 < i + j \/ i = j)%nat -> ffin (entry m i j).
Proof.
  intros n alpha beta Hn Hn2 [Fa La] [Fb Lb] Ua Ub.
  assert (Hd : forall i, (i < n)%nat -> ffin (jacobi_diag alpha beta i)).
  { intros [|i] Hi; [now apply diag0_finite|apply diagS_finite; try assumption; lia]. }
  assert (Ho : forall i, (1 <= i < n)%nat -> ffin (jacobi_off_diag alpha beta i)).
  { intros i Hi. apply offS_finite; try assumption; lia. }
  destruct (companion_ok (A := A) n (jacobi_diag alpha beta) (jacobi_off_diag alpha beta) Hn) as (m & E & S & G).
  exists m. split; [exact E|]. split; [exact S|]. intros i j Hi Hj Hij. rewrite G by assumption. unfold tridiagonal.
  destruct (Nat.eqb_spec i j); [now apply Hd|]. destruct (Nat.eqb_spec j (i + 1)); [apply Ho; lia|]. destruct (Nat.eqb_spec i (j + 1)); [apply Ho; lia|]. reflexivity.
Qed.
End J.
