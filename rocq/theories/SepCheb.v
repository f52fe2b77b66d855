(** Gauss-Chebyshev nodes in double arithmetic are strictly ordered. *)
From Coq Require Import Reals ZArith List Lia Lra Psatz Sorting.Sorted.
From Flocq Require Import Core IEEE754.Binary.
From Verif Require Import Arith RInst F64 F64Spec F64Proof Machine Rules Chebyshev RInstProof RoundSpec AccF64 GammaProof TrigSpec GWSpec SepSpec SepFloat SizeProof LegAsym ChebFloat LegFloat.
Import ListNotations.
Local Open Scope R_scope.

Lemma pow40 : IZR (2 ^ 40) = 1099511627776. Proof. reflexivity. Qed.

Section Cheb.
Variable be : Backend.
Notation A := (F64 be).

Lemma near_angle : forall (x : A) th d, rel x th d -> 0 <= d <= 4 / 10 ^ 16 -> 0 <= th <= PI -> ffin x /\ 0 <= fval x <= 4 /\ Rabs (fval x - th) <= 32 / 10 * d.
Proof.
  intros x th d [F H] Hd Ht. pose proof PI_hi30 as PU. rewrite (Rabs_pos_eq th) in H by lra.
  assert (H2 : d * th <= 32 / 10 * d) by nra. pose proof (abs_lower _ _ H). pose proof (abs_upper _ _ H). split; [exact F|]. split; [nra|lra].
Qed.
Definition ang1 (n i : Z) : A := ndiv (nmul npi (nsub (nmul lit2 (nofZ i)) lit1)) (nmul lit2 (nofZ n)).
Definition ang2 (n i : Z) : A := nmul (nmul npi (nofZ i)) (ndiv lit1 (nadd (nofZ n) lit1)).
Lemma ang1_near : forall n i, (1 <= n <= 2 ^ 40)%Z -> (1 <= i <= n)%Z ->
  ffin (ang1 n i) /\ 0 <= fval (ang1 n i) <= 4 /\ Rabs (fval (ang1 n i) - PI * (2 * IZR i - 1) / (2 * IZR n)) <= 9 / 10 ^ 16.
Proof.
  intros n i Hn Hi. pose proof uro_num as U. pose proof PI_lo30 as PL. pose proof PI_hi30 as PU.
  assert (N : 1 <= IZR n <= IZR (2 ^ 40)) by (split; apply IZR_le; lia). rewrite pow40 in N.
  assert (I1 : 1 <= IZR i) by (apply IZR_le; lia). assert (I2 : IZR i <= IZR n) by (apply IZR_le; lia).
  assert (Q : IZR (2 * i - 1) = 2 * IZR i - 1) by (rewrite minus_IZR, mult_IZR; reflexivity). assert (Q2 : IZR (2 * n) = 2 * IZR n) by (rewrite mult_IZR; reflexivity).
  assert (M1 : mid (PI * IZR (2 * i - 1))). { apply mid_pos. rewrite Q. nra. }
  pose proof (rel_mul be _ _ _ _ _ _ (npi_rel be) (odd_rel be i ltac:(lia)) mid_pi (mid_int (2 * i - 1) ltac:(lia)) ltac:(lra) ltac:(lra)) as R1.
  apply (rel_weaken _ _ _ (152 / 10 ^ 18)) in R1; [|nra].
  pose proof (rel_div be _ _ _ _ _ _ R1 (double_rel be n ltac:(lia)) M1 (mid_int (2 * n) ltac:(lia)) ltac:(lra) ltac:(lra)) as R2.
  apply (rel_weaken _ _ _ (265 / 10 ^ 18)) in R2; [|rewrite Rminus_0_r; unfold Rdiv; rewrite Rinv_1; nra].
  rewrite Q, Q2 in R2. destruct (near_angle _ _ _ R2) as (F & B & D); [lra| |split; [exact F|split; [exact B|eapply Rle_trans; [exact D|lra]]]].
  split; [apply Rmult_le_pos; [nra|left; apply Rinv_0_lt_compat; lra]|].
  apply (Rmult_le_reg_r (2 * IZR n)); [lra|]. unfold Rdiv. rewrite Rmult_assoc, Rinv_l by lra. nra.
Qed.
Lemma ang2_near : forall n i, (1 <= n <= 2 ^ 40)%Z -> (1 <= i <= n)%Z ->
  ffin (ang2 n i) /\ 0 <= fval (ang2 n i) <= 4 /\ Rabs (fval (ang2 n i) - PI * IZR i / (IZR n + 1)) <= 12 / 10 ^ 16.
Proof.
  intros n i Hn Hi. pose proof uro_num as U. pose proof PI_lo30 as PL. pose proof PI_hi30 as PU.
  assert (N : 1 <= IZR n <= IZR (2 ^ 40)) by (split; apply IZR_le; lia). rewrite pow40 in N.
  assert (I1 : 1 <= IZR i) by (apply IZR_le; lia). assert (I2 : IZR i <= IZR n) by (apply IZR_le; lia).
  assert (Q : IZR (n + 1) = IZR n + 1) by (rewrite plus_IZR; reflexivity).
  assert (V : 0 < / IZR (n + 1) <= 1 /\ / IZR (n + 1) * IZR (n + 1) = 1 /\ / 10000000000000000 <= / IZR (n + 1)).
  { rewrite Q. split; [split; [apply Rinv_0_lt_compat; lra|rewrite <- Rinv_1; apply Rinv_le_contravar; lra]|]. split; [apply Rinv_l; lra|]. apply Rinv_le_contravar; lra. }
  destruct V as (V1 & V2 & V4).
  assert (M0 : mid (1 / IZR (n + 1))). { apply mid_pos. unfold Rdiv. rewrite Rmult_1_l. split; [|lra]. eapply Rle_trans; [|exact V4]. apply Rinv_le_contravar; lra. }
  assert (M1 : mid (PI * IZR i)). { apply mid_pos. nra. }
  pose proof (rel_div be _ _ _ _ _ _ (lit1_rel be) (succ_rel be n ltac:(lia)) (mid_int 1 ltac:(lia)) (mid_int (n + 1) ltac:(lia)) ltac:(lra) ltac:(lra)) as R0.
  apply (rel_weaken _ _ _ uro) in R0; [|rewrite Rminus_0_r; unfold Rdiv; rewrite Rinv_1; nra].
  pose proof (rel_mul be _ _ _ _ _ _ (npi_rel be) (rel_ofZ i ltac:(lia)) mid_pi (mid_int i ltac:(lia)) ltac:(lra) ltac:(lra)) as R1.
  apply (rel_weaken _ _ _ (152 / 10 ^ 18)) in R1; [|nra].
  pose proof (rel_mul be _ _ _ _ _ _ R1 R0 M1 M0 ltac:(lra) ltac:(lra)) as R2.
  apply (rel_weaken _ _ _ (375 / 10 ^ 18)) in R2; [|nra].
  replace (PI * IZR i * (1 / IZR (n + 1))) with (PI * IZR i / (IZR n + 1)) in R2 by (rewrite Q; field; lra).
  destruct (near_angle _ _ _ R2) as (F & B & D); [lra| |split; [exact F|split; [exact B|eapply Rle_trans; [exact D|lra]]]].
  split; [apply Rmult_le_pos; [nra|left; apply Rinv_0_lt_compat; lra]|].
  apply (Rmult_le_reg_r (IZR n + 1)); [lra|]. unfold Rdiv. rewrite Rmult_assoc, Rinv_l by lra. nra.
Qed.
Lemma list_shape : forall X (f : Z -> X) n, (1 <= n)%Z -> map f (rev (zrange 1 (n + 1))) = rev (map (fun i => f (Z.of_nat i + 1)%Z) (seq 0 (Z.to_nat n))).
Proof.
  intros X f n Hn. rewrite map_rev. unfold zrange. rewrite map_map. replace (n + 1 - 1)%Z with n by lia. f_equal. apply map_ext. intros i. f_equal. lia.
Qed.

Section One.
Variables (t : Target) (n : Z).
Hypothesis Hn : (1 <= n <= 2 ^ 40)%Z.
Hypothesis Hu : (n < usize_max t)%Z.

Definition th1 (i : nat) : R := PI * (2 * INR i + 1) / (2 * IZR n).
Definition th2 (i : nat) : R := PI * (INR i + 1) / (IZR n + 1).
Lemma N_range : 1 <= IZR n <= 1099511627776.
Proof. rewrite <- pow40. split; apply IZR_le; lia. Qed.
Lemma idx : forall i, (i < Z.to_nat n)%nat -> 0 <= INR i <= IZR n - 1.
Proof. intros i Hi. split; [apply pos_INR|]. rewrite INR_IZR_INZ, <- minus_IZR. apply IZR_le. lia. Qed.
Lemma idx_lt : forall i j, (i < j)%nat -> INR i + 1 <= INR j.
Proof. intros i j H. rewrite <- S_INR. apply le_INR. lia. Qed.
Lemma IZR_idx : forall i : nat, IZR (Z.of_nat i + 1) = INR i + 1.
Proof. intros i. rewrite plus_IZR, <- INR_IZR_INZ. reflexivity. Qed.

Lemma facts1 : (forall i, (i < Z.to_nat n)%nat -> ffin (ang1 n (Z.of_nat i + 1)) /\ 0 <= fval (ang1 n (Z.of_nat i + 1)) <= 4 /\ Rabs (fval (ang1 n (Z.of_nat i + 1)) - th1 i) <= 9 / 10 ^ 16) /\
  (forall i, (i < Z.to_nat n)%nat -> 15 / 10 / IZR n <= th1 i <= PI - 15 / 10 / IZR n) /\ (forall i j, (i < j)%nat -> (j < Z.to_nat n)%nat -> th1 i + 3 / IZR n <= th1 j).
Proof.
  pose proof N_range as N. pose proof PI_lo30 as PL. assert (V : 0 < / IZR n) by (apply Rinv_0_lt_compat; lra). assert (V1 : / IZR n * IZR n = 1) by (apply Rinv_l; lra).
  assert (E : forall i, th1 i = PI * (INR i + / 2) * / IZR n) by (intros i; unfold th1; field; lra).
  split; [|split].
  - intros i Hi. destruct (ang1_near n (Z.of_nat i + 1) Hn ltac:(lia)) as (F & B & D). rewrite IZR_idx in D. split; [exact F|]. split; [exact B|].
    unfold th1. replace (2 * INR i + 1) with (2 * (INR i + 1) - 1) by ring. exact D.
  - intros i Hi. destruct (idx i Hi) as [I0 I1]. rewrite E. unfold Rdiv. split.
    + apply Rmult_le_compat_r; [lra|]. nra.
    + assert (X : (PI * (INR i + / 2) + 15 / 10) * / IZR n <= PI * IZR n * / IZR n) by (apply Rmult_le_compat_r; nra). rewrite Rmult_assoc, (Rmult_comm (IZR n)), V1 in X. unfold Rdiv in X. lra.
  - intros i j Hij Hj. pose proof (idx_lt i j Hij). rewrite !E. unfold Rdiv. rewrite <- Rmult_plus_distr_r. apply Rmult_le_compat_r; [lra|]. nra.
Qed.
Lemma facts2 : (forall i, (i < Z.to_nat n)%nat -> ffin (ang2 n (Z.of_nat i + 1)) /\ 0 <= fval (ang2 n (Z.of_nat i + 1)) <= 4 /\ Rabs (fval (ang2 n (Z.of_nat i + 1)) - th2 i) <= 12 / 10 ^ 16) /\
  (forall i, (i < Z.to_nat n)%nat -> 15 / 10 / IZR n <= th2 i <= PI - 15 / 10 / IZR n) /\ (forall i j, (i < j)%nat -> (j < Z.to_nat n)%nat -> th2 i + 15 / 10 / IZR n <= th2 j).
Proof.
  pose proof N_range as N. pose proof PI_lo30 as PL. assert (V : 0 < / IZR n) by (apply Rinv_0_lt_compat; lra).
  assert (W : 0 < / (IZR n + 1)) by (apply Rinv_0_lt_compat; lra). assert (W1 : / (IZR n + 1) * (IZR n + 1) = 1) by (apply Rinv_l; lra).
  assert (VW : / IZR n <= 2 * / (IZR n + 1)). { replace (2 * / (IZR n + 1)) with (/ ((IZR n + 1) / 2)) by (field; lra). apply Rinv_le_contravar; lra. }
  assert (E : forall i, th2 i = PI * (INR i + 1) * / (IZR n + 1)) by (intros i; unfold th2; field; lra).
  assert (G : 15 / 10 / IZR n <= PI * / (IZR n + 1)). { unfold Rdiv. apply Rle_trans with (15 / 10 * (2 * / (IZR n + 1))); [apply Rmult_le_compat_l; lra|]. rewrite <- Rmult_assoc. apply Rmult_le_compat_r; lra. }
  split; [|split].
  - intros i Hi. destruct (ang2_near n (Z.of_nat i + 1) Hn ltac:(lia)) as (F & B & D). rewrite IZR_idx in D. split; [exact F|]. split; [exact B|]. exact D.
  - intros i Hi. destruct (idx i Hi) as [I0 I1]. rewrite E. split.
    + eapply Rle_trans; [exact G|]. apply Rmult_le_compat_r; [lra|]. nra.
    + assert (X : (PI * (INR i + 1) + PI) * / (IZR n + 1) <= PI * (IZR n + 1) * / (IZR n + 1)) by (apply Rmult_le_compat_r; nra). rewrite (Rmult_assoc PI (IZR n + 1)), (Rmult_comm (IZR n + 1)), W1 in X. lra.
  - intros i j Hij Hj. pose proof (idx_lt i j Hij). rewrite !E. apply Rle_trans with (PI * (INR i + 1) * / (IZR n + 1) + PI * / (IZR n + 1)); [lra|]. rewrite <- Rmult_plus_distr_r. apply Rmult_le_compat_r; [lra|]. nra.
Qed.
(** what remains of the hypothesis on the degree *)
Lemma budget : forall kappa, 0 <= kappa -> IZR n * IZR n * (10 * kappa + 2 / 10 ^ 14) <= 1 ->
  kappa <= / (IZR n * IZR n) / 10 - 2 / 10 ^ 15 /\ (/ IZR n) * (/ IZR n) = / (IZR n * IZR n) /\ 0 < / (IZR n * IZR n).
Proof.
  intros kappa K H. pose proof N_range as N. assert (P : 0 < IZR n * IZR n) by nra. assert (V : 0 < / (IZR n * IZR n)) by (apply Rinv_0_lt_compat; exact P).
  split; [|split; [field; lra|exact V]]. apply (Rmult_le_compat_r (/ (IZR n * IZR n))) in H; [|lra]. rewrite Rmult_1_l in H.
  replace (IZR n * IZR n * (10 * kappa + 2 / 10 ^ 14) * / (IZR n * IZR n)) with (10 * kappa + 2 / 10 ^ 14) in H by (field; lra). lra.
Qed.

Lemma cheb1_weak : falling_cos be -> forall r : GaussChebyshevFirstKind A, chebyshev1_new t n = Ok r -> @ascending A (chebyshev1_pairs r).
Proof.
  intros FC r Hr. unfold chebyshev1_new in Hr. rewrite usize_add_ok in Hr by lia. cbn [bind] in Hr. apply ok_inj in Hr. subst r. cbn [chebyshev1_pairs].
  rewrite list_shape by lia. destruct facts1 as (A1 & A2 & A3). pose proof N_range as N. assert (V : / 1099511627776 <= / IZR n) by (apply Rinv_le_contravar; lra).
  refine (weak_order be (Z.to_nat n) (fun i => ang1 n (Z.of_nat i + 1)) (fun _ => ndiv npi (nofZ n)) th1 (15 / 10 / IZR n) (3 / IZR n) (9 / 10 ^ 16) A1 A2 A3 FC _ _); unfold Rdiv; lra.
Qed.
Lemma cheb2_weak : falling_cos be -> forall r : GaussChebyshevSecondKind A, chebyshev2_new t n = Ok r -> @ascending A (chebyshev2_pairs r).
Proof.
  intros FC r Hr. unfold chebyshev2_new in Hr. rewrite usize_add_ok in Hr by lia. cbn [bind] in Hr. apply ok_inj in Hr. subst r. cbn [chebyshev2_pairs].
  rewrite list_shape by lia. destruct facts2 as (A1 & A2 & A3). pose proof N_range as N. assert (V : / 1099511627776 <= / IZR n) by (apply Rinv_le_contravar; lra).
  refine (weak_order be (Z.to_nat n) (fun i => ang2 n (Z.of_nat i + 1)) (fun i => snd (chebyshev2_pair (nofZ n) (Z.of_nat i + 1))) th2 (15 / 10 / IZR n) (15 / 10 / IZR n) (12 / 10 ^ 16) A1 A2 A3 FC _ _); unfold Rdiv; lra.
Qed.
Variable kappa : R.
Hypothesis HT : accurate_trig be kappa.
Hypothesis HB : IZR n * IZR n * (10 * kappa + 2 / 10 ^ 14) <= 1.
Lemma cheb1_strict : forall r : GaussChebyshevFirstKind A, chebyshev1_new t n = Ok r -> separated (chebyshev1_pairs r) /\ @ascending A (chebyshev1_pairs r).
Proof.
  intros r Hr. unfold chebyshev1_new in Hr. rewrite usize_add_ok in Hr by lia. cbn [bind] in Hr. apply ok_inj in Hr. subst r. cbn [chebyshev1_pairs].
  rewrite list_shape by lia. destruct facts1 as (A1 & A2 & A3). pose proof N_range as N. assert (V : 0 < / IZR n) by (apply Rinv_0_lt_compat; lra).
  destruct HT as [[K0 K1] _]. destruct (budget kappa K0 HB) as (B1 & B2 & B3). pose proof eta_num as Et.
  refine (strict_order be (Z.to_nat n) (fun i => ang1 n (Z.of_nat i + 1)) (fun _ => ndiv npi (nofZ n)) th1 (15 / 10 / IZR n) (3 / IZR n) (9 / 10 ^ 16) _ _ A1 A2 A3 kappa HT _ _ _); unfold Rdiv; try lra.
  - intros i Hi. destruct (cheb1_close be kappa HT n (Z.of_nat i + 1) ltac:(lia) ltac:(lia)) as [_ [W1 W2]]. unfold chebyshev1_pair in W1, W2. cbn [snd] in W1, W2.
    split; [exact W1|]. change (@ndiv RA npi (nofZ n)) with (PI / IZR n) in W2. pose proof (abs_lower _ _ W2) as W3. pose proof PI_lo30. unfold Rdiv in *. cbv beta in *. set (v := / IZR n) in *. clearbody v. nra.
Qed.
Lemma cheb2_strict : forall r : GaussChebyshevSecondKind A, chebyshev2_new t n = Ok r -> separated (chebyshev2_pairs r) /\ @ascending A (chebyshev2_pairs r).
Proof.
  intros r Hr. unfold chebyshev2_new in Hr. rewrite usize_add_ok in Hr by lia. cbn [bind] in Hr. apply ok_inj in Hr. subst r. cbn [chebyshev2_pairs].
  rewrite list_shape by lia. destruct facts2 as (A1 & A2 & A3). pose proof N_range as N. assert (V : 0 < / IZR n) by (apply Rinv_0_lt_compat; lra).
  destruct HT as [[K0 K1] _]. destruct (budget kappa K0 HB) as (B1 & B2 & B3). pose proof eta_num as Et.
  refine (strict_order be (Z.to_nat n) (fun i => ang2 n (Z.of_nat i + 1)) (fun i => snd (chebyshev2_pair (nofZ n) (Z.of_nat i + 1))) th2 (15 / 10 / IZR n) (15 / 10 / IZR n) (12 / 10 ^ 16) _ _ A1 A2 A3 kappa HT _ _ _); unfold Rdiv; try lra.
  - intros i Hi. destruct (cheb2_close be kappa HT n (Z.of_nat i + 1) ltac:(lia) ltac:(lia)) as [_ [W1 W2]].
    split; [exact W1|]. pose proof (abs_lower _ _ W2) as W3. specialize (A2 i Hi).
    assert (EQ : snd (@chebyshev2_pair RA (nofZ n) (Z.of_nat i + 1)) = PI / (IZR n + 1) * (sin (th2 i) * sin (th2 i))).
    { unfold chebyshev2_pair. cbn [snd]. ra_simpl. ra_lits. rewrite IZR_idx. replace (PI * (INR i + 1) * (1 / (IZR n + 1))) with (th2 i) by (unfold th2; field; lra). field. lra. }
    assert (SB : 3 / 4 * / IZR n <= sin (th2 i)). { pose proof (sin_wide (th2 i) (15 / 10 / IZR n) ltac:(unfold Rdiv; lra) A2) as SW. unfold Rdiv in SW. lra. }
    pose proof PI_lo30. set (s := sin (th2 i)) in *.
    assert (PN : 15 / 10 * / IZR n <= PI / (IZR n + 1)).
    { assert (W : 0 < / (IZR n + 1)) by (apply Rinv_0_lt_compat; lra). assert (VW : / IZR n <= 2 * / (IZR n + 1)). { replace (2 * / (IZR n + 1)) with (/ ((IZR n + 1) / 2)) by (field; lra). apply Rinv_le_contravar; lra. }
      unfold Rdiv. apply Rle_trans with (15 / 10 * (2 * / (IZR n + 1))); [apply Rmult_le_compat_l; lra|]. rewrite <- Rmult_assoc. apply Rmult_le_compat_r; lra. }
    assert (SS : 9 / 16 * / (IZR n * IZR n) <= s * s). { rewrite <- B2. replace (9 / 16 * (/ IZR n * / IZR n)) with (3 / 4 * / IZR n * (3 / 4 * / IZR n)) by (field; lra). apply Rmult_le_compat; lra. }
    assert (WW : 15 / 10 * / IZR n * (9 / 16 * / (IZR n * IZR n)) <= PI / (IZR n + 1) * (s * s)) by (apply Rmult_le_compat; lra).
    cbv beta in *. set (fw := fval (snd (@chebyshev2_pair A (nofZ n) (Z.of_nat i + 1)))) in *. assert (W4 : - ((7 * kappa + 1 / 10 ^ 14) * / IZR n) <= fw - PI / (IZR n + 1) * (s * s)) by (rewrite <- EQ; exact W3). clear W3 W2. clearbody fw. set (v := / IZR n) in *. set (u := / (IZR n * IZR n)) in *. set (ww := PI / (IZR n + 1) * (s * s)) in *. clearbody ww v u s.
    assert (Z1 : (7 * kappa + 1 / 10 ^ 14) * v <= (7 / 10 * u) * v) by (apply Rmult_le_compat_r; lra). cbv beta. nra.
Qed.
End One.
End Cheb.
