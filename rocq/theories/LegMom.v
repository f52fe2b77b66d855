(** What the integer checks say about the real numbers. *)
From Coq Require Import Reals ZArith List Lia Lra Bool.
From Verif Require Import RInst LegendreData LegAsym LegTable Fix63 FixPoint LegCheck LegRun RSum.
Import ListNotations.
Local Open Scope R_scope.

Transparent SC.
Lemma sc_huge : 10 ^ 36 <= sc.
Proof. rewrite (pow_IZR 10 36). apply IZR_le. apply Z.leb_le. reflexivity. Qed.
Opaque SC.

Notation theta d := (val (fst d)). Notation weight d := (val (snd d)).
Definition midw (n : nat) : R := if Nat.odd n then 2 / (val (cl_entry n) * val (cl_entry n)) else 0.

Section N.
Variable n : nat.
Hypothesis Hn : (1 <= n <= 100)%nat.

Lemma entries_length : length (entries n) = (n / 2)%nat.
Proof.
  unfold entries. destruct (Nat.ltb_spec n 2) as [H|H]; [assert (n = 1)%nat by lia; subst; reflexivity|].
  destruct (row_length n ltac:(lia)) as [L1 L2]. rewrite combine_length, L1, L2. lia.
Qed.
Lemma entry_fix : forall d, In d (entries n) -> exp_ok (fst d) = true /\ exp_ok (snd d) = true /\ 0 < theta d < 157 / 100 /\ 0 < weight d.
Proof.
  intros [a b] Hd. unfold entries in Hd. destruct (Nat.ltb_spec n 2) as [H|H]; [destruct Hd|].
  destruct (theta_facts n ltac:(lia)) as (A & _ & C). destruct (row_length n ltac:(lia)) as [L1 L2]. cbn [fst snd].
  pose proof (in_combine_l _ _ _ _ Hd) as Ha. pose proof (in_combine_r _ _ _ _ Hd) as Hb.
  destruct (In_nth _ _ d0 Ha) as (i & Hi & Ei). destruct (In_nth _ _ d0 Hb) as (j & Hj & Ej).
  destruct (A i ltac:(lia)) as [A1 A2]. destruct (C j ltac:(lia)) as [C1 C2]. rewrite Ei in A1, A2. rewrite Ej in C1, C2.
  split; [exact A1|]. split; [exact C1|]. split; [exact A2|exact C2].
Qed.
Lemma fold_fix : forall l c, (forall d, In d l -> exp_ok d = true) -> IZR (fold_left (fun s d => (s + fix30 d)%Z) l c) = IZR c + 10 ^ 30 * lsum (map (fun d => val d) l).
Proof.
  induction l as [|d l IH]; intros c H; cbn [fold_left map lsum]; [ring|]. rewrite IH by (intros; apply H; right; assumption). rewrite plus_IZR.
  unfold val at 2. rewrite (fix30_val d) by (apply H; left; reflexivity). field.
Qed.
Lemma weights_total : lsum (map (fun d => weight d) (entries n)) <= 2.
Proof.
  assert (EF := entry_fix). revert EF. unfold entries. destruct (Nat.ltb_spec n 2) as [H|H]; intros EF; [simpl; lra|].
  destruct (row_length n ltac:(lia)) as [L1 L2].
  pose proof (proj1 (forallb_forall _ _) small_all n ltac:(apply in_seq; lia)) as S. unfold weights_small in S. apply Z.leb_le, IZR_le in S.
  assert (SN : forall (l1 l2 : list (Z * Z)), length l1 = length l2 -> map snd (combine l1 l2) = l2).
  { induction l1 as [|x l1 IH]; intros [|y l2] E; try discriminate; [reflexivity|]. cbn [combine map snd]. f_equal. apply IH. injection E. auto. }
  assert (E : map (fun d => weight d) (combine (theta_row n) (weight_row n)) = map (fun d => val d) (weight_row n)).
  { rewrite <- (SN (theta_row n) (weight_row n)) at 2 by lia. rewrite map_map. reflexivity. }
  rewrite E. rewrite fold_fix in S.
  - rewrite Rplus_0_l in S. change (IZR (2 * 10 ^ 30)) with (IZR (2 * 10 ^ 30)) in S. rewrite mult_IZR in S. change (10 ^ 30)%Z with (10 ^ Z.of_nat 30)%Z in S. rewrite <- pow_IZR in S.
    pose proof ten30. apply Rmult_le_reg_l with (10 ^ 30); [assumption|lra].
  - intros d Hd. rewrite <- (SN (theta_row n) (weight_row n)) in Hd by lia. apply in_map_iff in Hd. destruct Hd as (e & Ee & He). rewrite <- Ee. apply EF. exact He.
Qed.
Lemma lsum_ge : forall (X : Type) (l : list X) (f : X -> R) x, In x l -> (forall y, In y l -> 0 <= f y) -> f x <= lsum (map f l).
Proof.
  intros X l f x. induction l as [|y l IH]; intros Hx Hp; [destruct Hx|]. cbn [map lsum].
  assert (P : 0 <= lsum (map f l)). { clear IH Hx. induction l as [|z l IH]; cbn [map lsum]; [lra|]. assert (0 <= f z) by (apply Hp; right; left; reflexivity).
    assert (0 <= lsum (map f l)) by (apply IH; intros u [->|Hu]; apply Hp; [left; reflexivity|right; right; exact Hu]). lra. }
  destruct Hx as [->|Hx]; [lra|]. specialize (IH Hx (fun z Hz => Hp z (or_intror Hz))). assert (0 <= f y) by (apply Hp; left; reflexivity). lra.
Qed.
Lemma entry_ok : forall d, In d (entries n) -> exp_ok (fst d) = true /\ exp_ok (snd d) = true /\ 0 < theta d < 157 / 100 /\ 0 < weight d <= 2.
Proof.
  intros d Hd. destruct (entry_fix d Hd) as (A & B & C & D). split; [exact A|]. split; [exact B|]. split; [exact C|]. split; [exact D|].
  eapply Rle_trans; [|exact weights_total]. apply (lsum_ge _ (entries n) (fun d => weight d) d Hd). intros y Hy. destruct (entry_fix y Hy) as (_ & _ & _ & P). lra.
Qed.

Lemma ap_floor : forall a d r, (0 < d)%Z -> r * sc = IZR a / IZR d -> ap (a / d) r 1.
Proof. intros a d r Hd E. unfold ap. rewrite E. apply floor_div. exact Hd. Qed.
Lemma dec_ap : forall a, exp_ok a = true -> 0 < val a <= 2 -> ap (sz (dec (fix30 a))) (val a) 200.
Proof.
  intros a E V. unfold dec. pose proof ten30 as T. pose proof sc_pos as SP. rewrite sc_val in SP.
  assert (K : ap (sz kappa) (2 ^ 101 / 10 ^ 30) 1).
  { change (sz kappa) with (2 ^ 221 / 10 ^ 30)%Z. apply ap_floor; [reflexivity|]. rewrite sc_val.
    change (2 ^ 221)%Z with (2 ^ Z.of_nat 221)%Z. change (10 ^ 30)%Z with (10 ^ Z.of_nat 30)%Z. rewrite <- !pow_IZR.
    replace (2 ^ 221) with (2 ^ 101 * 2 ^ 120) by (rewrite <- pow_add; reflexivity). field; try lra. }
  assert (Z1 : ap (fix30 a * 2 ^ 19) (val a * (10 ^ 30 / 2 ^ 101)) 0).
  { unfold ap. rewrite sc_val. unfold val. rewrite (fix30_val _ E). rewrite mult_IZR. change (2 ^ 19)%Z with (2 ^ Z.of_nat 19)%Z. rewrite <- pow_IZR.
    replace (2 ^ 120) with (2 ^ 101 * 2 ^ 19) by (rewrite <- pow_add; reflexivity).
    assert (0 < 2 ^ 101) by (apply pow_lt; lra). rewrite Rminus_diag_eq, Rabs_R0; [lra|]. field; try lra. }
  assert (N : 0 < 10 ^ 30 / 2 ^ 101 <= 1 / 2) by lra.
  assert (B : Rabs (val a * (10 ^ 30 / 2 ^ 101)) <= 1) by (rewrite Rabs_pos_eq; [nra|apply Rmult_le_pos; lra]).
  replace (val a) with (val a * (10 ^ 30 / 2 ^ 101) * (2 ^ 101 / 10 ^ 30)).
  2:{ assert (0 < 2 ^ 101) by (apply pow_lt; lra). field; try lra. }
  apply (ap_fmul _ _ _ _ 0 1 1 3).
  - apply ap_ofZ; [exact Z1|lra|lra].
  - exact K.
  - exact B.
  - rewrite Rabs_pos_eq; lra.
  - lra.
  - lra.
  - lra.
  - lra.
  - lra.
Qed.
Lemma TH_ap : forall d, In d (entries n) -> ap (sz (TH d)) (theta d) 200.
Proof. intros d Hd. destruct (entry_ok d Hd) as (E1 & _ & R & _). apply dec_ap; [exact E1|lra]. Qed.
Lemma T2_ap : forall d, In d (entries n) -> ap (sz (T2 d)) (theta d * theta d) 1000.
Proof.
  intros d Hd. destruct (entry_ok d Hd) as (_ & _ & R & _). unfold T2. cbv zeta. pose proof (TH_ap d Hd) as H.
  apply (ap_fmul _ _ _ _ 200 200 2 2); try exact H; try lra; rewrite Rabs_pos_eq; lra.
Qed.
Lemma W_ap : forall d, In d (entries n) -> ap (sz (W d)) (weight d) 200.
Proof. intros d Hd. destruct (entry_ok d Hd) as (_ & E1 & _ & R). apply dec_ap; [exact E1|lra]. Qed.
Lemma cos_abs : forall a, Rabs (cos a) <= 1. Proof. intros a. apply Rabs_le. pose proof (COS_bound a). lra. Qed.
Lemma X2_ap : forall d, In d (entries n) -> ap (sz (X2 d)) (cos (theta d) * cos (theta d)) 4200.
Proof.
  intros d Hd. destruct (entry_ok d Hd) as (_ & _ & R & _). unfold X2. cbv zeta.
  pose proof (cos_err (theta d) (T2 d) ltac:(lra) (T2_ap d Hd)) as C.
  apply (ap_fmul _ _ _ _ 2000 2000 1 1); [exact C|exact C|apply cos_abs|apply cos_abs|lra|lra|lra|lra|lra].
Qed.
Lemma C2_ap : forall d, In d (entries n) -> ap (sz (C2 (X2 d))) (cos (2 * theta d)) 8400.
Proof.
  intros d Hd. unfold C2. rewrite cos_2a_cos. pose proof (X2_ap d Hd) as H.
  assert (Q : 0 <= cos (theta d) * cos (theta d) <= 1). { pose proof (COS_bound (theta d)). nra. }
  replace (2 * cos (theta d) * cos (theta d) - 1) with ((cos (theta d) * cos (theta d) + cos (theta d) * cos (theta d)) - 1) by ring.
  apply (ap_weaken _ _ (4200 + 4200 + 0)); [|lra]. apply ap_fsub; [|apply fone_ap| |lra].
  - apply ap_fadd; [exact H|exact H| |lra]. rewrite Rabs_pos_eq; lra.
  - apply Rabs_le. lra.
Qed.
Lemma MID_ap : ap (MID n) (midw n) 1.
Proof.
  unfold MID, midw. destruct (Nat.odd n); [|unfold ap; rewrite Rmult_0_l; unfold Rminus; rewrite Ropp_0, Rplus_0_l, Rabs_R0; lra].
  destruct (cl_facts n Hn) as [E C]. set (f := fix30 (cl_entry n)).
  assert (F : IZR f <> 0). { intros Z0. apply C. unfold val. rewrite (fix30_val _ E). fold f. rewrite Z0. unfold Rdiv. ring. }
  apply ap_floor; [assert (f <> 0)%Z by (intros Z0; apply F; rewrite Z0; reflexivity); nia|].
  unfold val. rewrite (fix30_val _ E). fold f. rewrite !mult_IZR. replace (IZR (10 ^ 60)) with (10 ^ 30 * 10 ^ 30).
  - field; repeat split; try exact F; try (apply pow_nonzero; lra).
  - rewrite !(pow_IZR 10 30), <- mult_IZR. reflexivity.
Qed.

(** sums *)
Lemma fsum_ap : forall X (l : list X) (f : X -> F) (g e : X -> R), (forall x, In x l -> ap (sz (f x)) (g x) (e x)) ->
  Rabs (lsum (map g l)) <= 16 -> lsum (map e l) <= 10 ^ 30 -> ap (sz (fsum (map f l))) (lsum (map g l)) (lsum (map e l)).
Proof.
  intros X l f g e H Hg He.
  assert (G : ap (fold_right (fun y s => sz y + s)%Z 0%Z (map f l)) (lsum (map g l)) (lsum (map e l))).
  { clear Hg He. induction l as [|x l IH]; cbn [map fold_right lsum].
    - unfold ap. rewrite Rmult_0_l. unfold Rminus. rewrite Ropp_0, Rplus_0_l, Rabs_R0. lra.
    - apply ap_add; [apply H; left; reflexivity|apply IH; intros; apply H; right; assumption]. }
  pose proof (ap_range _ _ _ G Hg He) as B. unfold fsum. rewrite (sz_unique _ (fold_right (fun y s => sz y + s)%Z 0%Z (map f l))); [exact G|lia|].
  rewrite fsum_mod, vz_fzero. reflexivity.
Qed.
Lemma lsum_const : forall X (l : list X) c, lsum (map (fun _ => c) l) = INR (length l) * c.
Proof.
  intros X l c. induction l as [|x l IH]; [simpl; ring|]. change (lsum (map (fun _ => c) (x :: l))) with (c + lsum (map (fun _ : X => c) l)).
  rewrite IH. cbn [length]. rewrite S_INR. ring.
Qed.

(** * Power moments *)
Fixpoint Pz (j : nat) (d : (Z * Z) * (Z * Z)) : F := match j with O => W d | S j => fmul (Pz j d) (X2 d) end.
Lemma pow_cos_bound : forall d j, In d (entries n) -> Rabs (weight d * (cos (theta d) * cos (theta d)) ^ j) <= 2.
Proof.
  intros d j Hd. destruct (entry_ok d Hd) as (_ & _ & _ & R).
  assert (Q : 0 <= cos (theta d) * cos (theta d) <= 1). { pose proof (COS_bound (theta d)). nra. }
  assert (P : 0 <= (cos (theta d) * cos (theta d)) ^ j <= 1). { split; [apply pow_le; lra|]. rewrite <- (pow1 j). apply pow_incr. exact Q. }
  rewrite Rabs_pos_eq; [|apply Rmult_le_pos; lra]. replace 2 with (2 * 1) by ring. apply Rmult_le_compat; lra.
Qed.
Lemma Pz_ap : forall d j, In d (entries n) -> (j <= 1000)%nat -> ap (sz (Pz j d)) (weight d * (cos (theta d) * cos (theta d)) ^ j) (200 + 9000 * INR j).
Proof.
  intros d j Hd. induction j as [|j IH]; intros Hj.
  - cbn [Pz pow]. rewrite Rmult_1_r. eapply ap_weaken; [apply W_ap; exact Hd|simpl; lra].
  - cbn [Pz pow]. specialize (IH ltac:(lia)).
    assert (J : 0 <= INR j <= 1000). { split; [apply pos_INR|]. replace 1000 with (INR 1000) by (simpl; lra). apply le_INR. lia. }
    replace (weight d * (cos (theta d) * cos (theta d) * (cos (theta d) * cos (theta d)) ^ j)) with ((weight d * (cos (theta d) * cos (theta d)) ^ j) * (cos (theta d) * cos (theta d))) by ring.
    apply (ap_fmul _ _ _ _ (200 + 9000 * INR j) 4200 2 1).
    + exact IH. + apply X2_ap; exact Hd. + apply pow_cos_bound; exact Hd.
    + apply (hmul _ _ 1 1); [apply cos_abs|apply cos_abs|lra]. + lra. + lra. + lra. + lra. + rewrite S_INR. lra.
Qed.
Lemma step_eq : forall j d, (fmul (fst (Pz j d, X2 d)) (snd (Pz j d, X2 d)), snd (Pz j d, X2 d)) = (Pz (S j) d, X2 d). Proof. reflexivity. Qed.
Lemma prep_eq : forall d, (W d, X2 d) = (Pz 0 d, X2 d). Proof. reflexivity. Qed.
Lemma mom_steps_spec : forall m tol k j, mom_steps m tol k (Z.of_nat j) (map (fun d => (Pz j d, X2 d)) (entries n)) = true ->
  forall i, (i < k)%nat -> (mom_defect m (Z.of_nat (j + i)) (sz (fsum (map (Pz (j + i)) (entries n)))) <= tol)%Z.
Proof.
  intros m tol k. induction k as [|k IH]; intros j H i Hi; [lia|]. cbn [mom_steps] in H. apply andb_prop in H. destruct H as [H1 H2].
  rewrite map_map in H1. rewrite (map_ext _ (Pz j) (fun d => eq_refl)) in H1. apply Z.leb_le in H1. rewrite map_map in H2. rewrite (map_ext _ _ (step_eq j)) in H2.
  destruct i as [|i]; [rewrite Nat.add_0_r; exact H1|]. replace (j + S i)%nat with (S j + i)%nat by lia. apply IH; [|lia].
  replace (Z.of_nat (S j)) with (Z.of_nat j + 1)%Z by lia. exact H2.
Qed.
Lemma half_le : INR (length (entries n)) <= 50.
Proof.
  rewrite entries_length. replace 50 with (INR 50) by (simpl; lra). apply le_INR. apply Nat.div_le_upper_bound; lia.
Qed.
Lemma checked : mom_steps (MID n) mom_tol n 0 (prep n) = true /\ (cheb_steps (MID n) n 0 (map cprep (prep n)) 0 <= cheb_tol * cheb_tol)%Z.
Proof.
  pose proof (proj1 (forallb_forall _ _) all_checked n ltac:(apply in_seq; lia)) as H. unfold n_check in H. cbv zeta in H.
  apply andb_prop in H. destruct H as [H1 H2]. split; [exact H1|]. apply Z.leb_le. exact H2.
Qed.
Lemma lsum_bounded : forall (X : Type) (l : list X) (f g : X -> R), (forall x, In x l -> Rabs (f x) <= g x) -> Rabs (lsum (map f l)) <= lsum (map g l).
Proof.
  intros X l f g. induction l as [|x l IH]; intros H; cbn [map lsum]; [rewrite Rabs_R0; lra|]. eapply Rle_trans; [apply Rabs_triang|].
  apply Rplus_le_compat; [apply H; left; reflexivity|apply IH; intros; apply H; right; assumption].
Qed.
Lemma power_moment : forall j, (j < n)%nat ->
  Rabs (2 * lsum (map (fun d => weight d * (cos (theta d) * cos (theta d)) ^ j) (entries n)) + (if Nat.eqb j 0 then midw n else 0) - 2 / (2 * INR j + 1)) <= 15 / 10 ^ 17.
Proof.
  intros j Hj. destruct checked as [H _]. unfold prep in H. rewrite (map_ext _ _ prep_eq) in H. change 0%Z with (Z.of_nat 0) in H at 1.
  pose proof (mom_steps_spec (MID n) mom_tol n 0 H j Hj) as M. rewrite Nat.add_0_l in M. unfold mom_defect in M. apply IZR_le in M. rewrite abs_IZR in M.
  pose proof sc_huge as SB. pose proof sc_pos as SP.
  assert (J : 0 <= INR j <= 99). { split; [apply pos_INR|]. replace 99 with (INR 99) by (simpl; lra). apply le_INR. lia. }
  pose proof half_le as HL.
  assert (A1 : ap (sz (fsum (map (Pz j) (entries n)))) (lsum (map (fun d => weight d * (cos (theta d) * cos (theta d)) ^ j) (entries n))) (10 ^ 8)).
  { assert (LE : lsum (map (fun _ => 200 + 9000 * INR j) (entries n)) <= 10 ^ 8).
    { rewrite lsum_const. apply Rle_trans with (50 * (200 + 9000 * 99)); [|lra]. apply Rmult_le_compat; [apply pos_INR|lra|exact HL|lra]. }
    eapply ap_weaken; [apply (fsum_ap _ (entries n) (Pz j) _ (fun _ => 200 + 9000 * INR j)); [intros d Hd; apply Pz_ap; [exact Hd|lia]| |]|]; [|lra|exact LE].
    eapply Rle_trans; [apply (lsum_bounded _ _ _ (fun d => weight d))|pose proof weights_total; lra].
    intros d Hd. destruct (entry_ok d Hd) as (_ & _ & _ & R).
    assert (Q : 0 <= cos (theta d) * cos (theta d) <= 1). { pose proof (COS_bound (theta d)). nra. }
    assert (P : 0 <= (cos (theta d) * cos (theta d)) ^ j <= 1). { split; [apply pow_le; lra|]. rewrite <- (pow1 j). apply pow_incr. exact Q. }
    rewrite Rabs_pos_eq; [|apply Rmult_le_pos; lra]. rewrite <- (Rmult_1_r (weight d)) at 2. apply Rmult_le_compat_l; lra. }
  assert (A2 : ap (if Nat.eqb j 0 then MID n else 0%Z) (if Nat.eqb j 0 then midw n else 0) 1).
  { destruct (Nat.eqb j 0); [apply MID_ap|]. unfold ap. rewrite Rmult_0_l. unfold Rminus. rewrite Ropp_0, Rplus_0_l, Rabs_R0. lra. }
  assert (A3 : ap (2 * SC / (2 * Z.of_nat j + 1)) (2 / (2 * INR j + 1)) 1).
  { apply ap_floor; [lia|]. rewrite mult_IZR, plus_IZR, mult_IZR, <- INR_IZR_INZ. field. lra. }
  pose proof (ap_sub _ _ _ _ _ _ (ap_add _ _ _ _ _ _ (ap_scal 2 _ _ _ A1) A2) A3) as A. rewrite (Rabs_pos_eq (IZR 2)) in A by lra.
  unfold ap in A.
  assert (E0 : (if (Z.of_nat j =? 0)%Z then MID n else 0%Z) = (if Nat.eqb j 0 then MID n else 0%Z)) by (destruct j; reflexivity).
  rewrite E0 in M. set (z := IZR (_ + _ - _)) in *. set (r := (_ + _ - _)) in *.
  assert (T : IZR mom_tol <= 14 / 10 ^ 17 * sc).
  { replace (14 / 10 ^ 17 * sc) with (IZR (14 * SC) / 10 ^ 17) by (rewrite mult_IZR; field).
    apply Rmult_le_reg_r with (10 ^ 17); [lra|]. unfold Rdiv. rewrite Rmult_assoc, Rinv_l, Rmult_1_r by lra. rewrite (pow_IZR 10 17), <- mult_IZR. apply IZR_le. apply Z.leb_le. vm_compute. reflexivity. }
  assert (G : Rabs (r * sc) <= 15 / 10 ^ 17 * sc).
  { replace (r * sc) with ((r * sc - z) + z) by ring. eapply Rle_trans; [apply Rabs_triang|].
    assert ((2 * 10 ^ 8 + 2) + 14 / 10 ^ 17 * sc <= 15 / 10 ^ 17 * sc); [|lra].
    assert ((2 * 10 ^ 8 + 2) <= 1 / 10 ^ 17 * sc); [|lra].
    apply Rle_trans with (1 / 10 ^ 17 * 10 ^ 36); [lra|]. apply Rmult_le_compat_l; [lra|].
    apply sc_huge. }
  rewrite Rabs_mult, (Rabs_pos_eq sc) in G by lra. apply Rmult_le_reg_r with sc; assumption.
Qed.
End N.
