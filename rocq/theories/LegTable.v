(** The tabulated Gauss-Legendre rules (at most 100 points) in exact arithmetic. *)
From Coq Require Import Reals ZArith List Lia Lra Bool.
From Verif Require Import Arith RInst Machine Rules Par LegendreData Legendre SizeProof RInstProof LegSym LegAsym.
Import ListNotations.
Local Open Scope R_scope.

(** the row of angles and of weights used for n points *)
Definition theta_row (n : nat) : list (Z * Z) := nth (n / 2 - 1) (if Nat.odd n then ODD_THETA_ZEROS else EVEN_THETA_ZEROS) [].
Definition weight_row (n : nat) : list (Z * Z) := nth (n / 2 - 1) (if Nat.odd n then ODD_WEIGHTS else EVEN_WEIGHTS) [].
Definition d0 : Z * Z := (0, 0)%Z.

Lemma tab2_R : forall (l : list (list (Z * Z))) i j x, @tab2 RA l i j = Ok x ->
  x = R_lit (fst (nth (Z.to_nat j) (nth (Z.to_nat i) l []) d0)) (snd (nth (Z.to_nat j) (nth (Z.to_nat i) l []) d0)).
Proof.
  intros l i j x. unfold tab2, index. destruct (nth_error l (Z.to_nat i)) as [row|] eqn:E; [|discriminate]. cbn [bind]. intros H.
  apply tab_R in H. destruct H as (d & H & ->). rewrite (nth_error_nth l _ [] E). rewrite (nth_error_nth row _ d0 H). reflexivity.
Qed.
Lemma rows_length : forallb (fun n => Nat.eqb (length (theta_row n)) (n / 2) && Nat.eqb (length (weight_row n)) (n / 2)) (seq 2 99) = true.
Proof. vm_compute. reflexivity. Qed.
Lemma row_length : forall n, (2 <= n <= 100)%nat -> length (theta_row n) = (n / 2)%nat /\ length (weight_row n) = (n / 2)%nat.
Proof.
  intros n Hn. pose proof (proj1 (forallb_forall _ _) rows_length n ltac:(apply in_seq; lia)) as H.
  apply andb_prop in H. destruct H as [H1 H2]. apply Nat.eqb_eq in H1, H2. split; assumption.
Qed.

Lemma tw_table : forall t n i, (100 <= usize_max t)%Z -> (1 <= n <= 100)%nat -> (2 * i + 1 < n)%nat ->
  @tw RA t (Z.of_nat n) i = (R_lit (fst (nth (n / 2 - 1 - i) (theta_row n) d0)) (snd (nth (n / 2 - 1 - i) (theta_row n) d0)),
                             R_lit (fst (nth (n / 2 - 1 - i) (weight_row n) d0)) (snd (nth (n / 2 - 1 - i) (weight_row n) d0))).
Proof.
  intros t n i Hu Hn Hi. unfold tw, theta_weight_pair. destruct (Z.leb_spec (Z.of_nat n) 100); [|lia].
  rewrite usize_sub_ok by lia. cbn [bind]. replace (1 + Z.of_nat i - 1)%Z with (Z.of_nat i) by lia.
  assert (Hm : Z.of_nat n = (2 * (Z.of_nat n / 2) + Z.of_nat n mod 2)%Z) by (apply Z.div_mod; lia).
  assert (Hb : (0 <= Z.of_nat n mod 2 < 2)%Z) by (apply Z.mod_pos_bound; lia).
  assert (HD : (n / 2)%nat = Z.to_nat (Z.of_nat n / 2)) by (rewrite <- (Nat2Z.id (n / 2)), Nat2Z.inj_div; reflexivity).
  assert (HO : Nat.odd n = (Z.of_nat n mod 2 =? 1)%Z).
  { destruct (Nat.odd n) eqn:HO; symmetry.
    - apply Nat.odd_spec in HO. destruct HO as [m ->]. apply Z.eqb_eq. symmetry. apply (Z.mod_unique _ 2 (Z.of_nat m)); lia.
    - apply Z.eqb_neq. rewrite <- Nat.negb_even in HO. apply negb_false_iff, Nat.even_spec in HO. destruct HO as [m ->].
      replace (Z.of_nat (2 * m) mod 2)%Z with 0%Z; [lia|]. apply (Z.mod_unique _ 2 (Z.of_nat m)); lia. }
  unfold tabulated_pair, theta_row, weight_row. rewrite HO, HD.
  destruct even_theta_tri as [ET1 ET2], even_weight_tri as [EW1 EW2], odd_theta_tri as [OT1 OT2], odd_weight_tri as [OW1 OW2].
  destruct (Z.eqb_spec (Z.of_nat n mod 2) 1) as [O|O].
  - rewrite usize_sub_ok by lia. cbn [bind].
    assert (H2 : ((Z.of_nat n - 1) / 2 = Z.of_nat n / 2)%Z) by (symmetry; apply (Z.div_unique (Z.of_nat n - 1) 2 (Z.of_nat n / 2) 0); lia).
    rewrite H2. destruct (Z.compare_spec (Z.of_nat i) (Z.of_nat n / 2)) as [C|C|C]; [lia| |lia].
    rewrite !usize_sub_ok by lia. cbn [bind]. rewrite !usize_sub_ok by lia. cbn [bind].
    set (q := (Z.of_nat n / 2)%Z) in *.
    destruct (tab2_ok (A := RA) ODD_THETA_ZEROS (q - 1) (q - Z.of_nat i - 1) OT2) as [x Ex]; [rewrite OT1; lia|lia|].
    destruct (tab2_ok (A := RA) ODD_WEIGHTS (q - 1) (q - Z.of_nat i - 1) OW2) as [y Ey]; [rewrite OW1; lia|lia|].
    rewrite Ex, Ey. cbn [bind]. rewrite (tab2_R _ _ _ _ Ex), (tab2_R _ _ _ _ Ey).
    replace (Z.to_nat (q - 1)) with (Z.to_nat q - 1)%nat by lia. replace (Z.to_nat (q - Z.of_nat i - 1)) with (Z.to_nat q - 1 - i)%nat by lia. reflexivity.
  - destruct (Z.compare_spec (Z.of_nat i) (Z.of_nat n / 2)) as [C|C|C]; [lia| |lia].
    rewrite !usize_sub_ok by lia. cbn [bind]. rewrite !usize_sub_ok by lia. cbn [bind].
    set (q := (Z.of_nat n / 2)%Z) in *.
    destruct (tab2_ok (A := RA) EVEN_THETA_ZEROS (q - 1) (q - Z.of_nat i - 1) ET2) as [x Ex]; [rewrite ET1; lia|lia|].
    destruct (tab2_ok (A := RA) EVEN_WEIGHTS (q - 1) (q - Z.of_nat i - 1) EW2) as [y Ey]; [rewrite EW1; lia|lia|].
    rewrite Ex, Ey. cbn [bind]. rewrite (tab2_R _ _ _ _ Ex), (tab2_R _ _ _ _ Ey).
    replace (Z.to_nat (q - 1)) with (Z.to_nat q - 1)%nat by lia. replace (Z.to_nat (q - Z.of_nat i - 1)) with (Z.to_nat q - 1 - i)%nat by lia. reflexivity.
Qed.
(** the middle of an odd rule *)
Definition cl_entry (n : nat) : Z * Z := nth n CL d0.
Lemma tw_middle : forall t n, (100 <= usize_max t)%Z -> (1 <= n <= 100)%nat -> Nat.odd n = true ->
  @tw RA t (Z.of_nat n) (n / 2) = (PI / 2, 2 / (R_lit (fst (cl_entry n)) (snd (cl_entry n)) * R_lit (fst (cl_entry n)) (snd (cl_entry n)))).
Proof.
  intros t n Hu Hn HO.
  apply Nat.odd_spec in HO. destruct HO as [m ->].
  assert (D : ((2 * m + 1) / 2 = m)%nat) by (symmetry; apply (Nat.div_unique (2 * m + 1) 2 m 1); lia). rewrite D.
  unfold tw, theta_weight_pair. destruct (Z.leb_spec (Z.of_nat (2 * m + 1)) 100); [|lia].
  rewrite usize_sub_ok by lia. cbn [bind]. replace (1 + Z.of_nat m - 1)%Z with (Z.of_nat m) by lia.
  unfold tabulated_pair.
  assert (M : (Z.of_nat (2 * m + 1) mod 2 = 1)%Z) by (symmetry; apply (Z.mod_unique _ 2 (Z.of_nat m)); lia). rewrite M.
  change (1 =? 1)%Z with true. cbn match. rewrite usize_sub_ok by lia. cbn [bind].
  replace ((Z.of_nat (2 * m + 1) - 1) / 2)%Z with (Z.of_nat m) by (apply (Z.div_unique _ 2 _ 0); lia). rewrite Z.compare_refl.
  destruct (tab_ok (A := RA) CL (Z.of_nat (2 * m + 1))) as [c E]; [rewrite cl_length; lia|]. rewrite E. cbn [bind].
  apply tab_R in E. destruct E as (d & E & ->). rewrite Nat2Z.id in E. unfold cl_entry. rewrite (nth_error_nth CL _ d0 E).
  change (@lit2 RA) with (R_lit 2 0). cbn [ndiv nmul npi RA]. rewrite rl2. reflexivity.
Qed.

(** numbers with at most 30 decimals as integers *)
Definition fix30 (d : Z * Z) : Z := (fst d * 10 ^ (30 + snd d))%Z.
Definition exp_ok (d : Z * Z) : bool := ((-30 <=? snd d) && (snd d <=? 0))%Z.
Lemma fix30_val : forall d, exp_ok d = true -> R_lit (fst d) (snd d) = IZR (fix30 d) / 10 ^ 30.
Proof.
  intros [m e] H. unfold exp_ok in H. cbn [fst snd] in *. apply andb_prop in H. destruct H as [H1 H2].
  apply Z.leb_le in H1, H2. unfold R_lit, fix30. cbn [fst snd]. rewrite mult_IZR. rewrite (pow_IZR 10 30).
  replace (Z.of_nat 30) with 30%Z by reflexivity.
  replace (10 ^ 30)%Z with (10 ^ (30 + e) * 10 ^ (- e))%Z by (rewrite <- Z.pow_add_r by lia; f_equal; lia). rewrite (mult_IZR (10 ^ (30 + e))), ?(mult_IZR m).
  assert (P1 : IZR (10 ^ (30 + e)) <> 0) by (apply IZR_neq; apply Z.pow_nonzero; lia).
  assert (P2 : IZR (10 ^ (- e)) <> 0) by (apply IZR_neq; apply Z.pow_nonzero; lia).
  destruct (Z.ltb_spec e 0) as [H|H].
  - revert P1 P2. generalize (IZR (10 ^ (30 + e))), (IZR (10 ^ (- e))). intros u v P1 P2. field. split; assumption.
  - assert (e = 0)%Z by lia. subst e. replace (m * 10 ^ 0)%Z with m by (change (10 ^ 0)%Z with 1%Z; lia).
    change (- 0)%Z with 0%Z. change (10 ^ 0)%Z with 1%Z. revert P1. generalize (IZR (10 ^ (30 + 0))). intros u P1. field. assumption.
Qed.

Fixpoint decreasing (hi : Z) (l : list (Z * Z)) : bool :=
  match l with
  | [] => true
  | d :: r => exp_ok d && (0 <? fix30 d)%Z && (fix30 d <? hi)%Z && decreasing (fix30 d) r
  end.
Definition positive (d : Z * Z) : bool := exp_ok d && (0 <? fix30 d)%Z.
Definition table_ok (n : nat) : bool :=
  decreasing (157 * 10 ^ 28)%Z (theta_row n) && forallb positive (weight_row n) && exp_ok (cl_entry n) && negb (fix30 (cl_entry n) =? 0)%Z.
Lemma tables_ok : forallb table_ok (seq 1 100) = true.
Proof. vm_compute. reflexivity. Qed.
Lemma table_n : forall n, (1 <= n <= 100)%nat -> table_ok n = true.
Proof. intros n Hn. apply (proj1 (forallb_forall _ _) tables_ok). apply in_seq. lia. Qed.

Definition val (d : Z * Z) : R := R_lit (fst d) (snd d).
Lemma ten30 : 0 < 10 ^ 30. Proof. apply pow_lt. lra. Qed.
Lemma decreasing_spec : forall l hi, decreasing hi l = true ->
  (forall i, (i < length l)%nat -> exp_ok (nth i l d0) = true /\ 0 < val (nth i l d0) < IZR hi / 10 ^ 30) /\
  (forall i j, (i < j)%nat -> (j < length l)%nat -> val (nth j l d0) < val (nth i l d0)).
Proof.
  pose proof ten30 as T.
  induction l as [|d l IH]; intros hi H; [split; simpl; intros; lia|]. cbn [decreasing] in H.
  apply andb_prop in H. destruct H as [H H4]. apply andb_prop in H. destruct H as [H H3]. apply andb_prop in H. destruct H as [H1 H2].
  apply Z.ltb_lt in H2, H3. destruct (IH _ H4) as [A B]. pose proof (fix30_val d H1) as V. fold (val d) in V.
  assert (C1 : 0 < val d) by (rewrite V; apply Rdiv_lt_0_compat; [apply (IZR_lt 0); exact H2|exact T]).
  assert (C2 : val d < IZR hi / 10 ^ 30) by (rewrite V; apply Rmult_lt_compat_r; [apply Rinv_0_lt_compat; exact T|apply IZR_lt; exact H3]).
  assert (C3 : forall i, (i < length l)%nat -> val (nth i l d0) < val d) by (intros i Hi; rewrite V; apply (A i Hi)).
  split.
  - intros [|i] Hi; cbn [nth]; [split; [exact H1|split; assumption]|]. simpl in Hi. destruct (A i ltac:(lia)) as [A1 A2]. split; [exact A1|].
    specialize (C3 i ltac:(lia)). lra.
  - intros i [|j] Hij Hj; [lia|]. simpl in Hj. destruct i as [|i]; cbn [nth]; [apply C3; lia|apply B; lia].
Qed.
Lemma theta_facts : forall n, (2 <= n <= 100)%nat ->
  (forall i, (i < n / 2)%nat -> exp_ok (nth i (theta_row n) d0) = true /\ 0 < val (nth i (theta_row n) d0) < 157 / 100) /\
  (forall i j, (i < j)%nat -> (j < n / 2)%nat -> val (nth j (theta_row n) d0) < val (nth i (theta_row n) d0)) /\
  (forall i, (i < n / 2)%nat -> exp_ok (nth i (weight_row n) d0) = true /\ 0 < val (nth i (weight_row n) d0)).
Proof.
  intros n Hn. pose proof (table_n n ltac:(lia)) as H. destruct (row_length n Hn) as [L1 L2]. unfold table_ok in H.
  apply andb_prop in H. destruct H as [H _]. apply andb_prop in H. destruct H as [H _]. apply andb_prop in H. destruct H as [H1 H2].
  destruct (decreasing_spec _ _ H1) as [A B]. rewrite L1 in A, B. split; [|split; [exact B|]].
  - intros i Hi. destruct (A i Hi) as [A1 A2]. split; [exact A1|].
    replace (IZR (157 * 10 ^ 28) / 10 ^ 30) with (157 / 100) in A2; [exact A2|].
    rewrite mult_IZR. change (10 ^ 28)%Z with (10 ^ Z.of_nat 28)%Z. rewrite <- pow_IZR. replace (10 ^ 30) with (10 ^ 28 * 100) by ring. field.
  - intros i Hi. pose proof (proj1 (forallb_forall _ _) H2 (nth i (weight_row n) d0) ltac:(apply nth_In; lia)) as P. unfold positive in P.
    apply andb_prop in P. destruct P as [P1 P2]. split; [exact P1|]. unfold val. rewrite (fix30_val _ P1).
    apply Rdiv_lt_0_compat; [apply (IZR_lt 0); apply Z.ltb_lt; exact P2|apply ten30].
Qed.
Lemma cl_facts : forall n, (1 <= n <= 100)%nat -> exp_ok (cl_entry n) = true /\ val (cl_entry n) <> 0.
Proof.
  intros n Hn. pose proof (table_n n ltac:(lia)) as H. unfold table_ok in H. apply andb_prop in H. destruct H as [H H1]. apply andb_prop in H. destruct H as [_ H2].
  split; [exact H2|]. unfold val. rewrite (fix30_val _ H2). apply negb_true_iff, Z.eqb_neq in H1. pose proof ten30.
  unfold Rdiv. apply Rmult_integral_contrapositive. split; [apply (IZR_neq _ 0); exact H1|apply Rinv_neq_0_compat; lra].
Qed.
