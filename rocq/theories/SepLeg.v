(** Gauss-Legendre nodes in double arithmetic are strictly ordered. *)
From Coq Require Import Reals ZArith List Lia Lra Psatz Bool Sorting.Sorted.
From Flocq Require Import Core IEEE754.Binary.
From Verif Require Import Arith RInst F64 F64Spec F64Proof Machine Rules Par LegendreData Legendre RInstProof RoundSpec AccF64 AccCount GammaProof TrigSpec GWSpec SepSpec SepFloat SizeProof
  LegSym LegAsym LegTable LegShape LegBig LegBigFloat ChebFloat LegFloat LegBigRule.
Import ListNotations.
Local Open Scope R_scope.

(** the tables: neighbouring angles are at least 1/100 apart, weights are at least 10^-6 *)
Fixpoint spaced (hi : Z) (l : list (Z * Z)) : bool :=
  match l with
  | [] => true
  | d :: r => exp_ok d && (fix30 d + 10 ^ 28 <=? hi)%Z && (10 ^ 28 <=? fix30 d)%Z && spaced (fix30 d) r
  end.
Definition heavy (d : Z * Z) : bool := exp_ok d && (10 ^ 24 <=? fix30 d)%Z.
Definition spaced_ok (n : nat) : bool :=
  spaced (1566 * 10 ^ 27)%Z (theta_row n) && forallb heavy (weight_row n) && exp_ok (cl_entry n) && (Z.abs (fix30 (cl_entry n)) <=? 10 * 10 ^ 30)%Z.
Lemma all_spaced : forallb spaced_ok (seq 1 100) = true.
Proof. vm_compute. reflexivity. Qed.
Lemma p28 : IZR (10 ^ 28) / 10 ^ 30 = / 100. Proof. change (10 ^ 28)%Z with (10 ^ Z.of_nat 28)%Z. rewrite <- pow_IZR. replace (10 ^ 30) with (10 ^ 28 * 100) by ring. field. Qed.
Lemma p24 : IZR (10 ^ 24) / 10 ^ 30 = / 10 ^ 6. Proof. change (10 ^ 24)%Z with (10 ^ Z.of_nat 24)%Z. rewrite <- pow_IZR. replace (10 ^ 30) with (10 ^ 24 * 10 ^ 6) by ring. field. Qed.
Lemma scaled : forall d z, exp_ok d = true -> (z <= fix30 d)%Z -> IZR z / 10 ^ 30 <= val d.
Proof. intros d z H Z. unfold val. rewrite (fix30_val d H). pose proof ten30. apply Rmult_le_compat_r; [left; apply Rinv_0_lt_compat; assumption|apply IZR_le; exact Z]. Qed.
Lemma spaced_spec : forall l hi, spaced hi l = true ->
  (forall i, (i < length l)%nat -> / 100 <= val (nth i l d0) /\ val (nth i l d0) + / 100 <= IZR hi / 10 ^ 30) /\
  (forall i j, (i < j)%nat -> (j < length l)%nat -> val (nth j l d0) + / 100 <= val (nth i l d0)).
Proof.
  pose proof ten30 as T.
  induction l as [|d l IH]; intros hi H; [split; simpl; intros; lia|]. cbn [spaced] in H.
  apply andb_prop in H. destruct H as [H H4]. apply andb_prop in H. destruct H as [H H3]. apply andb_prop in H. destruct H as [H1 H2].
  apply Z.leb_le in H2, H3. destruct (IH _ H4) as [A B]. pose proof (fix30_val d H1) as V. fold (val d) in V.
  pose proof (scaled d _ H1 H3) as C1. rewrite p28 in C1.
  assert (C2 : val d + / 100 <= IZR hi / 10 ^ 30).
  { rewrite V, <- p28. unfold Rdiv. rewrite <- Rmult_plus_distr_r, <- plus_IZR. apply Rmult_le_compat_r; [left; apply Rinv_0_lt_compat; exact T|apply IZR_le; exact H2]. }
  assert (C3 : forall i, (i < length l)%nat -> val (nth i l d0) + / 100 <= val d) by (intros i Hi; rewrite V; apply (A i Hi)).
  split.
  - intros [|i] Hi; cbn [nth]; [split; assumption|]. simpl in Hi. destruct (A i ltac:(lia)) as [A1 A2]. split; [exact A1|].
    specialize (C3 i ltac:(lia)). lra.
  - intros i [|j] Hij Hj; [lia|]. simpl in Hj. destruct i as [|i]; cbn [nth]; [apply C3; lia|apply B; lia].
Qed.
Lemma row_facts : forall n, (2 <= n <= 100)%nat ->
  (forall i, (i < n / 2)%nat -> / 100 <= val (nth i (theta_row n) d0) <= 1556 / 1000) /\
  (forall i j, (i < j)%nat -> (j < n / 2)%nat -> val (nth j (theta_row n) d0) + / 100 <= val (nth i (theta_row n) d0)) /\
  (forall i, (i < n / 2)%nat -> / 10 ^ 6 <= val (nth i (weight_row n) d0)).
Proof.
  intros n Hn. assert (H : spaced_ok n = true) by (apply (proj1 (forallb_forall _ _) all_spaced); apply in_seq; lia).
  destruct (row_length n Hn) as [L1 L2]. unfold spaced_ok in H.
  apply andb_prop in H. destruct H as [H _]. apply andb_prop in H. destruct H as [H _]. apply andb_prop in H. destruct H as [H1 H2].
  destruct (spaced_spec _ _ H1) as [A B]. rewrite L1 in A, B. split; [|split; [exact B|]].
  - intros i Hi. destruct (A i Hi) as [A1 A2]. split; [exact A1|].
    replace (IZR (1566 * 10 ^ 27) / 10 ^ 30) with (1566 / 1000) in A2; [lra|].
    rewrite mult_IZR. change (10 ^ 27)%Z with (10 ^ Z.of_nat 27)%Z. rewrite <- pow_IZR. replace (10 ^ 30) with (10 ^ 27 * 1000) by ring. field.
  - intros i Hi. pose proof (proj1 (forallb_forall _ _) H2 (nth i (weight_row n) d0) ltac:(apply nth_In; lia)) as P. unfold heavy in P.
    apply andb_prop in P. destruct P as [P1 P2]. rewrite <- p24. apply scaled; [exact P1|apply Z.leb_le; exact P2].
Qed.
Lemma cl_bound : forall n, (1 <= n <= 100)%nat -> Rabs (val (cl_entry n)) <= 10.
Proof.
  intros n Hn. assert (H : spaced_ok n = true) by (apply (proj1 (forallb_forall _ _) all_spaced); apply in_seq; lia).
  unfold spaced_ok in H. apply andb_prop in H. destruct H as [H H1]. apply andb_prop in H. destruct H as [_ H2].
  unfold val. rewrite (fix30_val _ H2). pose proof ten30 as T. apply Z.leb_le in H1. unfold Rdiv. rewrite Rabs_mult, (Rabs_pos_eq (/ 10 ^ 30)) by (left; apply Rinv_0_lt_compat; exact T).
  rewrite <- abs_IZR. apply IZR_le in H1. rewrite mult_IZR in H1. change (10 ^ 30)%Z with (10 ^ Z.of_nat 30)%Z in H1. rewrite <- pow_IZR in H1.
  apply (Rmult_le_compat_r (/ 10 ^ 30)) in H1; [|left; apply Rinv_0_lt_compat; exact T]. rewrite Rmult_assoc, Rinv_r in H1 by lra. lra.
Qed.

Section Angles.
Variables (t : Target) (n : nat).
Hypothesis Hu : (100 <= usize_max t)%Z.
Hypothesis Hn : (1 <= n)%nat.
Hypothesis H2n : (2 * Z.of_nat n <= usize_max t)%Z.
Definition th (i : nat) : R := fst (@tw RA t (Z.of_nat n) i).
Definition wt (i : nat) : R := snd (@tw RA t (Z.of_nat n) i).

Lemma low_facts : (n <= 100)%nat -> forall i, (2 * i + 1 < n)%nat ->
  / 100 <= th i <= 1556 / 1000 /\ / 10 ^ 6 <= wt i /\ forall j, (j < i)%nat -> th j + / 100 <= th i.
Proof.
  intros Hs i Hi. destruct (row_facts n ltac:(lia)) as (A & B & C).
  assert (D : (2 * (n / 2) <= n < 2 * (n / 2) + 2)%nat).
  { pose proof (Nat.div_mod n 2 ltac:(lia)). pose proof (Nat.mod_upper_bound n 2 ltac:(lia)). lia. }
  unfold th, wt. rewrite tw_table by lia. cbn [fst snd]. fold (val (nth (n / 2 - 1 - i) (theta_row n) d0)). fold (val (nth (n / 2 - 1 - i) (weight_row n) d0)).
  split; [apply A; lia|]. split; [apply C; lia|]. intros j Hj. rewrite tw_table by lia. cbn [fst].
  fold (val (nth (n / 2 - 1 - j) (theta_row n) d0)). apply B; lia.
Qed.
Lemma mid_facts : (n <= 100)%nat -> forall i, (2 * i + 1 = n)%nat -> th i = PI / 2 /\ / 10 ^ 6 <= wt i.
Proof.
  intros Hs i Hi. assert (O : Nat.odd n = true) by (apply Nat.odd_spec; exists i; lia).
  assert (D : (n / 2 = i)%nat) by (symmetry; apply (Nat.div_unique n 2 i 1); lia).
  unfold th, wt. rewrite <- D, tw_middle by (try assumption; lia). cbn [fst snd]. split; [reflexivity|].
  destruct (cl_facts n ltac:(lia)) as [_ C]. pose proof (cl_bound n ltac:(lia)) as B. fold (val (cl_entry n)). set (c := val (cl_entry n)) in *. clearbody c.
  pose proof (Rsqr_pos_lt _ C) as P. unfold Rsqr in P. assert (Q : c * c <= 10 * 10). { rewrite <- (Rabs_pos_eq (c * c)) by lra. rewrite Rabs_mult. apply Rmult_le_compat; try apply Rabs_pos; exact B. }
  apply Rle_trans with (2 * / 100); [lra|]. apply Rmult_le_compat_l; [lra|]. apply Rinv_le_contravar; lra.
Qed.
Lemma flip : forall i, (i < n)%nat -> (n < 2 * i + 1)%nat -> th i = PI - th (n - 1 - i) /\ wt i = wt (n - 1 - i).
Proof.
  intros i H1 H2. destruct (mirror t n Hu Hn H2n (n - 1 - i) ltac:(lia)) as [M1 M2]. replace (n - 1 - (n - 1 - i))%nat with i in M1, M2 by lia. split; assumption.
Qed.
Lemma small_angles : (n <= 100)%nat -> (forall i, (i < n)%nat -> / 100 <= th i <= PI - / 100 /\ / 10 ^ 6 <= wt i) /\ (forall i j, (i < j)%nat -> (j < n)%nat -> th i + / 100 <= th j).
Proof.
  intros Hs. pose proof PI_lo30 as PL. split.
  - intros i Hi. destruct (lt_eq_lt_dec (2 * i + 1) n) as [[C|C]|C].
    + destruct (low_facts Hs i C) as (A & B & _). split; [lra|exact B].
    + destruct (mid_facts Hs i C) as (A & B). rewrite A. split; [lra|exact B].
    + destruct (flip i Hi C) as [M1 M2]. destruct (low_facts Hs (n - 1 - i) ltac:(lia)) as (A & B & _). rewrite M1, M2. split; [lra|exact B].
  - intros i j Hij Hj. destruct (lt_eq_lt_dec (2 * j + 1) n) as [[C|C]|C].
    + apply (low_facts Hs j C). exact Hij.
    + destruct (mid_facts Hs j C) as (E & _). rewrite E. destruct (low_facts Hs i ltac:(lia)) as (F & _). lra.
    + destruct (flip j Hj C) as [M1 _]. rewrite M1. destruct (low_facts Hs (n - 1 - j) ltac:(lia)) as (A1 & _ & A3).
      destruct (lt_eq_lt_dec (2 * i + 1) n) as [[D|D]|D].
      * destruct (low_facts Hs i D) as (F & _). lra.
      * destruct (mid_facts Hs i D) as (F & _). lra.
      * destruct (flip i ltac:(lia) D) as [M2 _]. rewrite M2.
        destruct (low_facts Hs (n - 1 - i) ltac:(lia)) as (_ & _ & B3). specialize (B3 (n - 1 - j)%nat ltac:(lia)). lra.
Qed.
Lemma big_angles : (100 < n)%nat -> (forall i, (i < n)%nat -> 22 / 10 / INR n <= th i <= PI - 22 / 10 / INR n) /\ (forall i j, (i < j)%nat -> (j < n)%nat -> th i + 3 / INR n <= th j).
Proof.
  intros Hb. pose proof PI_lo30 as PL. pose proof PI_hi30 as PU.
  assert (N : 101 <= INR n) by (rewrite INR_IZR_INZ; apply IZR_le; lia). set (N2 := INR n + / 2) in *.
  assert (V : 0 < / N2) by (apply Rinv_0_lt_compat; unfold N2; lra).
  assert (NN : / N2 * N2 = 1) by (apply Rinv_l; unfold N2; lra).
  assert (VN : / INR n <= 1005 / 1000 * / N2). { replace (1005 / 1000 * / N2) with (/ (1000 / 1005 * N2)) by (field; unfold N2; lra). apply Rinv_le_contravar; unfold N2; lra. }
  assert (C : forall i, (i < n)%nat -> (PI * (INR i + 3 / 4) - 52 / 1000) * / N2 <= th i <= (PI * (INR i + 3 / 4) + 52 / 1000) * / N2).
  { intros i Hi. destruct (tw_close t (Z.of_nat n) i Hu ltac:(lia) H2n ltac:(lia)) as [A B]. rewrite <- INR_IZR_INZ in A. fold N2 in A. fold (th i) in A.
    unfold Rdiv in A. pose proof (abs_lower _ _ A). pose proof (abs_upper _ _ A). lra. }
  split.
  - intros i Hi. destruct (C i Hi) as [A1 A2]. pose proof (pos_INR i).
    assert (I : INR i + 1 <= INR n). { rewrite <- S_INR. apply le_INR. lia. }
    assert (G : 22 / 10 / INR n <= 2211 / 1000 * / N2) by (unfold Rdiv in *; lra).
    split.
    + eapply Rle_trans; [|exact A1]. eapply Rle_trans; [exact G|]. apply Rmult_le_compat_r; [lra|]. nra.
    + cut ((PI * (INR i + 3 / 4) + 52 / 1000) * / N2 + 2211 / 1000 * / N2 <= PI); [lra|]. rewrite <- Rmult_plus_distr_r. apply Rle_trans with (PI * N2 * / N2).
      * apply Rmult_le_compat_r; [lra|]. unfold N2. nra.
      * rewrite Rmult_assoc, (Rmult_comm N2), NN. lra.
  - intros i j Hij Hj. destruct (C i ltac:(lia)) as [_ A]. destruct (C j Hj) as [B _].
    eapply Rle_trans; [|exact B]. assert (G : 3 / INR n <= 3015 / 1000 * / N2) by (unfold Rdiv in *; lra).
    apply Rle_trans with ((PI * (INR i + 3 / 4) + 52 / 1000) * / N2 + 3015 / 1000 * / N2); [lra|]. rewrite <- Rmult_plus_distr_r. apply Rmult_le_compat_r; [lra|].
    assert (INR i + 1 <= INR j) by (rewrite <- S_INR; apply le_INR; lia). nra.
Qed.
End Angles.

Section F.
Variable be : Backend.
Notation A := (F64 be).
Variable kappa : R.
Hypothesis HT : accurate_trig be kappa.

Lemma left_pos : forall t n k (p : A * A) (q : RA * RA), (100 <= usize_max t)%Z -> (100 < n <= 2 ^ 40)%Z -> (1 <= k)%Z -> (2 * k <= n + 1)%Z ->
  compute_pair t n k = Ok p -> compute_pair t n k = Ok q -> 0 < fval (snd p).
Proof.
  intros t n k p q Hu Hn Hk H2k Hp Hq. unfold compute_pair in Hp, Hq. step Hp. step Hp. step Hq. step Hq. apply ok_inj in Hp; subst p. apply ok_inj in Hq; subst q.
  pose proof (j0_zero_close _ _ _ Hu Hk E1) as C. pose proof (product_range _ _ _ _ Hu Hk E1 E2) as PR.
  destruct (expansion_apx be kappa HT n k _ _ _ _ Hn Hk H2k C PR (j0_apx be t k _ _ Hu ltac:(lia) E E1) (j1_apx be t k _ _ Hu ltac:(lia) E0 E2)) as [_ A2].
  destruct A2 as (_ & _ & X & Q1 & Q2). pose proof (ex_small _ Q2). apply rng_pos in Q1. pose proof (abs_lower _ _ X). nra.
Qed.
Lemma big_angle_close : forall t (n : nat) i, (100 <= usize_max t)%Z -> (100 < n)%nat -> (Z.of_nat n <= 2 ^ 40)%Z -> (2 * Z.of_nat n <= usize_max t)%Z -> (i < n)%nat ->
  angle_close be (23 / 10 ^ 16 + kappa / 100) ((2 / 10 ^ 14 + 5 * kappa) / INR n) (tw t (Z.of_nat n) i) (@tw RA t (Z.of_nat n) i) /\ 0 < fval (snd (@tw A t (Z.of_nat n) i)).
Proof.
  intros t n i Hu Hn Hn2 H2 Hi. pose proof eta_num as Et. destruct HT as [[k0 k1] _].
  pose proof (tw_ok (A := A) t (Z.of_nat n) i Hu ltac:(lia) H2 ltac:(lia)) as E1. pose proof (tw_ok (A := RA) t (Z.of_nat n) i Hu ltac:(lia) H2 ltac:(lia)) as E2.
  pose proof (big_weight_bound t n i Hu Hn H2 ltac:(lia)) as WB. revert E1 E2 WB. generalize (@tw RA t (Z.of_nat n) i) as q0. generalize (@tw A t (Z.of_nat n) i) as p0. intros p0 q0 E1 E2 WB. rewrite INR_IZR_INZ in *.
  unfold theta_weight_pair in E1, E2. destruct (Z.leb_spec (Z.of_nat n) 100); [lia|]. rewrite usize_mul_ok in E1, E2 by lia. cbn [bind] in E1, E2. rewrite usize_sub_ok in E1, E2 by lia. cbn [bind] in E1, E2.
  destruct (Z.ltb_spec (Z.of_nat n) (2 * (1 + Z.of_nat i) - 1)) as [H3|H3].
  - rewrite usize_sub_ok in E1, E2 by lia. cbn [bind] in E1, E2. rewrite usize_add_ok in E1, E2 by lia. cbn [bind] in E1, E2.
    step E1. step E2. apply ok_inj in E1. apply ok_inj in E2. subst p0 q0. cbn [fst snd] in WB |- *. split.
    + destruct (left_close be kappa HT t (Z.of_nat n) (Z.of_nat n - (1 + Z.of_nat i) + 1) _ _ Hu ltac:(lia) ltac:(lia) ltac:(lia) WB E E0) as [(F1 & B0 & B1 & D1) W1]. split; cbn [fst snd]; [|exact W1].
      destruct (mirror_any be _ _ _ F1 D1 ltac:(lra) B1) as (M1 & M2 & M3). split; [exact M1|]. split; [exact M2|]. change (@nsub RA (@npi RA)) with (Rminus PI). lra.
    + exact (left_pos t (Z.of_nat n) (Z.of_nat n - (1 + Z.of_nat i) + 1) _ _ Hu ltac:(lia) ltac:(lia) ltac:(lia) E E0).
  - split; [|exact (left_pos t (Z.of_nat n) (1 + Z.of_nat i) _ _ Hu ltac:(lia) ltac:(lia) ltac:(lia) E1 E2)].
    destruct (left_close be kappa HT t (Z.of_nat n) (1 + Z.of_nat i) _ _ Hu ltac:(lia) ltac:(lia) ltac:(lia) WB E1 E2) as [(F1 & B0 & B1 & D1) W1]. split; [|exact W1].
    split; [exact F1|]. pose proof (abs_lower _ _ D1) as L1. pose proof (abs_upper _ _ D1) as L2. split; [|eapply Rle_trans; [exact D1|lra]]. split; [exact B0|]. lra.
Qed.
Lemma small_angle_close : forall t (n : nat) i, (100 <= usize_max t)%Z -> (1 <= n <= 100)%nat -> (2 * Z.of_nat n <= usize_max t)%Z -> (i < n)%nat ->
  angle_close be (7 / 10 ^ 16) (2 / 10 ^ 15 / INR n) (tw t (Z.of_nat n) i) (@tw RA t (Z.of_nat n) i).
Proof.
  intros t n i Hu Hn H2 Hi.
  pose proof (tw_ok (A := A) t (Z.of_nat n) i Hu ltac:(lia) H2 ltac:(lia)) as E1. pose proof (tw_ok (A := RA) t (Z.of_nat n) i Hu ltac:(lia) H2 ltac:(lia)) as E2.
  unfold theta_weight_pair in E1, E2. destruct (Z.leb_spec (Z.of_nat n) 100); [|lia]. rewrite usize_sub_ok in E1, E2 by lia. cbn [bind] in E1, E2.
  rewrite INR_IZR_INZ. exact (tabulated_close be t (Z.of_nat n) (1 + Z.of_nat i - 1) _ _ Hu ltac:(lia) ltac:(lia) E1 E2).
Qed.

Section One.
Variables (t : Target) (n : nat) (r : GaussLegendre A).
Hypothesis Hu : (100 <= usize_max t)%Z.
Hypothesis H2n : (2 * Z.of_nat n <= usize_max t)%Z.
Hypothesis Hr : legendre_new t (Z.of_nat n) = Ok r.

Lemma small_weak : (1 <= n <= 100)%nat -> falling_cos be -> @ascending A (legendre_pairs r).
Proof.
  intros Hn FC. rewrite (legendre_list t (Z.of_nat n) r) by (assumption || lia). rewrite Nat2Z.id.
  destruct (small_angles t n Hu ltac:(lia) H2n ltac:(lia)) as [A1 A2].
  refine (weak_order be n (fun i => fst (@tw A t (Z.of_nat n) i)) (fun i => snd (@tw A t (Z.of_nat n) i)) (th t n) (/ 100) (/ 100) (7 / 10 ^ 16) _ (fun i Hi => proj1 (A1 i Hi)) A2 FC _ _); [|lra|lra].
  intros i Hi. exact (proj1 (small_angle_close t n i Hu Hn H2n Hi)).
Qed.
Lemma small_strict : (1 <= n <= 100)%nat -> separated (legendre_pairs r) /\ @ascending A (legendre_pairs r).
Proof.
  intros Hn. rewrite (legendre_list t (Z.of_nat n) r) by (assumption || lia). rewrite Nat2Z.id. pose proof (proj1 HT) as K. pose proof eta_num as Et.
  destruct (small_angles t n Hu ltac:(lia) H2n ltac:(lia)) as [A1 A2].
  refine (strict_order be n (fun i => fst (@tw A t (Z.of_nat n) i)) (fun i => snd (@tw A t (Z.of_nat n) i)) (th t n) (/ 100) (/ 100) (7 / 10 ^ 16) _ _ _ (fun i Hi => proj1 (A1 i Hi)) A2 kappa HT _ _ _); try lra.
  - intros i Hi. exact (proj1 (small_angle_close t n i Hu Hn H2n Hi)).
  - intros i Hi. destruct (proj2 (small_angle_close t n i Hu Hn H2n Hi)) as [F W]. split; [exact F|]. pose proof (proj2 (A1 i Hi)) as W0. unfold wt in W0.
    assert (N : 1 <= INR n) by (replace 1 with (INR 1) by reflexivity; apply le_INR; lia). assert (V : / INR n <= 1) by (rewrite <- Rinv_1; apply Rinv_le_contravar; lra).
    pose proof (abs_lower _ _ W) as L. cbv beta. unfold Rdiv in L at 1. set (w := fval (snd (@tw A t (Z.of_nat n) i))) in *. set (e := snd (@tw RA t (Z.of_nat n) i)) in *.
    assert (L2 : - (2 / 10 ^ 15) <= w - e) by (eapply Rle_trans; [|exact L]; apply Ropp_le_contravar; apply Rle_trans with (2 / 10 ^ 15 * 1); [apply Rmult_le_compat_l; lra|lra]).
    clear L W. assert (W1 : / 10 ^ 6 <= e) by exact W0. assert (L3 : - (2 / 10 ^ 15) + e <= w) by (apply (Rplus_le_compat_r e) in L2; replace (w - e + e) with w in L2 by (unfold Rminus; rewrite Rplus_assoc, Rplus_opp_l, Rplus_0_r; reflexivity); exact L2). clear L2 W0. clearbody w. change (num RA) with R in e. clearbody e. lra.
Qed.
Hypothesis Hb : (100 < n)%nat.
Hypothesis Hm : (Z.of_nat n <= 2 ^ 40)%Z.
Lemma big_range : 101 <= INR n <= 1099511627776.
Proof. rewrite INR_IZR_INZ. split; [apply IZR_le; lia|]. replace 1099511627776 with (IZR (2 ^ 40)) by reflexivity. apply IZR_le. exact Hm. Qed.
Lemma big_weak : INR n * kappa <= 1 -> falling_cos be -> @ascending A (legendre_pairs r).
Proof.
  intros HB FC. rewrite (legendre_list t (Z.of_nat n) r) by (assumption || lia). rewrite Nat2Z.id.
  destruct (big_angles t n Hu ltac:(lia) H2n ltac:(lia)) as [A1 A2]. pose proof big_range as N. pose proof (proj1 HT) as K. assert (V : / 1099511627776 <= / INR n) by (apply Rinv_le_contravar; lra).
  assert (K2 : kappa <= / INR n). { apply (Rmult_le_compat_l (/ INR n)) in HB; [|lra]. rewrite <- Rmult_assoc, Rinv_l in HB by lra. lra. }
  refine (weak_order be n (fun i => fst (@tw A t (Z.of_nat n) i)) (fun i => snd (@tw A t (Z.of_nat n) i)) (th t n) (22 / 10 / INR n) (3 / INR n) (23 / 10 ^ 16 + kappa / 100) _ A1 A2 FC _ _); [|unfold Rdiv in *; lra|unfold Rdiv in *; lra].
  intros i Hi. exact (proj1 (proj1 (big_angle_close t n i Hu Hb Hm H2n Hi))).
Qed.
Lemma big_strict : INR n * INR n * (10 * kappa + 2 / 10 ^ 14) <= 1 -> separated (legendre_pairs r) /\ @ascending A (legendre_pairs r).
Proof.
  intros HB. rewrite (legendre_list t (Z.of_nat n) r) by (assumption || lia). rewrite Nat2Z.id.
  destruct (big_angles t n Hu ltac:(lia) H2n ltac:(lia)) as [A1 A2]. pose proof big_range as N. pose proof (proj1 HT) as K. pose proof eta_num as Et.
  assert (V : 0 < / INR n) by (apply Rinv_0_lt_compat; lra).
  assert (K2 : kappa <= / INR n * / INR n / 10 - 2 / 10 ^ 15).
  { assert (P : 0 < / INR n * / INR n) by (apply Rmult_lt_0_compat; exact V). apply (Rmult_le_compat_r (/ INR n * / INR n)) in HB; [|lra].
    replace (INR n * INR n * (10 * kappa + 2 / 10 ^ 14) * (/ INR n * / INR n)) with (10 * kappa + 2 / 10 ^ 14) in HB by (field; lra). lra. }
  refine (strict_order be n (fun i => fst (@tw A t (Z.of_nat n) i)) (fun i => snd (@tw A t (Z.of_nat n) i)) (th t n) (22 / 10 / INR n) (3 / INR n) (23 / 10 ^ 16 + kappa / 100) _ _ _ A1 A2 kappa HT _ _ _); try (unfold Rdiv in *; lra).
  - intros i Hi. exact (proj1 (proj1 (big_angle_close t n i Hu Hb Hm H2n Hi))).
  - intros i Hi. destruct (big_angle_close t n i Hu Hb Hm H2n Hi) as [[_ [F _]] P]. split; [exact F|exact P].
Qed.
End One.
End F.
