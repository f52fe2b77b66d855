(** Order, position and weights of the Gauss-Legendre pairs in exact arithmetic. *)
From Coq Require Import Reals ZArith List Lia Lra Bool.
From Verif Require Import Arith RInst Machine Rules Par LegendreData Legendre SizeProof RInstProof RuleSpec MassSpec LegSym LegAsym LegTable ChebRule.
Import ListNotations.
Local Open Scope R_scope.

Section Shape.
Variables (t : Target) (n : nat).
Hypothesis Hu : (100 <= usize_max t)%Z.
Hypothesis Hn : (1 <= n)%nat.
Hypothesis H2n : (2 * Z.of_nat n <= usize_max t)%Z.
Let th (i : nat) : R := fst (@tw RA t (Z.of_nat n) i).
Let wt (i : nat) : R := snd (@tw RA t (Z.of_nat n) i).

Lemma mirror : forall i, (2 * i + 1 < n)%nat -> th (n - 1 - i) = PI - th i /\ wt (n - 1 - i) = wt i.
Proof.
  intros i Hi. pose proof (tw_sym (A := RA) t (Z.of_nat n) i Hu ltac:(lia) H2n ltac:(lia)) as T. rewrite Nat2Z.id in T.
  unfold th, wt. rewrite T. split; reflexivity.
Qed.
Lemma small_low : (n <= 100)%nat -> forall i, (2 * i + 1 < n)%nat ->
  0 < th i < 157 / 100 /\ 0 < wt i /\ forall j, (j < i)%nat -> th j < th i.
Proof.
  intros Hs i Hi. destruct (theta_facts n ltac:(lia)) as (A & B & C).
  assert (D : (2 * (n / 2) <= n < 2 * (n / 2) + 2)%nat).
  { pose proof (Nat.div_mod n 2 ltac:(lia)). pose proof (Nat.mod_upper_bound n 2 ltac:(lia)). lia. }
  unfold th, wt. rewrite tw_table by lia. cbn [fst snd]. fold (val (nth (n / 2 - 1 - i) (theta_row n) d0)). fold (val (nth (n / 2 - 1 - i) (weight_row n) d0)).
  split; [apply A; lia|]. split; [apply C; lia|]. intros j Hj. rewrite tw_table by lia. cbn [fst].
  fold (val (nth (n / 2 - 1 - j) (theta_row n) d0)). apply B; lia.
Qed.
Lemma small_mid : (n <= 100)%nat -> forall i, (2 * i + 1 = n)%nat -> th i = PI / 2 /\ 0 < wt i.
Proof.
  intros Hs i Hi. assert (O : Nat.odd n = true) by (apply Nat.odd_spec; exists i; lia).
  assert (D : (n / 2 = i)%nat) by (symmetry; apply (Nat.div_unique n 2 i 1); lia).
  unfold th, wt. rewrite <- D, tw_middle by (try assumption; lia). cbn [fst snd]. split; [reflexivity|].
  destruct (cl_facts n ltac:(lia)) as [_ C]. unfold val in C. apply Rdiv_lt_0_compat; [lra|]. 
  pose proof (Rsqr_pos_lt _ C) as P. exact P.
Qed.
Lemma angles : (forall i, (i < n)%nat -> 0 < th i < PI /\ 0 < wt i) /\ (forall i j, (i < j)%nat -> (j < n)%nat -> th i < th j).
Proof.
  pose proof PI_lo as PL.
  destruct (le_lt_dec n 100) as [Hs|Hs].
  - assert (A : forall i, (i < n)%nat -> 0 < th i < PI /\ 0 < wt i).
    { intros i Hi. destruct (lt_eq_lt_dec (2 * i + 1) n) as [[C|C]|C].
      - destruct (small_low Hs i C) as (A & B & _). split; [lra|exact B].
      - destruct (small_mid Hs i C) as (A & B). rewrite A. split; [lra|exact B].
      - destruct (mirror (n - 1 - i) ltac:(lia)) as [M1 M2]. replace (n - 1 - (n - 1 - i))%nat with i in M1, M2 by lia.
        destruct (small_low Hs (n - 1 - i) ltac:(lia)) as (A & B & _). rewrite M1, M2. split; [lra|exact B]. }
    split; [exact A|]. intros i j Hij Hj.
    destruct (lt_eq_lt_dec (2 * j + 1) n) as [[C|C]|C].
    + apply (small_low Hs j C). exact Hij.
    + destruct (small_mid Hs j C) as (E & _). rewrite E. destruct (small_low Hs i ltac:(lia)) as (F & _). lra.
    + destruct (mirror (n - 1 - j) ltac:(lia)) as [M1 _]. replace (n - 1 - (n - 1 - j))%nat with j in M1 by lia. rewrite M1.
      destruct (small_low Hs (n - 1 - j) ltac:(lia)) as (A1 & _ & A3).
      destruct (lt_eq_lt_dec (2 * i + 1) n) as [[D|D]|D].
      * destruct (small_low Hs i D) as (F & _). lra.
      * destruct (small_mid Hs i D) as (F & _). lra.
      * destruct (mirror (n - 1 - i) ltac:(lia)) as [M2 _]. replace (n - 1 - (n - 1 - i))%nat with i in M2 by lia. rewrite M2.
        destruct (small_low Hs (n - 1 - i) ltac:(lia)) as (_ & _ & B3). specialize (B3 (n - 1 - j)%nat ltac:(lia)). lra.
  - assert (N : 101 <= IZR (Z.of_nat n)) by (apply IZR_le; lia). set (N2 := IZR (Z.of_nat n) + / 2) in *.
    assert (V : 0 < / N2) by (apply Rinv_0_lt_compat; unfold N2; lra).
    assert (NN : / N2 * N2 = 1) by (apply Rinv_l; unfold N2; lra).
    assert (C : forall i, (i < n)%nat -> (PI * (INR i + 3 / 4) - 52 / 1000) * / N2 <= th i <= (PI * (INR i + 3 / 4) + 52 / 1000) * / N2 /\ 0 < wt i).
    { intros i Hi. destruct (tw_close t (Z.of_nat n) i Hu ltac:(lia) H2n ltac:(lia)) as [A B]. fold N2 in A. fold (th i) in A. fold (wt i) in B.
      split; [|exact B]. unfold Rdiv in A. pose proof (abs_lower _ _ A). pose proof (abs_upper _ _ A). lra. }
    split.
    + intros i Hi. destruct (C i Hi) as [[A1 A2] B]. split; [|exact B]. pose proof (pos_INR i).
      assert (I : INR i + 1 <= IZR (Z.of_nat n)). { rewrite <- INR_IZR_INZ, <- S_INR. apply le_INR. lia. }
      split.
      * eapply Rlt_le_trans; [|exact A1]. apply Rmult_lt_0_compat; [|exact V]. nra.
      * eapply Rle_lt_trans; [exact A2|]. replace PI with (PI * N2 * / N2) at 2 by (rewrite Rmult_assoc, (Rmult_comm N2), NN; ring).
        apply Rmult_lt_compat_r; [exact V|]. unfold N2. nra.
    + intros i j Hij Hj. destruct (C i ltac:(lia)) as [[_ A] _]. destruct (C j Hj) as [[B _] _].
      eapply Rle_lt_trans; [exact A|]. eapply Rlt_le_trans; [|exact B]. apply Rmult_lt_compat_r; [exact V|].
      assert (INR i + 1 <= INR j) by (rewrite <- S_INR; apply le_INR; lia). nra.
Qed.
End Shape.

Theorem legendre_shape : forall t n (r : GaussLegendre RA), (100 <= usize_max t)%Z -> (1 <= n)%Z -> (2 * n <= usize_max t)%Z ->
  legendre_new t n = Ok r ->
  strictly_ascending (legendre_pairs r) /\ Forall (fun xw : R * R => -1 < fst xw < 1 /\ 0 < snd xw) (legendre_pairs r).
Proof.
  intros t n r Hu Hn H2n E. rewrite (legendre_list t n r Hu Hn H2n E).
  destruct (angles t (Z.to_nat n) Hu ltac:(lia) ltac:(lia)) as [A B]. rewrite Z2Nat.id in A, B by lia. split.
  - apply sorted_cos. intros i j Hij Hj. cbn [at_cos fst]. pose proof (A i ltac:(lia)) as [P _]. pose proof (A j Hj) as [Q _]. pose proof (B i j Hij Hj).
    change (@ncos RA) with cos. apply cos_decreasing_1; lra.
  - apply List.Forall_forall. intros q Hq. apply in_rev in Hq. apply in_map_iff in Hq. destruct Hq as (i & <- & Hi). apply in_seq in Hi.
    cbn [at_cos fst snd]. destruct (A i ltac:(lia)) as [P Q]. split; [|exact Q]. change (@ncos RA) with cos. pose proof PI_RGT_0.
    split; [rewrite <- cos_PI; apply cos_decreasing_1; lra|rewrite <- cos_0; apply cos_decreasing_1; lra].
Qed.
Theorem legendre_symmetric : forall t n (r : GaussLegendre RA), (100 <= usize_max t)%Z -> (1 <= n)%Z -> (2 * n <= usize_max t)%Z ->
  legendre_new t n = Ok r -> (n <= 100)%Z \/ (n mod 2 = 0)%Z -> symmetric_rule (legendre_pairs r).
Proof.
  intros t n r Hu Hn H2n E HC. rewrite (legendre_list t n r Hu Hn H2n E). unfold symmetric_rule.
  rewrite rev_involutive, rev_map_seq, map_map. set (m := Z.to_nat n). apply map_ext_in. intros i Hi. apply in_seq in Hi. cbn [at_cos fst snd].
  change (@ncos RA) with cos.
  assert (M : forall j, (2 * j + 1 < m)%nat -> @tw RA t n (m - 1 - j) = (PI - fst (@tw RA t n j), snd (@tw RA t n j))).
  { intros j Hj. unfold m. rewrite (tw_sym (A := RA) t n j Hu Hn H2n Hj). reflexivity. }
  destruct (lt_eq_lt_dec (2 * i + 1) m) as [[C|C]|C].
  - rewrite (M i C). unfold at_cos. cbn [fst snd]. change (@ncos RA) with cos. apply (f_equal2 (@pair R R)); [rewrite cos_minus, cos_PI, sin_PI; ring|reflexivity].
  - replace (m - 1 - i)%nat with i by lia. unfold at_cos. change (@ncos RA) with cos. apply (f_equal2 (@pair R R)); [|reflexivity].
    assert (Q : (n <= 100)%Z). { destruct HC as [HC|HC]; [exact HC|]. exfalso. pose proof (Z.div_mod n 2 ltac:(lia)). lia. }
    destruct (small_mid t m Hu ltac:(unfold m; lia) ltac:(unfold m; lia) i C) as [F _]. replace (Z.of_nat m) with n in F by (unfold m; lia).
    refine (eq_trans (f_equal (fun z => - cos z) F) (eq_trans _ (eq_sym (f_equal cos F)))). rewrite cos_PI2. ring.
  - rewrite <- (Nat.sub_add i (m - 1)) at 1 by lia.
    pose proof (M (m - 1 - i)%nat ltac:(lia)) as T. replace (m - 1 - (m - 1 - i))%nat with i in T by lia.
    replace (m - 1 - i + i - i)%nat with (m - 1 - i)%nat by lia.
    replace (m - 1 - i + i)%nat with (m - 1)%nat by lia. rewrite T. unfold at_cos. cbn [fst snd]. change (@ncos RA) with cos. apply (f_equal2 (@pair R R)); [rewrite cos_minus, cos_PI, sin_PI; ring|reflexivity].
Qed.
