(** The weights of the Gauss-Legendre rules are at most 4/n. *)
From Coq Require Import Reals ZArith List Lra Lia Bool.
From Coquelicot Require Import Coquelicot.
From Verif Require Import Arith RInst RInstProof Machine Rules LegendreData Legendre RuleSpec SizeProof LegSym LegFloat LegBigRule RSum ErrorSpec GaussProof GaussErr MonoSpec MonoLeg.
Import ListNotations.
Local Open Scope R_scope.

Lemma entry_le : forall n d, (1 <= n)%Z -> weight_entry n d = true -> @dec RA d <= 4 / IZR n.
Proof.
  intros n [m e] Hn H. unfold weight_entry in H. cbn [fst snd] in H. cbv zeta in H. rewrite !andb_true_iff, !Z.leb_le, !Z.ltb_lt in H. destruct H as (((H1 & H2) & H3) & H4).
  rewrite dec_neg by exact H1. cbn [fst snd]. assert (Hp : (0 < 10 ^ (- e))%Z) by (apply Z.pow_pos_nonneg; lia). set (p := (10 ^ (- e))%Z) in *.
  pose proof (scaled_le m 1 p n 4 Hp ltac:(lia)) as B1. set (v := IZR m / IZR p) in *. assert (N : 1 <= IZR n) by (apply IZR_le; exact Hn).
  apply (Rmult_le_reg_r (IZR n)); [lra|]. unfold Rdiv. rewrite Rmult_assoc, Rinv_l by lra. lra.
Qed.
Lemma middle_le : forall n d, (1 <= n)%Z -> middle_entry n d = true -> 2 / ((dec d : RA) * (dec d : RA)) <= 4 / IZR n.
Proof.
  intros n [m e] Hn H. unfold middle_entry in H. cbn [fst snd] in H. cbv zeta in H. rewrite !andb_true_iff, !Z.leb_le, !Z.ltb_lt in H. destruct H as (((H1 & H2) & H3) & H4).
  rewrite dec_neg by exact H1. cbn [fst snd]. assert (Hp : (0 < 10 ^ (- e))%Z) by (apply Z.pow_pos_nonneg; lia). set (p := (10 ^ (- e))%Z) in *.
  pose proof (scaled_ge (m * m) 1 (p * p) 2 n ltac:(lia) ltac:(lia)) as B2. assert (P : 0 < IZR p) by (apply IZR_lt; exact Hp).
  replace (IZR (m * m) / IZR (p * p)) with ((IZR m / IZR p) * (IZR m / IZR p)) in B2 by (rewrite !mult_IZR; field; lra).
  set (v := IZR m / IZR p) in *. assert (N : 1 <= IZR n) by (apply IZR_le; exact Hn).
  assert (I : / (v * v) <= / (IZR n / 2)) by (apply Rinv_le_contravar; lra). replace (/ (IZR n / 2)) with (2 * / IZR n) in I by (field; lra). unfold Rdiv. lra.
Qed.
Lemma row_le : forall l n i j (v : RA), rows weight_entry (n - 2 * i) l = true -> (0 <= i)%Z -> (1 <= n)%Z -> tab2 l i j = Ok v -> v <= 4 / IZR n.
Proof.
  intros l n i j v Hl Hi Hn Hv. apply tab2_inv in Hv. destruct Hv as (row & d & E1 & E2 & ->).
  pose proof (rows_in _ l _ _ _ row d Hl E1 E2) as W. cbv beta in W. replace (n - 2 * i + 2 * Z.of_nat (Z.to_nat i))%Z with n in W by lia. apply entry_le; assumption.
Qed.
Ltac stp H := match type of H with (bind ?r _) = Ok _ => let E := fresh "E" in destruct r eqn:E; cbn [bind] in H; [|discriminate H] end.
Lemma tabulated_le : forall t n k (q : RA * RA), (100 <= usize_max t)%Z -> (1 <= n <= 100)%Z -> (0 <= k < n)%Z -> tabulated_pair t n k = Ok q -> snd q <= 4 / IZR n.
Proof.
  intros t n k q Hu Hn Hk Hq. destruct tables_ok as (T1 & T2 & T3 & T4). unfold tabulated_pair in Hq.
  assert (Hm : n = (2 * (n / 2) + n mod 2)%Z) by (apply Z.div_mod; lia). assert (Hb : (0 <= n mod 2 < 2)%Z) by (apply Z.mod_pos_bound; lia).
  destruct (Z.eqb_spec (n mod 2) 1) as [O|O].
  - assert (H2 : ((n - 1) / 2 = n / 2)%Z) by (symmetry; apply (Z.div_unique (n - 1) 2 (n / 2) 0); lia).
    rewrite usize_sub_ok in Hq by lia. cbn [bind] in Hq. rewrite H2 in Hq. destruct (Z.compare_spec k (n / 2)) as [C|C|C].
    + stp Hq. apply ok_inj in Hq; subst q. apply tab_inv in E. destruct E as (d & E & ->).
      pose proof (middles_in CL 0 _ d middle_ok E) as M. replace (0 + Z.of_nat (Z.to_nat n))%Z with n in M by lia. specialize (M O).
      cbn [fst snd]; ra_simpl; ra_lits. apply middle_le; [lia|exact M].
    + rewrite !(usize_sub_ok t (n / 2)) in Hq by lia. cbn [bind] in Hq. stp Hq. cbn [bind] in Hq. stp Hq. stp Hq. apply ok_inj in Hq; subst q. cbn [snd].
      match goal with E : tab2 ODD_WEIGHTS _ _ = Ok _ |- _ => refine (row_le ODD_WEIGHTS n (n / 2 - 1) _ _ _ _ _ E) end; [|lia|lia]. replace (n - 2 * (n / 2 - 1))%Z with 3%Z by lia. exact T4.
    + rewrite (usize_sub_ok t (n / 2)), (usize_sub_ok t k) in Hq by lia. cbn [bind] in Hq. stp Hq. cbn [bind] in Hq. stp Hq. stp Hq. apply ok_inj in Hq; subst q. cbn [snd].
      match goal with E : tab2 ODD_WEIGHTS _ _ = Ok _ |- _ => refine (row_le ODD_WEIGHTS n (n / 2 - 1) _ _ _ _ _ E) end; [|lia|lia]. replace (n - 2 * (n / 2 - 1))%Z with 3%Z by lia. exact T4.
  - destruct (Z.compare_spec k (n / 2)) as [C|C|C].
    + rewrite (usize_sub_ok t (n / 2)), (usize_sub_ok t k) in Hq by lia. cbn [bind] in Hq. stp Hq. stp Hq. apply ok_inj in Hq; subst q. cbn [snd].
      match goal with E : tab2 EVEN_WEIGHTS _ _ = Ok _ |- _ => refine (row_le EVEN_WEIGHTS n (n / 2 - 1) _ _ _ _ _ E) end; [|lia|lia]. replace (n - 2 * (n / 2 - 1))%Z with 2%Z by lia. exact T3.
    + rewrite !(usize_sub_ok t (n / 2)) in Hq by lia. cbn [bind] in Hq. stp Hq. cbn [bind] in Hq. stp Hq. stp Hq. apply ok_inj in Hq; subst q. cbn [snd].
      match goal with E : tab2 EVEN_WEIGHTS _ _ = Ok _ |- _ => refine (row_le EVEN_WEIGHTS n (n / 2 - 1) _ _ _ _ _ E) end; [|lia|lia]. replace (n - 2 * (n / 2 - 1))%Z with 2%Z by lia. exact T3.
    + rewrite (usize_sub_ok t (n / 2)), (usize_sub_ok t k) in Hq by lia. cbn [bind] in Hq. stp Hq. stp Hq. apply ok_inj in Hq; subst q. cbn [snd].
      match goal with E : tab2 EVEN_WEIGHTS _ _ = Ok _ |- _ => refine (row_le EVEN_WEIGHTS n (n / 2 - 1) _ _ _ _ _ E) end; [|lia|lia]. replace (n - 2 * (n / 2 - 1))%Z with 2%Z by lia. exact T3.
Qed.

Section N.
Variables (t : Target) (n : nat) (r : GaussLegendre RA).
Hypothesis Hu : (100 <= usize_max t)%Z.
Hypothesis H2n : (2 * Z.of_nat n <= usize_max t)%Z.
Hypothesis Hr : legendre_new t (Z.of_nat n) = Ok r.
Hypothesis Hn : (1 <= n)%nat.
Lemma legendre_weight_le : List.Forall (fun p : R * R => snd p <= 4 / INR n) (legendre_pairs r).
Proof.
  rewrite (legendre_list t (Z.of_nat n) r) by (assumption || lia). apply Forall_rev. apply Forall_map. apply Forall_forall. intros i Hi. apply in_seq in Hi. rewrite Nat2Z.id in Hi.
  change (snd (@tw RA t (Z.of_nat n) i) <= 4 / INR n).
  destruct (Nat.le_gt_cases n 100) as [L|L]; [|apply big_weight_bound; assumption || lia].
  pose proof (tw_ok (A := RA) t (Z.of_nat n) i Hu ltac:(lia) H2n ltac:(lia)) as E2.
  unfold theta_weight_pair in E2. destruct (Z.leb_spec (Z.of_nat n) 100); [|lia]. rewrite usize_sub_ok in E2 by lia. cbn [bind] in E2.
  rewrite INR_IZR_INZ. apply (tabulated_le t (Z.of_nat n) (1 + Z.of_nat i - 1) _ Hu); [lia|lia|exact E2].
Qed.
Lemma legendre_mono_n : forall a b f bot top M, a < b -> rises_between (closed_between a b) f bot top -> - M <= bot -> top <= M -> ex_RInt f a b ->
  Rabs (legendre_value r a b f - RInt f a b) <= (b - a) / 2 * ((4 + / 10 ^ 11) / INR n * (top - bot) + 48 / 10 ^ 14 * M).
Proof.
  intros a b f bot top M E Hf Hb Ht Hi. eapply Rle_trans; [apply (legendre_mono t n r Hu H2n Hr Hn a b f bot top M _ E Hf Hb Ht Hi legendre_weight_le)|].
  assert (N1 : 1 <= INR n) by (apply (le_INR 1); exact Hn). assert (I : 0 < / INR n) by (apply Rinv_0_lt_compat; lra).
  apply Rmult_le_compat_l; [lra|]. apply Rplus_le_compat_r. apply Rmult_le_compat_r.
  - destruct Hf as [_ B]. assert (B1 := B a ltac:(unfold closed_between; rewrite Rmin_left, Rmax_right by lra; lra)). lra.
  - unfold Rdiv. lra.
Qed.
End N.
Lemma legendre_mono_all : forall (t : Target) (n : nat) (r : GaussLegendre RA),
  (100 <= usize_max t)%Z -> (2 * Z.of_nat n <= usize_max t)%Z -> legendre_new t (Z.of_nat n) = Ok r -> (1 <= n)%nat ->
  List.Forall (fun p : R * R => snd p <= 4 / INR n) (legendre_pairs r) /\
  forall a b f bot top M, a < b -> rises_between (closed_between a b) f bot top -> - M <= bot -> top <= M -> ex_RInt f a b ->
  Rabs (legendre_value r a b f - RInt f a b) <= (b - a) / 2 * ((4 + / 10 ^ 11) / INR n * (top - bot) + 48 / 10 ^ 14 * M).
Proof. intros t n r Hu H2 Hr Hn. split; [exact (legendre_weight_le t n r Hu H2 Hr Hn)|exact (legendre_mono_n t n r Hu H2 Hr Hn)]. Qed.
