(** Gauss-Legendre rules with at most 100 points: every tabulated angle and weight, read as a
    decimal number, is close to those of the exact Gauss rule. *)
From Coq Require Import Reals ZArith List Lia Lra Bool Psatz Sorting.Sorted.
From Coquelicot Require Import Coquelicot.
From Verif Require Import Arith RInst RInstProof RSum Machine Rules LegendreData Legendre PolySpec PolyProof EigenSpec GWRoots MassSpec RuleSpec GaussRuleSpec
  LegSym LegAsym LegShape LegTable Fix63 FixPoint LegCheck LegMom LegBig SizeProof SepLeg LegOde BogGauss BogRule LegZero LegZeroRun LegZeroAp LegZeroPair.
Import ListNotations.
Local Open Scope R_scope.

Definition eps_tab : R := 21 / 10 ^ 17.

Section N.
Variables (t : Target) (n : nat).
Hypothesis Hu : (100 <= usize_max t)%Z.
Hypothesis Hn : (1 <= n <= 100)%nat.
Hypothesis H2n : (2 * Z.of_nat n <= usize_max t)%Z.

Definition tnear (i : nat) (u : R) : Prop := 0 < u < PI /\ monic la lb n (cos u) = 0 /\ Rabs (th t n i - u) <= eps_tab /\
  Rabs (wt t n i - 2 / ksum n la lb (cos u)) <= eps_tab * (2 / ksum n la lb (cos u)).
Lemma low_tnear : forall i, (2 * i + 1 < n)%nat -> exists u, tnear i u.
Proof.
  intros i Hi. pose proof (proj1 (forallb_forall _ _) all_zeros n ltac:(apply in_seq; lia)) as Z. unfold zeros_check in Z.
  assert (D : (2 * (n / 2) <= n < 2 * (n / 2) + 2)%nat).
  { pose proof (Nat.div_mod n 2 ltac:(lia)). pose proof (Nat.mod_upper_bound n 2 ltac:(lia)). lia. }
  destruct (row_length n ltac:(lia)) as [L1 L2]. set (j := (n / 2 - 1 - i)%nat).
  assert (I : In (nth j (theta_row n) d0, nth j (weight_row n) d0) (entries n)).
  { unfold entries. destruct (Nat.ltb_spec n 2); [lia|]. rewrite <- combine_nth by congruence. apply nth_In. rewrite combine_length, L1, L2. unfold j. lia. }
  destruct (entry_ok n Hn _ I) as (E1 & E2 & _ & W). cbn [fst snd] in E1, E2. unfold weight in W. cbn [snd] in W.
  assert (V1 : th t n i = IZR (fix30 (nth j (theta_row n) d0)) / 10 ^ 30) by (unfold th; rewrite tw_table by lia; cbn [fst]; fold j; apply fix30_val; exact E1).
  assert (V2 : wt t n i = IZR (fix30 (nth j (weight_row n) d0)) / 10 ^ 30) by (unfold wt; rewrite tw_table by lia; cbn [snd]; fold j; apply fix30_val; exact E2).
  assert (W0 : (0 < fix30 (nth j (weight_row n) d0) <= 2 * 10 ^ 30)%Z).
  { unfold val in W. rewrite (fix30_val _ E2) in W. split.
    - apply lt_IZR. apply (Rmult_lt_reg_r (/ 10 ^ 30)); [lra|]. rewrite Rmult_0_l. apply W.
    - apply le_IZR. rewrite mult_IZR. replace (IZR (10 ^ 30)) with (10 ^ 30) by (rewrite (pow_IZR 10 30); reflexivity). lra. }
  destruct n as [|k] eqn:En in *; [lia|]. destruct (pairs_ok k _ _ Z _ I) as [z P]. cbn [fst snd] in P. destruct (pair_ok k ltac:(lia) _ _ _ W0 P) as (u & U & Fu & B1 & B2).
  exists u. unfold tnear. rewrite En in *. rewrite V1, V2, (F_weight k u Fu). split; [exact U|]. split; [exact (F_root _ u Fu)|]. split; assumption.
Qed.
Lemma mid_tnear : forall i, (2 * i + 1 = n)%nat -> exists u, tnear i u.
Proof.
  intros i Hi. assert (O : Nat.odd n = true) by (apply Nat.odd_spec; exists i; lia).
  assert (D : (n / 2 = i)%nat) by (symmetry; apply (Nat.div_unique n 2 i 1); lia).
  pose proof (proj1 (forallb_forall _ _) all_middles n ltac:(apply in_seq; lia)) as M.
  assert (V : wt t n i = midw n) by (unfold wt, midw; rewrite O, <- D, tw_middle by (try assumption; lia); reflexivity).
  assert (V1 : th t n i = PI / 2) by (apply (mid_facts t n Hu ltac:(lia) ltac:(lia) i Hi)).
  destruct n as [|k] eqn:En in *; [lia|]. destruct (middle_ok k ltac:(lia) O M) as [Z B]. exists (PI / 2). unfold tnear. rewrite En in *. rewrite V, V1, (F_weight k _ Z).
  pose proof PI_RGT_0. split; [lra|]. split; [exact (F_root _ _ Z)|]. split; [|exact B]. rewrite Rminus_eq_0, Rabs_R0. unfold eps_tab. lra.
Qed.
Lemma all_tnear : forall i, (i < n)%nat -> exists u, tnear i u.
Proof.
  intros i Hi. destruct (lt_eq_lt_dec (2 * i + 1) n) as [[L|L]|L]; [apply low_tnear; exact L|apply mid_tnear; exact L|].
  destruct (flip t n Hu ltac:(lia) H2n i Hi L) as [F1 F2]. destruct (low_tnear (n - 1 - i) ltac:(lia)) as (u & U & Z & B1 & B2).
  exists (PI - u). assert (C : cos (PI - u) = - cos u) by (unfold Rminus; rewrite cos_plus, cos_neg, sin_neg, cos_PI, sin_PI; ring).
  unfold tnear. rewrite C, F1, F2, ksum_even by reflexivity. split; [lra|]. split; [rewrite monic_parity by reflexivity; rewrite Z; ring|]. split; [|exact B2].
  rewrite <- Rabs_Ropp. replace (- (PI - th t n (n - 1 - i) - (PI - u))) with (th t n (n - 1 - i) - u) by ring. exact B1.
Qed.
Lemma tnear_lt : forall i j u v, (i < j)%nat -> (j < n)%nat -> tnear i u -> tnear j v -> u < v.
Proof.
  intros i j u v Hij Hj (_ & _ & A & _) (_ & _ & B & _). destruct (small_angles t n Hu ltac:(lia) H2n ltac:(lia)) as [_ S]. specialize (S i j Hij Hj).
  unfold eps_tab in *. pose proof (abs_upper _ _ A). pose proof (abs_lower _ _ A). pose proof (abs_upper _ _ B). pose proof (abs_lower _ _ B). lra.
Qed.
Lemma tnear_sorted : forall m s us, Forall2 tnear (seq s m) us -> (s + m <= n)%nat -> StronglySorted Rlt us.
Proof.
  induction m as [|m IH]; intros s us F Hs; cbn [seq] in F; inversion F as [|? u ? us' H1 H2 E1 E2]; subst; constructor.
  - apply (IH (S s)); [exact H2|lia].
  - apply List.Forall_forall. intros v Hv.
    assert (G : forall l1 (l2 : list R), Forall2 tnear l1 l2 -> forall v, In v l2 -> exists j, In j l1 /\ tnear j v).
    { induction 1 as [|a b l1 l2 H _ IHf]; intros w Hw; [destruct Hw|]. destruct Hw as [<- |Hw]; [exists a; split; [left; reflexivity|exact H]|]. destruct (IHf w Hw) as (j & J1 & J2). exists j. split; [right; exact J1|exact J2]. }
    destruct (G _ _ H2 v Hv) as (j & J1 & J2). apply in_seq in J1. apply (tnear_lt s j u v); [lia|lia|exact H1|exact J2].
Qed.
Lemma tnear_range : forall l us, Forall2 tnear l us -> List.Forall (fun u => 0 < u < PI /\ monic la lb n (cos u) = 0) us.
Proof. induction 1 as [|i u l us H _ IH]; constructor; [|exact IH]. destruct H as (A & B & _). split; assumption. Qed.
Lemma table_angles : forall l, gauss_rule n l -> exists us, Forall2 tnear (seq 0 n) us /\ l = rev (map (pair_at n) us).
Proof.
  intros l G. destruct (choose _ _ tnear (seq 0 n)) as [us F]; [intros i Hi; apply in_seq in Hi; apply all_tnear; lia|].
  exists us. split; [exact F|]. pose proof (tnear_sorted n 0 us F ltac:(lia)) as S. pose proof (tnear_range _ _ F) as R.
  destruct (rule_roots n l ltac:(lia) G) as [RR AR]. destruct G as (Ln & So & _).
  assert (SC : StronglySorted Rlt (rev (map cos us))).
  { apply sorted_rev with (Rr := fun x y => y < x). clear - S R. induction S as [|u us S IH Fu]; cbn [map]; [constructor|]. apply Forall_inv in R as R1. apply Forall_inv_tail in R. specialize (IH R). constructor; [exact IH|]. apply List.Forall_forall. intros y Hy. apply in_map_iff in Hy.
    destruct Hy as (v & <- & Hv). rewrite List.Forall_forall in Fu, R. specialize (Fu v Hv). specialize (R v Hv). apply cos_decreasing_1; lra. }
  assert (Lu : length us = n) by (rewrite <- (seq_length n 0); symmetry; clear - F; induction F; simpl; congruence).
  assert (E : map fst l = rev (map cos us)).
  { assert (I : incl (rev (map cos us)) (map fst l)).
    { intros x Hx. apply in_rev in Hx. apply in_map_iff in Hx. destruct Hx as (u & <- & Hv). apply AR. rewrite List.Forall_forall in R. apply (R u Hv). }
    apply sorted_unique; [apply sorted_fst, So|exact SC|]. intros x. split; [|apply I].
    apply NoDup_length_incl; [|rewrite rev_length, !map_length; lia|exact I].
    clear - SC. induction SC as [|x r _ IH F]; constructor; [|exact IH]. intros H. rewrite List.Forall_forall in F. specialize (F x H). lra. }
  assert (E2 : l = map (fun x => (x, 2 / ksum n la lb x)) (map fst l)).
  { clear - RR. induction RR as [|[x w] l [_ H] _ IH]; [reflexivity|]. cbn [map fst snd] in *. rewrite <- IH, H. reflexivity. }
  rewrite E2, E, map_rev, map_map. reflexivity.
Qed.

Variable r : GaussLegendre RA.
Hypothesis Hr : legendre_new t (Z.of_nat n) = Ok r.
Lemma table_close : forall l, gauss_rule n l -> Forall2 (fun p q => Rabs (acos (fst p) - acos (fst q)) <= eps_tab /\ Rabs (fst p - fst q) <= eps_tab /\ Rabs (snd p - snd q) <= eps_tab * snd q) (legendre_pairs r) l.
Proof.
  intros l G. destruct (table_angles l G) as (us & F & ->). rewrite (legendre_list t (Z.of_nat n) r Hu ltac:(lia) H2n Hr). rewrite Nat2Z.id.
  apply forall2_rev. assert (B : forall i, In i (seq 0 n) -> (i < n)%nat) by (intros i Hi; apply in_seq in Hi; lia). revert B. clear G.
  induction F as [|i u is us H _ IH]; intros B; cbn [map]; [constructor|]. constructor; [|apply IH; intros j Hj; apply B; right; exact Hj].
  destruct H as (U & _ & A1 & A2). destruct (small_angles t n Hu ltac:(lia) H2n ltac:(lia)) as [T _]. specialize (T i (B i (or_introl eq_refl))). destruct T as [T _]. fold (th t n i) (wt t n i) in *.
  assert (P : at_cos (@tw RA t (Z.of_nat n) i) = (cos (th t n i), wt t n i)) by reflexivity. rewrite P.
  unfold pair_at. cbn [fst snd]. rewrite !acos_cos by lra. split; [exact A1|]. split; [|exact A2].
  eapply Rle_trans; [apply cos_lipschitz|exact A1].
Qed.
End N.
