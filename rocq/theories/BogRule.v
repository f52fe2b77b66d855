(** Gauss-Legendre rules with more than 100 points: every node and weight computed by the
    asymptotic expansion, in exact arithmetic, is close to those of the exact Gauss rule. *)
From Coq Require Import Reals ZArith List Lia Lra Psatz Sorting.Sorted.
From Coquelicot Require Import Coquelicot.
From Verif Require Import Arith RInst RInstProof RSum Machine Rules LegendreData Legendre PolySpec PolyProof EigenSpec GWRoots MassSpec RuleSpec GaussRuleSpec
  LegSym LegAsym LegShape LegBig SizeProof SepLeg TM LegOde BogLeg BesselTab McPair BogPair BogGauss.
Import ListNotations.
Local Open Scope R_scope.

Definition eps_node (n : nat) : R := 71 / 10 ^ 15 / (INR n + / 2).
Definition eps_weight : R := 24 / 10 ^ 14.

Lemma nu_low : forall t k nu, (100 <= usize_max t)%Z -> (1 <= k)%Z -> @bessel_j0_zero RA t k = Ok nu -> 24 / 10 <= nu.
Proof.
  intros t k nu Hu Hk E. destruct (Z.eq_dec k 1) as [-> |K].
  - unfold bessel_j0_zero in E. destruct (Z.ltb_spec 20 1); [lia|]. rewrite usize_sub_ok in E by lia. cbn [bind] in E. apply tab_R in E. destruct E as (d & E & ->).
    change (Z.to_nat (1 - 1)) with 0%nat in E. cbn in E. injection E as <-. unfold R_lit. simpl. lra.
  - apply j0_zero_close in E; [|assumption|assumption]. apply abs_lower in E. assert (2 <= IZR k) by (apply IZR_le; lia). pose proof PI_lo. nra.
Qed.
Lemma nu_high : forall t n k nu, (100 <= usize_max t)%Z -> (101 <= n)%nat -> (1 <= k)%Z -> (2 * k <= Z.of_nat n + 1)%Z -> @bessel_j0_zero RA t k = Ok nu -> nu / Nn n <= 157097 / 100000.
Proof.
  intros t n k nu Hu Hn Hk Hkn E. pose proof PI_upper as PU. pose proof PI_lo as PL.
  assert (N : 101 <= INR n) by (rewrite INR_IZR_INZ; apply IZR_le; lia). unfold Nn. apply (Rmult_le_reg_r (INR n + / 2)); [lra|]. unfold Rdiv at 1. rewrite Rmult_assoc, Rinv_l, Rmult_1_r by lra.
  assert (KN : 2 * IZR k <= INR n + 1). { rewrite INR_IZR_INZ, <- mult_IZR, <- plus_IZR. apply IZR_le. lia. }
  destruct (Z_le_gt_dec k 20) as [K|K].
  - apply j0_zero_close in E; [|assumption|assumption]. apply abs_upper in E. assert (IZR k <= 20) by (apply IZR_le; lia). nra.
  - destruct (j0_asym t k nu ltac:(lia) E) as (q & Q & ->). assert (21 <= IZR k) by (apply IZR_le; lia). set (z := PI * (IZR k - / 4)). assert (Z : 60 <= z) by (unfold z; nra).
    assert (B : q / z <= 126 / 1000 * / 60). { apply Rle_trans with (Rabs (q / z)); [apply Rle_abs|]. unfold Rdiv at 1. rewrite Rabs_mult. apply Rmult_le_compat; try apply Rabs_pos; [exact Q|]. rewrite Rabs_pos_eq by (left; apply Rinv_0_lt_compat; lra). apply Rinv_le_contravar; lra. }
    assert (ZZ : z <= PI * (INR n + / 2) / 2) by (unfold z; nra). nra.
Qed.

Section N.
Variables (t : Target) (n : nat).
Hypothesis Hu : (100 <= usize_max t)%Z.
Hypothesis Hn : (100 < n)%nat.
Hypothesis H2n : (2 * Z.of_nat n <= usize_max t)%Z.

Lemma low_pair : forall j, (2 * j + 1 <= n)%nat -> exists nu b, @bessel_j0_zero RA t (1 + Z.of_nat j) = Ok nu /\ @bessel_j1_squared RA t (1 + Z.of_nat j) = Ok b /\
  @tw RA t (Z.of_nat n) j = @expansion RA (Z.of_nat n) nu b.
Proof.
  intros j Hj. unfold tw, theta_weight_pair. destruct (Z.leb_spec (Z.of_nat n) 100); [lia|].
  rewrite usize_mul_ok by lia. cbn [bind]. rewrite usize_sub_ok by lia. cbn [bind].
  destruct (Z.ltb_spec (Z.of_nat n) (2 * (1 + Z.of_nat j) - 1)); [lia|].
  destruct (compute_ok (A := RA) t (Z.of_nat n) (1 + Z.of_nat j) Hu ltac:(lia)) as [p E]. rewrite E. unfold compute_pair in E.
  destruct (@bessel_j0_zero RA t (1 + Z.of_nat j)) as [nu|] eqn:E1; [|discriminate]. cbn [bind] in E.
  destruct (@bessel_j1_squared RA t (1 + Z.of_nat j)) as [b|] eqn:E2; [|discriminate]. cbn [bind] in E. injection E as <-.
  exists nu, b. repeat split; reflexivity.
Qed.
(** an angle u whose cosine is a zero of the n-th Legendre polynomial *)
Definition near (i : nat) (u : R) : Prop := 0 < u < PI /\ monic la lb n (cos u) = 0 /\ Rabs (th t n i - u) <= eps_node n /\
  Rabs (wt t n i - 2 / ksum n la lb (cos u)) <= eps_weight * (2 / ksum n la lb (cos u)).
Lemma low_near : forall i, (2 * i + 1 <= n)%nat -> exists u, near i u.
Proof.
  intros i Hi. destruct (low_pair i Hi) as (nu & b & E1 & E2 & E). 
  pose proof (all_pairs t (1 + Z.of_nat i) nu b Hu ltac:(lia) E1 E2) as P.
  destruct (pair_near nu b P (nu_low t (1 + Z.of_nat i) nu Hu ltac:(lia) E1) n Hn (nu_high t n (1 + Z.of_nat i) nu Hu Hn ltac:(lia) ltac:(lia) E1)) as (u & U & Fu & F1u & B1 & B2).
  exists u. unfold near, th, wt. rewrite E. split; [exact U|]. split; [exact (F_root n u Fu)|]. split; [exact B1|].
  assert (K : ksum n la lb (cos u) = F1 n u * F1 n u). { destruct n as [|k]; [lia|]. apply F_weight. exact Fu. }
  rewrite K. exact B2.
Qed.
Lemma all_near : forall i, (i < n)%nat -> exists u, near i u.
Proof.
  intros i Hi. destruct (le_lt_dec (2 * i + 1) n) as [L|L]; [apply low_near; exact L|].
  destruct (flip t n Hu ltac:(lia) H2n i Hi L) as [F1 F2]. destruct (low_near (n - 1 - i) ltac:(lia)) as (u & U & Z & B1 & B2).
  exists (PI - u). assert (C : cos (PI - u) = - cos u) by (unfold Rminus; rewrite cos_plus, cos_neg, sin_neg, cos_PI, sin_PI; ring).
  unfold near. rewrite C, F1, F2, ksum_even by reflexivity. split; [lra|]. split; [rewrite monic_parity by reflexivity; rewrite Z; ring|]. split; [|exact B2].
  rewrite <- Rabs_Ropp. replace (- (PI - th t n (n - 1 - i) - (PI - u))) with (th t n (n - 1 - i) - u) by ring. exact B1.
Qed.
Lemma choose : forall (X Y : Type) (P : X -> Y -> Prop) (l : list X), (forall x, In x l -> exists y, P x y) -> exists m, Forall2 P l m.
Proof.
  intros X Y P l. induction l as [|x l IH]; intros H; [exists []; constructor|]. destruct (H x (or_introl eq_refl)) as [y Hy].
  destruct IH as [m Hm]; [intros z Hz; apply H; right; exact Hz|]. exists (y :: m). constructor; assumption.
Qed.
Lemma forall2_rev : forall (X Y : Type) (P : X -> Y -> Prop) l m, Forall2 P l m -> Forall2 P (rev l) (rev m).
Proof. intros X Y P l m H. induction H; simpl; [constructor|]. apply Forall2_app; [assumption|]. constructor; [assumption|constructor]. Qed.
Lemma eps_small : eps_node n <= 1 / INR n.
Proof.
  assert (N : 101 <= INR n) by (rewrite INR_IZR_INZ; apply IZR_le; lia). unfold eps_node, Rdiv. apply Rmult_le_compat; [lra| |lra|apply Rinv_le_contravar; lra].
  left. apply Rinv_0_lt_compat. lra.
Qed.
Lemma near_lt : forall i j u v, (i < j)%nat -> (j < n)%nat -> near i u -> near j v -> u < v.
Proof.
  intros i j u v Hij Hj (_ & _ & A & _) (_ & _ & B & _). destruct (big_angles t n Hu ltac:(lia) H2n Hn) as [_ S]. specialize (S i j Hij Hj).
  pose proof eps_small as E. apply abs_both in A, B. assert (N : 101 <= INR n) by (rewrite INR_IZR_INZ; apply IZR_le; lia). assert (V : 0 < / INR n) by (apply Rinv_0_lt_compat; lra). unfold Rdiv in *. lra.
Qed.
Lemma near_sorted : forall m s us, Forall2 near (seq s m) us -> (s + m <= n)%nat -> StronglySorted Rlt us.
Proof.
  induction m as [|m IH]; intros s us F Hs; cbn [seq] in F; inversion F as [|? u ? us' H1 H2 E1 E2]; subst; constructor.
  - apply (IH (S s)); [exact H2|lia].
  - apply List.Forall_forall. intros v Hv. 
    assert (G : forall l1 (l2 : list R), Forall2 near l1 l2 -> forall v, In v l2 -> exists j, In j l1 /\ near j v).
    { induction 1 as [|a b l1 l2 H _ IHf]; intros w Hw; [destruct Hw|]. destruct Hw as [<- |Hw]; [exists a; split; [left; reflexivity|exact H]|]. destruct (IHf w Hw) as (j & J1 & J2). exists j. split; [right; exact J1|exact J2]. }
    destruct (G _ _ H2 v Hv) as (j & J1 & J2). apply in_seq in J1. apply (near_lt s j u v); [lia|lia|exact H1|exact J2].
Qed.
Lemma near_range : forall l us, Forall2 near l us -> List.Forall (fun u => 0 < u < PI /\ monic la lb n (cos u) = 0) us.
Proof. induction 1 as [|i u l us H _ IH]; constructor; [|exact IH]. destruct H as (A & B & _). split; assumption. Qed.

Definition pair_at (u : R) : R * R := (cos u, 2 / ksum n la lb (cos u)).
Lemma rule_angles : forall l, gauss_rule n l -> exists us, Forall2 near (seq 0 n) us /\ l = rev (map pair_at us).
Proof.
  intros l G. destruct (choose _ _ near (seq 0 n)) as [us F]; [intros i Hi; apply in_seq in Hi; apply all_near; lia|].
  exists us. split; [exact F|]. pose proof (near_sorted n 0 us F ltac:(lia)) as S. pose proof (near_range _ _ F) as R.
  destruct (rule_roots n l ltac:(lia) G) as [RR AR]. destruct G as (Ln & So & _).
  assert (SC : StronglySorted Rlt (rev (map cos us))).
  { apply sorted_rev with (Rr := fun x y => y < x). clear - S R. induction S as [|u us S IH Fu]; cbn [map]; [constructor|]. apply Forall_inv in R as R1. apply Forall_inv_tail in R. specialize (IH R). constructor; [exact IH|]. apply List.Forall_forall. intros y Hy. apply in_map_iff in Hy.
    destruct Hy as (v & <- & Hv). rewrite List.Forall_forall in Fu, R. specialize (Fu v Hv). specialize (R v Hv). apply cos_decreasing_1; lra. }
  assert (Lu : length us = n) by (rewrite <- (seq_length n 0); symmetry; clear - F; induction F; simpl; congruence).
  assert (E : map fst l = rev (map cos us)).
  { assert (I : incl (rev (map cos us)) (map fst l)).
    { intros x Hx. apply in_rev in Hx. apply in_map_iff in Hx. destruct Hx as (u & <- & Hv). apply AR. rewrite List.Forall_forall in R. apply (R u Hv). }
    apply sorted_unique; [apply sorted_fst, So|exact SC|]. intros x. split; [|apply I].
    apply NoDup_length_incl; [|rewrite rev_length, !map_length; lia|exact I].
    clear - SC. induction SC as [|x r _ IH F]; constructor; [|exact IH]. intros H. rewrite List.Forall_forall in F. specialize (F x H). lra. }
  assert (E2 : l = map (fun x => (x, 2 / ksum n la lb x)) (map fst l)).
  { clear - RR. induction RR as [|[x w] l [_ H] _ IH]; [reflexivity|]. cbn [map fst snd] in *. rewrite <- IH, H. reflexivity. }
  rewrite E2, E, map_rev, map_map. reflexivity.
Qed.

Variable r : GaussLegendre RA.
Hypothesis Hr : legendre_new t (Z.of_nat n) = Ok r.
(** the computed pair (x, w) and the exact one *)
Definition close_pair (p q : R * R) : Prop := Rabs (acos (fst p) - acos (fst q)) <= eps_node n /\ Rabs (fst p - fst q) <= eps_node n /\ Rabs (snd p - snd q) <= eps_weight * snd q.
Lemma th_range : forall i, (i < n)%nat -> 0 < th t n i < PI.
Proof.
  intros i Hi. destruct (big_angles t n Hu ltac:(lia) H2n Hn) as [A _]. specialize (A i Hi). assert (N : 101 <= INR n) by (rewrite INR_IZR_INZ; apply IZR_le; lia).
  assert (0 < 22 / 10 / INR n) by (apply Rdiv_lt_0_compat; lra). lra.
Qed.
Lemma pairs_close : forall l, gauss_rule n l -> Forall2 close_pair (legendre_pairs r) l.
Proof.
  intros l G. destruct (rule_angles l G) as (us & F & ->). rewrite (legendre_list t (Z.of_nat n) r Hu ltac:(lia) H2n Hr). rewrite Nat2Z.id.
  apply forall2_rev. assert (B : forall i, In i (seq 0 n) -> (i < n)%nat) by (intros i Hi; apply in_seq in Hi; lia). revert B. clear G.
  induction F as [|i u is us H _ IH]; intros B; cbn [map]; [constructor|]. constructor; [|apply IH; intros j Hj; apply B; right; exact Hj].
  destruct H as (U & _ & A1 & A2). pose proof (th_range i (B i (or_introl eq_refl))) as T. fold (th t n i) (wt t n i) in *.
  assert (P : at_cos (@tw RA t (Z.of_nat n) i) = (cos (th t n i), wt t n i)) by reflexivity. rewrite P.
  unfold close_pair, pair_at. cbn [fst snd]. rewrite !acos_cos by lra. split; [exact A1|]. split; [|exact A2].
  eapply Rle_trans; [apply cos_lipschitz|exact A1].
Qed.
End N.
