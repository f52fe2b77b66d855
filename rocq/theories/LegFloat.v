(** The tabulated Gauss-Legendre rules in double arithmetic: distance of the pairs to those in exact arithmetic. *)
From Coq Require Import Reals ZArith List Lra Lia Psatz Bool.
From Flocq Require Import Core IEEE754.Binary.
From Verif Require Import Arith F64 F64Spec F64Proof RInst RInstProof Machine Rules Par LegendreData Legendre SizeProof LegSym RoundSpec RoundProof LegBig AccF64 TrigSpec ChebFloat.
Import ListNotations.
Local Open Scope R_scope.

(** ** Bounds on the tables *)
Definition theta_entry (d : Z * Z) : bool :=
  let p := (10 ^ (- snd d))%Z in ((snd d <? 0) && (0 <? fst d) && (p <=? fst d * 1000) && (fst d * 10 <=? 16 * p))%Z.
Definition weight_entry (n : Z) (d : Z * Z) : bool :=
  let p := (10 ^ (- snd d))%Z in ((snd d <? 0) && (0 <? fst d) && (p <=? fst d * 1000000) && (fst d * n <=? 4 * p))%Z.
Definition middle_entry (n : Z) (d : Z * Z) : bool :=
  let p := (10 ^ (- snd d))%Z in ((snd d <? 0) && (0 <? fst d * fst d) && (n * p * p <=? 2 * (fst d * fst d)) && (fst d * fst d <=? 10000 * p * p))%Z.
Fixpoint rows (f : Z -> Z * Z -> bool) (i : Z) (l : list (list (Z * Z))) : bool :=
  match l with [] => true | row :: r => forallb (f i) row && rows f (i + 2) r end.
Lemma tables_ok : rows (fun _ => theta_entry) 0 EVEN_THETA_ZEROS = true /\ rows (fun _ => theta_entry) 0 ODD_THETA_ZEROS = true /\
  rows weight_entry 2 EVEN_WEIGHTS = true /\ rows weight_entry 3 ODD_WEIGHTS = true.
Proof. vm_compute. repeat split. Qed.
Fixpoint middles (i : Z) (l : list (Z * Z)) : bool :=
  match l with [] => true | d :: r => (if (i mod 2 =? 1)%Z then middle_entry i d else true) && middles (i + 1) r end.
Lemma middle_ok : middles 0 CL = true. Proof. vm_compute. reflexivity. Qed.
Lemma rows_in : forall f l i k j row d, rows f i l = true -> nth_error l k = Some row -> nth_error row j = Some d -> f (i + 2 * Z.of_nat k)%Z d = true.
Proof.
  intros f l. induction l as [|r l IH]; intros i [|k] j row d H E1 E2; try discriminate; cbn [rows] in H; apply andb_true_iff in H; destruct H as [H1 H2].
  - injection E1 as ->. replace (i + 2 * Z.of_nat 0)%Z with i by lia. rewrite forallb_forall in H1. apply H1. eapply nth_error_In. exact E2.
  - cbn [nth_error] in E1. replace (i + 2 * Z.of_nat (S k))%Z with (i + 2 + 2 * Z.of_nat k)%Z by lia. eapply IH; eassumption.
Qed.
Lemma middles_in : forall l i k d, middles i l = true -> nth_error l k = Some d -> ((i + Z.of_nat k) mod 2 = 1)%Z -> middle_entry (i + Z.of_nat k) d = true.
Proof.
  intros l. induction l as [|r l IH]; intros i [|k] d H E1 E2; try discriminate; cbn [middles] in H; apply andb_true_iff in H; destruct H as [H1 H2].
  - injection E1 as ->. replace (i + Z.of_nat 0)%Z with i in * by lia. rewrite E2 in H1. exact H1.
  - cbn [nth_error] in E1. replace (i + Z.of_nat (S k))%Z with (i + 1 + Z.of_nat k)%Z in * by lia. eapply IH; eassumption.
Qed.

Lemma scaled_le : forall a b p x y, (0 < p)%Z -> (x * a <= y * b * p)%Z -> IZR x * (IZR a / IZR p) <= IZR y * IZR b.
Proof.
  intros a b p x y Hp H. assert (P : 0 < IZR p) by (apply IZR_lt; exact Hp). apply (Rmult_le_reg_r (IZR p)); [exact P|].
  replace (IZR x * (IZR a / IZR p) * IZR p) with (IZR x * IZR a) by (field; lra). rewrite <- !mult_IZR. apply IZR_le. exact H.
Qed.
Lemma scaled_ge : forall a b p x y, (0 < p)%Z -> (y * b * p <= x * a)%Z -> IZR y * IZR b <= IZR x * (IZR a / IZR p).
Proof.
  intros a b p x y Hp H. assert (P : 0 < IZR p) by (apply IZR_lt; exact Hp). apply (Rmult_le_reg_r (IZR p)); [exact P|].
  replace (IZR x * (IZR a / IZR p) * IZR p) with (IZR x * IZR a) by (field; lra). rewrite <- !mult_IZR. apply IZR_le. exact H.
Qed.

Section F.
Variables (be : Backend) (kappa : R).
Notation A := (F64 be).
Hypothesis HT : accurate_trig be kappa.

Lemma dec_neg : forall d, (snd d < 0)%Z -> @dec RA d = IZR (fst d) / IZR (10 ^ (- snd d)).
Proof. intros d H. unfold dec. cbn [nlit RA]. unfold R_lit. destruct (Z.ltb_spec (snd d) 0); [reflexivity|lia]. Qed.
Lemma theta_rel : forall d, theta_entry d = true -> rel (dec d : A) (dec d : RA) uro /\ / 1000 <= @dec RA d <= 16 / 10.
Proof.
  intros [m e] H. unfold theta_entry in H. cbn [fst snd] in H. cbv zeta in H. rewrite !andb_true_iff, !Z.leb_le, !Z.ltb_lt in H. destruct H as (((H1 & H2) & H3) & H4).
  rewrite dec_neg by exact H1. cbn [fst snd]. assert (Hp : (0 < 10 ^ (- e))%Z) by (apply Z.pow_pos_nonneg; lia). set (p := (10 ^ (- e))%Z) in *.
  pose proof (scaled_le m 1 p 10 16 Hp ltac:(lia)) as B1. pose proof (scaled_ge m 1 p 1000 1 Hp ltac:(lia)) as B2.
  set (v := IZR m / IZR p) in *. assert (B : / 1000 <= v <= 16 / 10) by lra. split; [|exact B]. apply (rel_lit m e H1). fold p. fold v. apply mid_pos. split; [|lra].
  apply Rle_trans with (/ 1000); [apply Rinv_le_contravar; lra|lra].
Qed.
Lemma weight_rel : forall n d, (1 <= n)%Z -> weight_entry n d = true -> rel (dec d : A) (dec d : RA) uro /\ 0 < @dec RA d <= 4 / IZR n.
Proof.
  intros n [m e] Hn H. unfold weight_entry in H. cbn [fst snd] in H. cbv zeta in H. rewrite !andb_true_iff, !Z.leb_le, !Z.ltb_lt in H. destruct H as (((H1 & H2) & H3) & H4).
  rewrite dec_neg by exact H1. cbn [fst snd]. assert (Hp : (0 < 10 ^ (- e))%Z) by (apply Z.pow_pos_nonneg; lia). set (p := (10 ^ (- e))%Z) in *.
  pose proof (scaled_le m 1 p n 4 Hp ltac:(lia)) as B1. pose proof (scaled_ge m 1 p 1000000 1 Hp ltac:(lia)) as B2.
  set (v := IZR m / IZR p) in *. assert (N : 1 <= IZR n) by (apply IZR_le; exact Hn).
  assert (B : 0 < v <= 4 / IZR n). { split; [lra|]. apply (Rmult_le_reg_r (IZR n)); [lra|]. unfold Rdiv. rewrite Rmult_assoc, Rinv_l by lra. lra. }
  assert (B3 : v <= 4) by nra.
  split; [|exact B]. apply (rel_lit m e H1). fold p. fold v. apply mid_pos. split; [|lra].
  apply Rle_trans with (/ 1000000); [apply Rinv_le_contravar; lra|lra].
Qed.
Lemma square_ok : forall v n, 1 <= n -> n <= 2 * (v * v) -> v * v <= 10000 -> mid v /\ mid (v * v) /\ Rabs (2 / (v * v)) <= 4 / n.
Proof.
  intros v n Hn H1 H2. assert (Sq : Rabs v * Rabs v = v * v) by (rewrite <- Rabs_mult, Rabs_pos_eq; [reflexivity|nra]). pose proof (Rabs_pos v) as P.
  assert (Q1 : / 2 <= Rabs v) by nra. assert (Q2 : Rabs v <= 100) by nra. assert (Q3 : / 2 ^ 100 <= / 2) by (apply Rinv_le_contravar; lra).
  split; [apply mid_range; lra|]. split; [apply mid_pos; lra|]. assert (IP : 0 < / (v * v)) by (apply Rinv_0_lt_compat; lra). unfold Rdiv. rewrite Rabs_pos_eq by lra.
  assert (/ (v * v) <= / (n / 2)) by (apply Rinv_le_contravar; lra). replace (/ (n / 2)) with (2 * / n) in * by (field; lra). lra.
Qed.
Lemma middle_rel : forall n d, (1 <= n)%Z -> middle_entry n d = true ->
  rel (ndiv lit2 (nmul (dec d) (dec d)) : A) (2 / ((dec d : RA) * (dec d : RA))) (5 / 10 ^ 16) /\ Rabs (2 / ((dec d : RA) * (dec d : RA))) <= 4 / IZR n.
Proof.
  intros n [m e] Hn H. pose proof uro_num as U. unfold middle_entry in H. cbn [fst snd] in H. cbv zeta in H. rewrite !andb_true_iff, !Z.leb_le, !Z.ltb_lt in H. destruct H as (((H1 & H2) & H3) & H4).
  rewrite dec_neg by exact H1. cbn [fst snd]. assert (Hp : (0 < 10 ^ (- e))%Z) by (apply Z.pow_pos_nonneg; lia). set (p := (10 ^ (- e))%Z) in *.
  pose proof (scaled_le (m * m) 1 (p * p) 1 10000 ltac:(lia) ltac:(lia)) as B1. pose proof (scaled_ge (m * m) 1 (p * p) 2 n ltac:(lia) ltac:(lia)) as B2.
  assert (P : 0 < IZR p) by (apply IZR_lt; exact Hp).
  replace (IZR (m * m) / IZR (p * p)) with ((IZR m / IZR p) * (IZR m / IZR p)) in B1, B2 by (rewrite !mult_IZR; field; lra).
  assert (RL : mid (IZR m / IZR p) -> rel (dec (m, e) : A) (IZR m / IZR p) uro) by (intros; apply (rel_lit m e H1); assumption).
  set (v := IZR m / IZR p) in *. assert (N : 1 <= IZR n) by (apply IZR_le; exact Hn).
  destruct (square_ok v (IZR n) N) as (M1 & M2 & B3); [lra|lra|]. split; [|exact B3]. specialize (RL M1).
  pose proof (rel_mul be _ _ _ _ _ _ RL RL M1 M1 ltac:(lra) ltac:(lra)) as R1. apply (rel_weaken _ _ _ (334 / 10 ^ 18)) in R1; [|nra].
  pose proof (rel_div be _ _ _ _ _ _ (lit2_rel be) R1 (mid_int 2 ltac:(lia)) M2 ltac:(lra) ltac:(lra)) as R2. apply (rel_weaken _ _ _ (5 / 10 ^ 16)) in R2; [exact R2|].
  rewrite Rplus_0_r. assert (X : 1 / (1 - 334 / 10 ^ 18) <= 1 + 335 / 10 ^ 18). { apply (Rmult_le_reg_r (1 - 334 / 10 ^ 18)); [lra|]. unfold Rdiv at 1. rewrite Rmult_assoc, Rinv_l by lra. lra. }
  set (z := 1 / (1 - 334 / 10 ^ 18)) in *. clearbody z. nra.
Qed.

Definition angle_close (dt dw : R) (p : A * A) (q : R * R) : Prop :=
  (ffin (fst p) /\ 0 <= fval (fst p) <= 4 /\ Rabs (fval (fst p) - fst q) <= dt) /\ (ffin (snd p) /\ Rabs (fval (snd p) - snd q) <= dw).
Lemma weight_near : forall (w : A) v n d, rel w v d -> 0 <= d <= 5 / 10 ^ 16 -> Rabs v <= 4 / IZR n -> (1 <= n)%Z -> ffin w /\ Rabs (fval w - v) <= 2 / 10 ^ 15 / IZR n.
Proof.
  intros w v n d [F H] Hd Hv Hn. split; [exact F|]. eapply Rle_trans; [exact H|]. assert (N : 1 <= IZR n) by (apply IZR_le; exact Hn).
  assert (0 < / IZR n) by (apply Rinv_0_lt_compat; lra). pose proof (Rabs_pos v).
  apply Rle_trans with (5 / 10 ^ 16 * (4 / IZR n)); [apply Rmult_le_compat; lra|]. unfold Rdiv. lra.
Qed.
Lemma theta_near : forall (x : A) v, rel x v uro -> / 1000 <= v <= 16 / 10 -> ffin x /\ 0 <= fval x <= 4 /\ Rabs (fval x - v) <= 7 / 10 ^ 16.
Proof.
  intros x v [F H] Hv. pose proof uro_num as U. rewrite (Rabs_pos_eq v) in H by lra. split; [exact F|]. assert (X : Rabs (fval x - v) <= 2 / 10 ^ 16) by nra.
  assert (X1 := Rle_abs (fval x - v)). assert (X2 := Rle_abs (- (fval x - v))). rewrite Rabs_Ropp in X2. lra.
Qed.
Lemma mirror_near : forall (x : A) v, rel x v uro -> / 1000 <= v <= 16 / 10 -> ffin (nsub npi x : A) /\ 0 <= fval (nsub npi x : A) <= 4 /\ Rabs (fval (nsub npi x : A) - (PI - v)) <= 7 / 10 ^ 16.
Proof.
  intros x v [F H] Hv. pose proof uro_num as U. pose proof PI_lo30 as PL. pose proof PI_hi30 as PU. rewrite (Rabs_pos_eq v) in H by lra.
  assert (X : Rabs (fval x - v) <= 18 / 10 ^ 17) by nra. destruct (npi_rel be) as [Fp Ep]. rewrite (Rabs_pos_eq PI) in Ep by lra.
  assert (X1 := Rle_abs (fval x - v)). assert (X2 := Rle_abs (- (fval x - v))). rewrite Rabs_Ropp in X2.
  assert (Y1 := Rle_abs (fval (npi : A) - PI)). assert (Y2 := Rle_abs (- (fval (npi : A) - PI))). rewrite Rabs_Ropp in Y2.
  set (y := fval (npi : A)) in *. assert (D : 1 <= y - fval x <= 315 / 100) by lra.
  assert (B5 : 5 <= bpow radix2 1023). { apply Rle_trans with (bpow radix2 3); [simpl; lra|apply bpow_le; lia]. }
  destruct (sub_finite be (npi : A) x Fp F) as [F1 E1]; [apply no_overflow_small; fold y; rewrite Rabs_pos_eq; lra|].
  fold y in E1. pose proof (rnd_err (y - fval x)) as R. rewrite (Rabs_pos_eq (y - fval x)) in R by lra. pose proof eta_num as Et.
  assert (R' : Rabs (rnd (y - fval x) - (y - fval x)) <= 351 / 10 ^ 18) by nra. split; [exact F1|]. rewrite E1.
  assert (Z1 := Rle_abs (rnd (y - fval x) - (y - fval x))). assert (Z2 := Rle_abs (- (rnd (y - fval x) - (y - fval x)))). rewrite Rabs_Ropp in Z2.
  split; [lra|]. apply Rabs_le. lra.
Qed.
Lemma centre_near : ffin (ndiv npi lit2 : A) /\ 0 <= fval (ndiv npi lit2 : A) <= 4 /\ Rabs (fval (ndiv npi lit2 : A) - PI / 2) <= 7 / 10 ^ 16.
Proof.
  pose proof uro_num as U. pose proof PI_lo30 as PL. pose proof PI_hi30 as PU.
  pose proof (rel_div be _ _ _ _ _ _ (npi_rel be) (lit2_rel be) mid_pi (mid_int 2 ltac:(lia)) ltac:(lra) ltac:(lra)) as R1.
  apply (rel_weaken _ _ _ (160 / 10 ^ 18)) in R1; [|rewrite Rminus_0_r; unfold Rdiv; rewrite Rinv_1; nra]. destruct R1 as [F R1]. rewrite (Rabs_pos_eq (PI / 2)) in R1 by lra.
  split; [exact F|]. assert (Y1 := Rle_abs (fval (ndiv npi lit2 : A) - PI / 2)). assert (Y2 := Rle_abs (- (fval (ndiv npi lit2 : A) - PI / 2))). rewrite Rabs_Ropp in Y2. lra.
Qed.

Lemma tab2_inv : forall (B : Arith) l i j (x : B), tab2 l i j = Ok x -> exists row d, nth_error l (Z.to_nat i) = Some row /\ nth_error row (Z.to_nat j) = Some d /\ x = dec d.
Proof.
  intros B l i j x H. unfold tab2, tab, index in H. destruct (nth_error l (Z.to_nat i)) as [row|] eqn:E1; cbn [bind] in H; [|discriminate].
  destruct (nth_error row (Z.to_nat j)) as [d|] eqn:E2; cbn [bind] in H; [|discriminate]. exists row, d. injection H as <-. repeat split; assumption.
Qed.
Lemma tab_inv : forall (B : Arith) l i (x : B), tab l i = Ok x -> exists d, nth_error l (Z.to_nat i) = Some d /\ x = dec d.
Proof.
  intros B l i x H. unfold tab, index in H. destruct (nth_error l (Z.to_nat i)) as [d|] eqn:E2; cbn [bind] in H; [|discriminate]. exists d. injection H as <-. split; reflexivity.
Qed.
(** entries with the same indices in both arithmetics *)
Lemma thetas : forall l i j (x : A) (v : RA), rows (fun _ => theta_entry) 0 l = true -> tab2 l i j = Ok x -> tab2 l i j = Ok v -> rel x v uro /\ / 1000 <= v <= 16 / 10.
Proof.
  intros l i j x v Hl Hx Hv. apply tab2_inv in Hx. apply tab2_inv in Hv. destruct Hx as (row & d & E1 & E2 & ->). destruct Hv as (row' & d' & E1' & E2' & ->).
  rewrite E1 in E1'. injection E1' as <-. rewrite E2 in E2'. injection E2' as <-. apply theta_rel. exact (rows_in _ l 0 _ _ row d Hl E1 E2).
Qed.
Lemma weights_close : forall l n i j (x : A) (v : RA), rows weight_entry (n - 2 * i) l = true -> (0 <= i)%Z -> (1 <= n)%Z -> tab2 l i j = Ok x -> tab2 l i j = Ok v ->
  ffin x /\ Rabs (fval x - v) <= 2 / 10 ^ 15 / IZR n.
Proof.
  intros l n i j x v Hl Hi Hn Hx Hv. apply tab2_inv in Hx. apply tab2_inv in Hv. destruct Hx as (row & d & E1 & E2 & ->). destruct Hv as (row' & d' & E1' & E2' & ->).
  rewrite E1 in E1'. injection E1' as <-. rewrite E2 in E2'. injection E2' as <-.
  pose proof (rows_in _ l _ _ _ row d Hl E1 E2) as W. cbv beta in W. replace (n - 2 * i + 2 * Z.of_nat (Z.to_nat i))%Z with n in W by lia.
  destruct (weight_rel n d Hn W) as [R B]. apply (weight_near _ _ n _ R); [pose proof uro_num; lra| |exact Hn]. rewrite Rabs_pos_eq; lra.
Qed.

Ltac step H := match type of H with (bind ?r _) = Ok _ => let E := fresh "E" in destruct r eqn:E; cbn [bind] in H; [|discriminate H] end.
Lemma ok_inj : forall X (a b : X), Ok a = Ok b -> b = a. Proof. intros X a b H. congruence. Qed.
Lemma tabulated_close : forall t n k (p : A * A) (q : RA * RA), (100 <= usize_max t)%Z -> (1 <= n <= 100)%Z -> (0 <= k < n)%Z ->
  tabulated_pair t n k = Ok p -> tabulated_pair t n k = Ok q -> angle_close (7 / 10 ^ 16) (2 / 10 ^ 15 / IZR n) p q.
Proof.
  intros t n k p q Hu Hn Hk Hp Hq. destruct tables_ok as (T1 & T2 & T3 & T4). unfold tabulated_pair in Hp, Hq.
  assert (Hm : n = (2 * (n / 2) + n mod 2)%Z) by (apply Z.div_mod; lia). assert (Hb : (0 <= n mod 2 < 2)%Z) by (apply Z.mod_pos_bound; lia).
  destruct (Z.eqb_spec (n mod 2) 1) as [O|O].
  - assert (H2 : ((n - 1) / 2 = n / 2)%Z) by (symmetry; apply (Z.div_unique (n - 1) 2 (n / 2) 0); lia).
    rewrite usize_sub_ok in Hp, Hq by lia. cbn [bind] in Hp, Hq. rewrite H2 in Hp, Hq. destruct (Z.compare_spec k (n / 2)) as [C|C|C].
    + step Hp. step Hq. apply ok_inj in Hp; subst p. apply ok_inj in Hq; subst q. apply tab_inv in E. apply tab_inv in E0.
      destruct E as (d & E & ->). destruct E0 as (d' & E0 & ->). rewrite E in E0. assert (d' = d) by congruence. subst d'. clear E0.
      pose proof (middles_in CL 0 _ d middle_ok E) as M. replace (0 + Z.of_nat (Z.to_nat n))%Z with n in M by lia. specialize (M O).
      destruct (middle_rel n d ltac:(lia) M) as [R B]. split; cbn [fst snd]; ra_simpl; ra_lits; [exact centre_near|]. apply (weight_near _ _ n _ R); [lra|exact B|lia].
    + rewrite !(usize_sub_ok t (n / 2)) in Hp, Hq by lia. cbn [bind] in Hp, Hq. step Hp. step Hp. step Hp. cbn [bind] in Hq. step Hq. step Hq. apply ok_inj in Hp; subst p. apply ok_inj in Hq; subst q.
      split; cbn [fst snd].
      * destruct (thetas _ _ _ _ _ T2 E0 E2) as [R B]. apply theta_near; assumption.
      * refine (weights_close ODD_WEIGHTS n (n / 2 - 1) x _ _ _ _ _ E1 E3); [|lia|lia]. replace (n - 2 * (n / 2 - 1))%Z with 3%Z by lia. exact T4.
    + rewrite (usize_sub_ok t (n / 2)), (usize_sub_ok t k) in Hp, Hq by lia. cbn [bind] in Hp, Hq. step Hp. step Hp. step Hp. cbn [bind] in Hq. step Hq. step Hq. apply ok_inj in Hp; subst p. apply ok_inj in Hq; subst q.
      split; cbn [fst snd].
      * destruct (thetas _ _ _ _ _ T2 E0 E2) as [R B]. apply mirror_near; assumption.
      * refine (weights_close ODD_WEIGHTS n (n / 2 - 1) x _ _ _ _ _ E1 E3); [|lia|lia]. replace (n - 2 * (n / 2 - 1))%Z with 3%Z by lia. exact T4.
  - destruct (Z.compare_spec k (n / 2)) as [C|C|C].
    + rewrite (usize_sub_ok t (n / 2)), (usize_sub_ok t k) in Hp, Hq by lia. cbn [bind] in Hp, Hq. step Hp. step Hp. step Hq. step Hq. apply ok_inj in Hp; subst p. apply ok_inj in Hq; subst q.
      split; cbn [fst snd].
      * destruct (thetas _ _ _ _ _ T1 E E1) as [R B]. apply mirror_near; assumption.
      * refine (weights_close EVEN_WEIGHTS n (n / 2 - 1) (k - n / 2) _ _ _ _ _ E0 E2); [|lia|lia]. replace (n - 2 * (n / 2 - 1))%Z with 2%Z by lia. exact T3.
    + rewrite !(usize_sub_ok t (n / 2)) in Hp, Hq by lia. cbn [bind] in Hp, Hq. step Hp. step Hp. step Hp. cbn [bind] in Hq. step Hq. step Hq. apply ok_inj in Hp; subst p. apply ok_inj in Hq; subst q.
      split; cbn [fst snd].
      * destruct (thetas _ _ _ _ _ T1 E0 E2) as [R B]. apply theta_near; assumption.
      * refine (weights_close EVEN_WEIGHTS n (n / 2 - 1) x _ _ _ _ _ E1 E3); [|lia|lia]. replace (n - 2 * (n / 2 - 1))%Z with 2%Z by lia. exact T3.
    + rewrite (usize_sub_ok t (n / 2)), (usize_sub_ok t k) in Hp, Hq by lia. cbn [bind] in Hp, Hq. step Hp. step Hp. step Hq. step Hq. apply ok_inj in Hp; subst p. apply ok_inj in Hq; subst q.
      split; cbn [fst snd].
      * destruct (thetas _ _ _ _ _ T1 E E1) as [R B]. apply mirror_near; assumption.
      * refine (weights_close EVEN_WEIGHTS n (n / 2 - 1) (k - n / 2) _ _ _ _ _ E0 E2); [|lia|lia]. replace (n - 2 * (n / 2 - 1))%Z with 2%Z by lia. exact T3.
Qed.

(** from angles to nodes *)
Lemma cos_close : forall (x : A) th d, ffin x -> 0 <= fval x <= 4 -> Rabs (fval x - th) <= d -> ffin (ncos x : A) /\ Rabs (fval (ncos x : A) - cos th) <= kappa + d + eta.
Proof.
  intros x th d F X H. destruct (proj2 HT x F X) as [[C1 C2] _]. rewrite eta_bpow in C2. pose proof (kappa_pos be kappa HT) as K. split; [exact C1|].
  replace (fval (ncos x : A) - cos th) with ((fval (be_cos be x) - cos (fval x)) + (cos (fval x) - cos th)) by (cbn; ring).
  eapply Rle_trans; [apply Rabs_triang|]. pose proof (cos_lipschitz (fval x) th) as L.
  assert (B : Rabs (cos (fval x)) <= 1) by (apply Rabs_le; apply COS_bound). pose proof (Rabs_pos (cos (fval x))).
  assert (kappa * Rabs (cos (fval x)) <= kappa * 1) by (apply Rmult_le_compat_l; lra). lra.
Qed.
Lemma close_at_cos : forall dt dw (p : A * A) (q : R * R), angle_close dt dw p q -> close_pair be (kappa + dt + eta) dw (at_cos p) (@at_cos RA q).
Proof. intros dt dw p q [(F1 & B & H1) H2]. split; cbn [at_cos fst snd]; [|exact H2]. apply cos_close; assumption. Qed.
Lemma close_pair_mono : forall dx dw dx' dw' (p : A * A) q, close_pair be dx dw p q -> dx <= dx' -> dw <= dw' -> close_pair be dx' dw' p q.
Proof. intros dx dw dx' dw' p q [[F1 H1] [F2 H2]] L1 L2. split; (split; [assumption|lra]). Qed.
Lemma forall2_rev : forall X Y (P : X -> Y -> Prop) l m, Forall2 P l m -> Forall2 P (rev l) (rev m).
Proof.
  intros X Y P l m H. induction H as [|x y l m H1 H2 IH]; [constructor|]. cbn [rev]. apply Forall2_app; [exact IH|]. constructor; [exact H1|constructor].
Qed.
Lemma tabulated_rule_close : forall t n (r : GaussLegendre A) (q : GaussLegendre RA), (100 <= usize_max t)%Z -> (1 <= n <= 100)%Z -> (2 * n <= usize_max t)%Z ->
  legendre_new t n = Ok r -> legendre_new t n = Ok q -> close_pairs (kappa + 8 / 10 ^ 16) (2 / 10 ^ 15 / IZR n) (legendre_pairs r) (legendre_pairs q).
Proof.
  intros t n r q Hu Hn H2 Hr Hq. rewrite (legendre_list t n r) by (assumption || lia). rewrite (legendre_list t n q) by (assumption || lia).
  apply forall2_rev. apply (forall2_map nat (A * A) (R * R) (close_pair be (kappa + 8 / 10 ^ 16) (2 / 10 ^ 15 / IZR n))). intros i Hi. apply in_seq in Hi.
  pose proof (tw_ok (A := A) t n i Hu ltac:(lia) H2 ltac:(lia)) as E1. pose proof (tw_ok (A := RA) t n i Hu ltac:(lia) H2 ltac:(lia)) as E2.
  unfold theta_weight_pair in E1, E2. destruct (Z.leb_spec n 100); [|lia]. rewrite usize_sub_ok in E1, E2 by lia. cbn [bind] in E1, E2.
  pose proof (tabulated_close t n (1 + Z.of_nat i - 1) _ _ Hu Hn ltac:(lia) E1 E2) as C. apply close_at_cos in C. pose proof eta_num. eapply close_pair_mono; [exact C|lra|lra].
Qed.
End F.
