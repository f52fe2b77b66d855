(** The Chebyshev rules in double arithmetic: distance of the pairs to those in exact arithmetic. *)
From Coq Require Import Reals ZArith List Lra Lia Psatz.
From Flocq Require Import Core IEEE754.Binary.
From Verif Require Import Arith F64 F64Spec F64Proof RInst RInstProof Machine Rules Par Chebyshev SizeProof RoundSpec RoundProof InexactF64Rules LegBig AccF64 TrigSpec.
Import ListNotations.
Local Open Scope R_scope.

Lemma eta_bpow : bpow radix2 (-1075) = eta. Proof. reflexivity. Qed.
Lemma eta_num : 0 < eta <= 1 / 10 ^ 40.
Proof. split; [apply eta_pos|]. apply Rle_trans with (bpow radix2 (-140)); [apply bpow_le; lia|]. refine (Rle_trans _ _ _ (Req_le _ _ (bpow_opp radix2 140)) _). simpl. lra. Qed.

(** the weights of the second kind, over real numbers *)
Lemma weight_core : forall c ch s sh d, 0 < c <= 4 -> Rabs (ch - c) <= 265 / 10 ^ 18 * c -> Rabs s <= 1 -> Rabs (sh - s) <= d -> 0 <= d <= 2 / 10 ^ 6 -> eta <= 1 / 10 ^ 18 * c ->
  Rabs (ch * sh) <= 5 /\ Rabs (rnd (ch * sh) * sh) <= 5 /\ Rabs (rnd (rnd (ch * sh) * sh) - c * s * s) <= c * (21 / 10 * d + 6 / 10 ^ 16).
Proof.
  intros c ch s sh d C1 C2 S1 S2 D E. pose proof uro_num as U. pose proof eta_pos as Ep.
  assert (Sh : Rabs sh <= 1 + d). { replace sh with ((sh - s) + s) by ring. eapply Rle_trans; [apply Rabs_triang|]. lra. }
  assert (Ch : Rabs ch <= (1 + 265 / 10 ^ 18) * c). { replace ch with ((ch - c) + c) by ring. eapply Rle_trans; [apply Rabs_triang|]. rewrite (Rabs_pos_eq c) by lra. lra. }
  pose proof (Rabs_pos sh) as Ps. pose proof (Rabs_pos ch) as Pc. pose proof (Rabs_pos s) as Pss.
  assert (P0 : Rabs (ch * sh) <= 100001 / 100000 * c).
  { rewrite Rabs_mult. apply Rle_trans with ((1 + 265 / 10 ^ 18) * c * (1 + d)); [apply Rmult_le_compat; lra|]. nra. }
  assert (P1 : Rabs (ch * sh - c * s) <= c * (d + 270 / 10 ^ 18)).
  { replace (ch * sh - c * s) with ((ch - c) * sh + c * (sh - s)) by ring. eapply Rle_trans; [apply Rabs_triang|]. rewrite !Rabs_mult, (Rabs_pos_eq c) by lra.
    assert (Rabs (ch - c) * Rabs sh <= 265 / 10 ^ 18 * c * (1 + d)) by (apply Rmult_le_compat; try lra; apply Rabs_pos).
    assert (c * Rabs (sh - s) <= c * d) by (apply Rmult_le_compat_l; lra). nra. }
  pose proof (rnd_err (ch * sh)) as R1.
  assert (U1 : uro * Rabs (ch * sh) <= 112 / 10 ^ 18 * c). { apply Rle_trans with (1111 / 10 ^ 19 * (100001 / 100000 * c)); [apply Rmult_le_compat; try lra; apply Rabs_pos|lra]. }
  set (p := rnd (ch * sh)) in *.
  assert (P2 : Rabs (p - c * s) <= c * (d + 384 / 10 ^ 18)).
  { replace (p - c * s) with ((p - ch * sh) + (ch * sh - c * s)) by ring. eapply Rle_trans; [apply Rabs_triang|]. lra. }
  assert (P3 : Rabs p <= 100002 / 100000 * c).
  { replace p with ((p - ch * sh) + ch * sh) by ring. eapply Rle_trans; [apply Rabs_triang|]. lra. }
  assert (P4 : Rabs (p * sh) <= 100003 / 100000 * c).
  { rewrite Rabs_mult. apply Rle_trans with (100002 / 100000 * c * (1 + d)); [apply Rmult_le_compat; try lra; apply Rabs_pos|]. nra. }
  assert (P5 : Rabs (p * sh - c * s * s) <= c * (20001 / 10000 * d + 385 / 10 ^ 18)).
  { replace (p * sh - c * s * s) with ((p - c * s) * sh + c * s * (sh - s)) by ring. eapply Rle_trans; [apply Rabs_triang|]. rewrite !Rabs_mult, (Rabs_pos_eq c) by lra.
    assert (Rabs (p - c * s) * Rabs sh <= c * (d + 384 / 10 ^ 18) * (1 + d)) by (apply Rmult_le_compat; try lra; apply Rabs_pos).
    assert (c * Rabs s * Rabs (sh - s) <= c * 1 * d).
    { apply Rmult_le_compat; try lra; [apply Rmult_le_pos; lra|apply Rabs_pos|apply Rmult_le_compat_l; lra]. }
    assert (c * (d + 384 / 10 ^ 18) * (1 + d) <= c * (d + 384 / 10 ^ 18) * (1 + 2 / 10 ^ 6)) by (apply Rmult_le_compat_l; [apply Rmult_le_pos; lra|lra]).
    nra. }
  pose proof (rnd_err (p * sh)) as R2.
  assert (U2 : uro * Rabs (p * sh) <= 112 / 10 ^ 18 * c). { apply Rle_trans with (1111 / 10 ^ 19 * (100003 / 100000 * c)); [apply Rmult_le_compat; try lra; apply Rabs_pos|lra]. }
  split; [lra|]. split; [lra|].
  replace (rnd (p * sh) - c * s * s) with ((rnd (p * sh) - p * sh) + (p * sh - c * s * s)) by ring. eapply Rle_trans; [apply Rabs_triang|]. nra.
Qed.

Section F.
Variables (be : Backend) (kappa : R).
Notation A := (F64 be).
Hypothesis HT : accurate_trig be kappa.

Lemma kappa_pos : 0 <= kappa <= 1 / 10 ^ 6. Proof. apply HT. Qed.
(** cosine and sine of a perturbed angle *)
Lemma trig_close : forall (x : A) th d, rel x th d -> 0 <= th <= PI -> 0 <= d <= 1 / 10 ^ 3 ->
  (ffin (ncos x : A) /\ Rabs (fval (ncos x : A) - cos th) <= kappa + d * th + eta) /\
  (ffin (nsin x : A) /\ Rabs (fval (nsin x : A) - sin th) <= kappa + d * th + eta).
Proof.
  intros x th d [F H] Hth Hd. pose proof kappa_pos as K. pose proof PI_hi30 as P. rewrite (Rabs_pos_eq th) in H by lra.
  assert (dth : d * th <= 1 / 10 ^ 3 * th) by (apply Rmult_le_compat_r; lra).
  assert (X : 0 <= fval x <= 4). { assert (X1 := Rle_abs (fval x - th)). assert (X2 := Rle_abs (- (fval x - th))). rewrite Rabs_Ropp in X2. lra. }
  destruct (proj2 HT x F X) as [[C1 C2] [S1 S2]]. rewrite eta_bpow in C2, S2. split; (split; [assumption|]).
  - replace (fval (ncos x : A) - cos th) with ((fval (be_cos be x) - cos (fval x)) + (cos (fval x) - cos th)) by (cbn; ring).
    eapply Rle_trans; [apply Rabs_triang|]. pose proof (cos_lipschitz (fval x) th) as L.
    assert (B : Rabs (cos (fval x)) <= 1) by (apply Rabs_le; apply COS_bound). pose proof (Rabs_pos (cos (fval x))).
    assert (kappa * Rabs (cos (fval x)) <= kappa * 1) by (apply Rmult_le_compat_l; lra). lra.
  - replace (fval (nsin x : A) - sin th) with ((fval (be_sin be x) - sin (fval x)) + (sin (fval x) - sin th)) by (cbn; ring).
    eapply Rle_trans; [apply Rabs_triang|]. pose proof (sin_lipschitz (fval x) th) as L.
    assert (B : Rabs (sin (fval x)) <= 1) by (apply Rabs_le; apply SIN_bound). pose proof (Rabs_pos (sin (fval x))).
    assert (kappa * Rabs (sin (fval x)) <= kappa * 1) by (apply Rmult_le_compat_l; lra). lra.
Qed.

Lemma mid_pos : forall v, / 2 ^ 100 <= v <= 2 ^ 100 -> mid v.
Proof. intros v H. apply mid_range. rewrite Rabs_pos_eq; [exact H|]. assert (0 < / 2 ^ 100) by (apply Rinv_0_lt_compat; lra). lra. Qed.
Lemma p53 : IZR (2 ^ 53) = 9007199254740992. Proof. reflexivity. Qed.
Lemma mid_int : forall z, (1 <= z <= 2 ^ 60)%Z -> mid (IZR z).
Proof.
  intros z H. apply mid_pos. assert (1 <= IZR z) by (apply IZR_le; lia). assert (IZR z <= IZR (2 ^ 60)) by (apply IZR_le; lia).
  change (IZR (2 ^ 60)) with 1152921504606846976 in *. lra.
Qed.
Lemma mid_pi : mid PI. Proof. apply mid_pos. pose proof PI_lo30. pose proof PI_hi30. lra. Qed.
Lemma npi_rel : rel (npi : A) PI (4 / 10 ^ 17). Proof. exact rel_pi. Qed.
Lemma lit2_rel : rel (lit2 : A) 2 0. Proof. exact (rel_int 2 ltac:(lia)). Qed.
Lemma lit1_rel : rel (lit1 : A) 1 0. Proof. exact (rel_int 1 ltac:(lia)). Qed.

Lemma odd_rel : forall i, (1 <= i <= 2 ^ 52)%Z -> rel (nsub (nmul lit2 (nofZ i)) lit1 : A) (IZR (2 * i - 1)) 0.
Proof.
  intros i Hi. assert (E2 : fval (f64_lit 2 0) = 2) by apply (lit_int_exact 2 ltac:(lia)). assert (F2 : ffin (f64_lit 2 0)) by apply (lit_int_exact 2 ltac:(lia)).
  assert (E1 : fval (f64_lit 1 0) = 1) by apply (lit_int_exact 1 ltac:(lia)). assert (F1 : ffin (f64_lit 1 0)) by apply (lit_int_exact 1 ltac:(lia)).
  destruct (ofZ_exact i ltac:(lia)) as [Fi Ei].
  assert (P1 : fval (f64_lit 2 0) * fval (f64_of_Z i) = IZR (2 * i)) by (rewrite E2, Ei, mult_IZR; reflexivity).
  destruct (mul_finite be (f64_lit 2 0) (f64_of_Z i) F2 Fi) as [F3 E3].
  { rewrite P1. apply no_overflow_small, abs_IZR_bound. lia. }
  rewrite P1, rnd_IZR in E3 by lia.
  assert (P2 : fval (nmul (a := A) (f64_lit 2 0) (f64_of_Z i)) - fval (f64_lit 1 0) = IZR (2 * i - 1)) by (rewrite E3, E1, minus_IZR; reflexivity).
  destruct (sub_finite be (nmul (a := A) (f64_lit 2 0) (f64_of_Z i)) (f64_lit 1 0) F3 F1) as [F4 E4].
  { rewrite P2. apply no_overflow_small, abs_IZR_bound. lia. }
  rewrite P2, rnd_IZR in E4 by lia. rewrite <- E4. apply rel_exact. exact F4.
Qed.
Lemma double_rel : forall n, (1 <= n <= 2 ^ 52)%Z -> rel (nmul lit2 (nofZ n) : A) (IZR (2 * n)) 0.
Proof.
  intros n Hn. assert (E2 : fval (f64_lit 2 0) = 2) by apply (lit_int_exact 2 ltac:(lia)). assert (F2 : ffin (f64_lit 2 0)) by apply (lit_int_exact 2 ltac:(lia)).
  destruct (ofZ_exact n ltac:(lia)) as [Fi Ei].
  assert (P1 : fval (f64_lit 2 0) * fval (f64_of_Z n) = IZR (2 * n)) by (rewrite E2, Ei, mult_IZR; reflexivity).
  destruct (mul_finite be (f64_lit 2 0) (f64_of_Z n) F2 Fi) as [F3 E3].
  { rewrite P1. apply no_overflow_small, abs_IZR_bound. lia. }
  rewrite P1, rnd_IZR in E3 by lia. rewrite <- E3. apply rel_exact, F3.
Qed.
Lemma succ_rel : forall n, (1 <= n < 2 ^ 53)%Z -> rel (nadd (nofZ n) lit1 : A) (IZR (n + 1)) 0.
Proof.
  intros n Hn. assert (E1 : fval (f64_lit 1 0) = 1) by apply (lit_int_exact 1 ltac:(lia)). assert (F1 : ffin (f64_lit 1 0)) by apply (lit_int_exact 1 ltac:(lia)).
  destruct (ofZ_exact n ltac:(lia)) as [Fi Ei].
  assert (P1 : fval (f64_of_Z n) + fval (f64_lit 1 0) = IZR (n + 1)) by (rewrite E1, Ei, plus_IZR; reflexivity).
  destruct (add_finite be (f64_of_Z n) (f64_lit 1 0) Fi F1) as [F3 E3].
  { rewrite P1. apply no_overflow_small, abs_IZR_bound. lia. }
  rewrite P1, rnd_IZR in E3 by lia. rewrite <- E3. apply rel_exact, F3.
Qed.

Definition close_pair (dx dw : R) (p : A * A) (q : R * R) : Prop :=
  (ffin (fst p) /\ Rabs (fval (fst p) - fst q) <= dx) /\ (ffin (snd p) /\ Rabs (fval (snd p) - snd q) <= dw).

Lemma cheb1_close : forall n i, (1 <= n <= 2 ^ 52)%Z -> (1 <= i <= n)%Z ->
  close_pair (kappa + 1 / 10 ^ 15) (5 / 10 ^ 16 / IZR n) (chebyshev1_pair (nofZ n) i) (@chebyshev1_pair RA (nofZ n) i).
Proof.
  intros n i Hn Hi. pose proof uro_num as U. pose proof PI_lo30 as PL. pose proof PI_hi30 as PU. pose proof kappa_pos as K. pose proof eta_num as Et.
  assert (N : 1 <= IZR n <= IZR (2 ^ 52)) by (split; apply IZR_le; lia). change (IZR (2 ^ 52)) with 4503599627370496 in N.
  assert (I1 : 1 <= IZR i) by (apply IZR_le; lia). assert (I2 : IZR i <= IZR n) by (apply IZR_le; lia).
  assert (Q : IZR (2 * i - 1) = 2 * IZR i - 1) by (rewrite minus_IZR, mult_IZR; reflexivity). assert (Q2 : IZR (2 * n) = 2 * IZR n) by (rewrite mult_IZR; reflexivity).
  assert (M1 : mid (PI * IZR (2 * i - 1))). { apply mid_pos. rewrite Q. nra. }
  pose proof (rel_mul be _ _ _ _ _ _ npi_rel (odd_rel i ltac:(lia)) mid_pi (mid_int (2 * i - 1) ltac:(lia)) ltac:(lra) ltac:(lra)) as R1.
  apply (rel_weaken _ _ _ (152 / 10 ^ 18)) in R1; [|nra].
  pose proof (rel_div be _ _ _ _ _ _ R1 (double_rel n Hn) M1 (mid_int (2 * n) ltac:(lia)) ltac:(lra) ltac:(lra)) as R2.
  apply (rel_weaken _ _ _ (265 / 10 ^ 18)) in R2; [|rewrite Rminus_0_r; unfold Rdiv; rewrite Rinv_1; nra].
  pose proof (rel_div be _ _ _ _ _ _ npi_rel (rel_ofZ n ltac:(lia)) mid_pi (mid_int n ltac:(lia)) ltac:(lra) ltac:(lra)) as R3.
  apply (rel_weaken _ _ _ (152 / 10 ^ 18)) in R3; [|rewrite Rminus_0_r; unfold Rdiv; rewrite Rinv_1; nra].
  set (th := PI * IZR (2 * i - 1) / IZR (2 * n)) in *.
  assert (TH : 0 <= th <= PI).
  { unfold th. rewrite Q, Q2. split; [apply Rmult_le_pos; [nra|left; apply Rinv_0_lt_compat; lra]|].
    apply (Rmult_le_reg_r (2 * IZR n)); [lra|]. unfold Rdiv. rewrite Rmult_assoc, Rinv_l by lra. nra. }
  destruct (trig_close _ _ _ R2 TH ltac:(lra)) as [[C1 C2] _]. unfold close_pair, chebyshev1_pair. cbn [fst snd]. split; (split; [first [exact C1|apply R3]|]).
  - ra_simpl. ra_lits. rewrite <- Q, <- Q2. fold th. eapply Rle_trans; [exact C2|]. nra.
  - destruct R3 as [_ R3]. ra_simpl. eapply Rle_trans; [exact R3|]. unfold Rdiv at 2. rewrite Rabs_mult, (Rabs_pos_eq PI), (Rabs_pos_eq (/ IZR n)) by (try lra; left; apply Rinv_0_lt_compat; lra).
    unfold Rdiv at 2. rewrite <- Rmult_assoc. apply Rmult_le_compat_r; [left; apply Rinv_0_lt_compat; lra|]. lra.
Qed.
Lemma cheb2_close : forall n i, (1 <= n < 2 ^ 53)%Z -> (1 <= i <= n)%Z ->
  close_pair (kappa + 12 / 10 ^ 16) ((7 * kappa + 1 / 10 ^ 14) / IZR n) (chebyshev2_pair (nofZ n) i) (@chebyshev2_pair RA (nofZ n) i).
Proof.
  intros n i Hn Hi. pose proof uro_num as U. pose proof PI_lo30 as PL. pose proof PI_hi30 as PU. pose proof kappa_pos as K. pose proof eta_num as Et.
  assert (N : 1 <= IZR n <= IZR (2 ^ 53)) by (split; apply IZR_le; lia). rewrite p53 in N.
  assert (I1 : 1 <= IZR i) by (apply IZR_le; lia). assert (I2 : IZR i <= IZR n) by (apply IZR_le; lia).
  assert (Q : IZR (n + 1) = IZR n + 1) by (rewrite plus_IZR; reflexivity).
  assert (V : 0 < / IZR (n + 1) <= 1 /\ / IZR (n + 1) * IZR (n + 1) = 1 /\ / IZR (n + 1) <= / IZR n /\ / 10000000000000000 <= / IZR (n + 1)).
  { rewrite Q. split; [split; [apply Rinv_0_lt_compat; lra|rewrite <- Rinv_1; apply Rinv_le_contravar; lra]|]. split; [apply Rinv_l; lra|]. split; apply Rinv_le_contravar; lra. }
  destruct V as (V1 & V2 & V3 & V4).
  assert (M0 : mid (1 / IZR (n + 1))). { apply mid_pos. unfold Rdiv. rewrite Rmult_1_l. split; [|lra]. eapply Rle_trans; [|exact V4]. apply Rinv_le_contravar; lra. }
  assert (M1 : mid (PI * IZR i)). { apply mid_pos. nra. }
  pose proof (rel_div be _ _ _ _ _ _ lit1_rel (succ_rel n Hn) (mid_int 1 ltac:(lia)) (mid_int (n + 1) ltac:(lia)) ltac:(lra) ltac:(lra)) as R0.
  apply (rel_weaken _ _ _ uro) in R0; [|rewrite Rminus_0_r; unfold Rdiv; rewrite Rinv_1; nra].
  pose proof (rel_mul be _ _ _ _ _ _ npi_rel (rel_ofZ i ltac:(lia)) mid_pi (mid_int i ltac:(lia)) ltac:(lra) ltac:(lra)) as R1.
  apply (rel_weaken _ _ _ (152 / 10 ^ 18)) in R1; [|nra].
  pose proof (rel_mul be _ _ _ _ _ _ R1 R0 M1 M0 ltac:(lra) ltac:(lra)) as R2.
  apply (rel_weaken _ _ _ (375 / 10 ^ 18)) in R2; [|nra].
  pose proof (rel_mul be _ _ _ _ _ _ npi_rel R0 mid_pi M0 ltac:(lra) ltac:(lra)) as R3.
  apply (rel_weaken _ _ _ (265 / 10 ^ 18)) in R3; [|nra].
  set (th := PI * IZR i * (1 / IZR (n + 1))) in *.
  assert (TH : 0 <= th <= PI).
  { unfold th, Rdiv. rewrite Rmult_1_l, Rmult_assoc. assert (0 <= IZR i * / IZR (n + 1) <= 1); [|nra].
    split; [apply Rmult_le_pos; lra|]. rewrite <- V2, Rmult_comm. apply Rmult_le_compat_l; lra. }
  destruct (trig_close _ _ _ R2 TH ltac:(lra)) as [[C1 C2] [S1 S2]].
  set (ov := ndiv lit1 (nadd (nofZ n) lit1) : A) in *.
  set (x := nmul (nmul npi (nofZ i)) ov : A) in *. set (c := PI * (1 / IZR (n + 1))) in *.
  assert (C : 0 < c <= 4 /\ c <= PI * / IZR n /\ eta <= 1 / 10 ^ 18 * c).
  { unfold c, Rdiv. rewrite Rmult_1_l. assert (X : 3 / 10 ^ 16 <= PI * / IZR (n + 1)) by nra. split; [nra|]. split; [apply Rmult_le_compat_l; lra|]. lra. }
  destruct C as (C0 & CN & CE). destruct R3 as [F3 R3]. rewrite (Rabs_pos_eq c) in R3 by lra.
  assert (Bs : Rabs (sin th) <= 1) by (apply Rabs_le; apply SIN_bound).
  set (dd := kappa + 119 / 10 ^ 17).
  assert (S3 : Rabs (fval (nsin x : A) - sin th) <= dd). { eapply Rle_trans; [exact S2|]. unfold dd. nra. }
  destruct (weight_core c (fval (nmul npi ov : A)) (sin th) (fval (nsin x : A)) dd C0 R3 Bs S3 ltac:(unfold dd; lra) CE) as (W1 & W2 & W3).
  assert (B5 : 5 <= bpow radix2 1023). { apply Rle_trans with (bpow radix2 3); [simpl; lra|apply bpow_le; lia]. }
  destruct (mul_finite be (nmul npi ov : A) (nsin x : A) F3 S1) as [F4 E4]; [apply no_overflow_small; lra|].
  destruct (mul_finite be (nmul (nmul npi ov) (nsin x) : A) (nsin x : A) F4 S1) as [F5 E5]; [rewrite E4; apply no_overflow_small; lra|].
  unfold close_pair, chebyshev2_pair. cbn [fst snd]. split; (split; [first [exact C1|exact F5]|]).
  - ra_simpl. ra_lits. rewrite <- Q. fold th. eapply Rle_trans; [exact C2|]. nra.
  - ra_simpl. ra_lits. rewrite <- Q. fold th. fold c. 
    refine (eq_ind_r (fun z => Rabs (z - _) <= _) _ E5). rewrite E4. eapply Rle_trans; [exact W3|].
    apply Rle_trans with ((PI * / IZR n) * (21 / 10 * dd + 6 / 10 ^ 16)); [apply Rmult_le_compat_r; [unfold dd; lra|exact CN]|].
    unfold Rdiv at 3. replace (PI * / IZR n * (21 / 10 * dd + 6 / 10 ^ 16)) with (PI * (21 / 10 * dd + 6 / 10 ^ 16) * / IZR n) by ring.
    apply Rmult_le_compat_r; [lra|]. unfold dd. nra.
Qed.

Lemma in_zrange : forall lo hi z, In z (rev (zrange lo hi)) -> (lo <= z < hi)%Z.
Proof. intros lo hi z H. apply in_rev in H. unfold zrange in H. apply in_map_iff in H. destruct H as (k & E & H). apply in_seq in H. lia. Qed.
Lemma forall2_map : forall X Y Z (P : Y -> Z -> Prop) (f : X -> Y) (g : X -> Z) l, (forall x, In x l -> P (f x) (g x)) -> Forall2 P (map f l) (map g l).
Proof. intros X Y Z P f g l H. induction l as [|x l IH]; [constructor|]. constructor; [apply H; left; reflexivity|]. apply IH. intros y Hy. apply H. right. exact Hy. Qed.
Lemma chebyshev1_rule_close : forall t n (r : GaussChebyshevFirstKind A) (q : GaussChebyshevFirstKind RA), (1 <= n <= 2 ^ 52)%Z -> (n < usize_max t)%Z ->
  chebyshev1_new t n = Ok r -> chebyshev1_new t n = Ok q -> close_pairs (kappa + 1 / 10 ^ 15) (5 / 10 ^ 16 / IZR n) (chebyshev1_pairs r) (chebyshev1_pairs q).
Proof.
  intros t n r q Hn Hu Hr Hq. unfold chebyshev1_new in Hr, Hq. rewrite usize_add_ok in Hr, Hq by lia. cbn [bind] in Hr, Hq. injection Hr as <-. injection Hq as <-. cbn [chebyshev1_pairs].
  apply (forall2_map Z (A * A) (R * R) (close_pair (kappa + 1 / 10 ^ 15) (5 / 10 ^ 16 / IZR n))). intros i Hi. apply in_zrange in Hi. apply cheb1_close; lia.
Qed.
Lemma chebyshev2_rule_close : forall t n (r : GaussChebyshevSecondKind A) (q : GaussChebyshevSecondKind RA), (1 <= n < 2 ^ 53)%Z -> (n < usize_max t)%Z ->
  chebyshev2_new t n = Ok r -> chebyshev2_new t n = Ok q -> close_pairs (kappa + 12 / 10 ^ 16) ((7 * kappa + 1 / 10 ^ 14) / IZR n) (chebyshev2_pairs r) (chebyshev2_pairs q).
Proof.
  intros t n r q Hn Hu Hr Hq. unfold chebyshev2_new in Hr, Hq. rewrite usize_add_ok in Hr, Hq by lia. cbn [bind] in Hr, Hq. injection Hr as <-. injection Hq as <-. cbn [chebyshev2_pairs].
  apply (forall2_map Z (A * A) (R * R) (close_pair (kappa + 12 / 10 ^ 16) ((7 * kappa + 1 / 10 ^ 14) / IZR n))). intros i Hi. apply in_zrange in Hi. apply cheb2_close; lia.
Qed.
End F.
