(** Newton-Cotes rules in double arithmetic: distance to the rule in exact arithmetic. *)
From Coq Require Import Reals ZArith List Lra Lia Psatz.
From Flocq Require Import Core Mult_error Relative IEEE754.Binary.
From Verif Require Import Arith F64 F64Spec F64Proof RSum RInst RInstProof Machine Iter Rules Par NewtonCotes
  IntegrateSpec IntegrateProof NCSpec NCReal TraceProof RoundSpec RoundProof RoundRules RoundNC RoundExamples InsideSpec InsideProof LegMom NCFloatSpec.
Import ListNotations.
Local Open Scope R_scope.

Lemma uro_tiny : 0 < uro <= / 9007199254740992. Proof. rewrite uro_val. lra. Qed.

Section Step.
Variables (n : Z) (a b : R).
Hypothesis Hn : (1 <= n < 2 ^ 32)%Z.
Hypothesis Fa : fmt a.
Hypothesis Fb : fmt b.
Hypothesis W : wide n a b.
Let D := b - a.
Let d := rnd D.
Let h := rnd (d / IZR n).
Let K := Rabs D / IZR n.
Lemma K_pos : 0 <= K. Proof. pose proof (n_real n Hn). unfold K. apply Rmult_le_pos; [apply Rabs_pos|left; apply Rinv_0_lt_compat; lra]. Qed.
Lemma K_n : K * IZR n = Rabs D. Proof. pose proof (n_real n Hn). unfold K. field. lra. Qed.
Lemma K_le : K <= Rabs D. Proof. pose proof (n_real n Hn). pose proof K_pos. pose proof K_n. nra. Qed.
Lemma h_size : Rabs h <= 1001 / 1000 * K /\ (h = 0 \/ eta <= uro * (1001 / 1000 * K)) /\ Rabs (h - D / IZR n) <= 4 * uro * K.
Proof.
  pose proof (n_real n Hn) as N. pose proof uro_tiny as U. pose proof K_pos as PK.
  destruct (h_cases n a b Hn Fa Fb W) as [[ED Eh]|[H1 H2]].
  - change (D = 0) in ED. change (h = 0) in Eh. assert (EK : K = 0) by (unfold K; rewrite ED, Rabs_R0; unfold Rdiv; ring).
    rewrite Eh, EK, ED, Rabs_R0. split; [lra|]. split; [left; reflexivity|]. unfold Rdiv. rewrite Rmult_0_l, Rminus_0_r, Rabs_R0. lra.
  - change (bpow radix2 (-1022) <= Rabs h) in H1. change ((1 - uro) * Rabs h <= (1 + uro) ^ 2 * K) in H2. assert (HK : Rabs h <= 1001 / 1000 * K).
    { assert (U2 : (1 + uro) ^ 2 <= (1 - uro) * (1001 / 1000)) by nra. apply (Rmult_le_reg_l (1 - uro)); [lra|].
      eapply Rle_trans; [exact H2|]. rewrite <- Rmult_assoc. apply Rmult_le_compat_r; assumption. }
    assert (ET : eta <= uro * Rabs h).
    { unfold eta, uro. replace (bpow radix2 (-1075)) with (bpow radix2 (-53) * bpow radix2 (-1022)) by (rewrite <- bpow_plus; reflexivity). apply Rmult_le_compat_l; [apply bpow_ge_0|exact H1]. }
    split; [exact HK|]. split; [right; nra|].
    pose proof (rnd_add_err b (- a) Fb (generic_format_opp _ _ _ Fa)) as R1. change (b + - a) with D in R1. fold d in R1.
    pose proof (rnd_err (d / IZR n)) as R2. fold h in R2.
    assert (Q1 : Rabs (d / IZR n) <= (1 + uro) * K).
    { unfold K, Rdiv. rewrite Rabs_mult, (Rabs_pos_eq (/ IZR n)) by (left; apply Rinv_0_lt_compat; lra). rewrite <- Rmult_assoc. apply Rmult_le_compat_r; [left; apply Rinv_0_lt_compat; lra|apply (d_upper a b Fa Fb)]. }
    assert (Q2 : Rabs (d / IZR n - D / IZR n) <= uro * K).
    { replace (d / IZR n - D / IZR n) with ((d - D) * / IZR n) by (field; lra). unfold K, Rdiv. rewrite Rabs_mult, (Rabs_pos_eq (/ IZR n)) by (left; apply Rinv_0_lt_compat; lra).
      rewrite <- Rmult_assoc. apply Rmult_le_compat_r; [left; apply Rinv_0_lt_compat; lra|exact R1]. }
    replace (h - D / IZR n) with ((h - d / IZR n) + (d / IZR n - D / IZR n)) by ring. eapply Rle_trans; [apply Rabs_triang|].
    assert (uro * Rabs (d / IZR n) <= uro * ((1 + uro) * K)) by (apply Rmult_le_compat_l; lra). assert (uro * Rabs h <= uro * (1001 / 1000 * K)) by (apply Rmult_le_compat_l; lra).
    assert (uro * ((1 + uro) * K) <= uro * (1001 / 1000 * K)) by (apply Rmult_le_compat_l; [lra|apply Rmult_le_compat_r; lra]). nra.
Qed.
Lemma prod_close : forall q, 0 <= q -> Rabs (rnd (h * q) - D / IZR n * q) <= uro * (1001 / 1000 * K) * (q + 1) + 4 * uro * K * q.
Proof.
  intros q Hq. pose proof uro_tiny as U. pose proof K_pos as PK. destruct h_size as (H1 & H2 & H3).
  assert (R1 : Rabs (rnd (h * q) - h * q) <= uro * (1001 / 1000 * K) * (q + 1)).
  { destruct H2 as [E|E].
    - rewrite E, Rmult_0_l. assert (Z : rnd 0 = 0) by (apply rnd_fmt, generic_format_0). rewrite Z, Rminus_0_r, Rabs_R0. apply Rmult_le_pos; [apply Rmult_le_pos; lra|lra].
    - eapply Rle_trans; [apply rnd_err|]. rewrite Rabs_mult, (Rabs_pos_eq q) by exact Hq. assert (Rabs h * q <= 1001 / 1000 * K * q) by (apply Rmult_le_compat_r; assumption). nra. }
  replace (rnd (h * q) - D / IZR n * q) with ((rnd (h * q) - h * q) + (h - D / IZR n) * q) by ring. eapply Rle_trans; [apply Rabs_triang|].
  rewrite (Rabs_mult _ q), (Rabs_pos_eq q) by exact Hq. assert (Rabs (h - D / IZR n) * q <= 4 * uro * K * q) by (apply Rmult_le_compat_r; assumption). lra.
Qed.
Definition wiggle := bpow radix2 (-50) * (Rabs a + Rabs b).
Lemma wiggle_val : wiggle = 8 * uro * (Rabs a + Rabs b).
Proof. unfold wiggle, uro. change 8 with (bpow radix2 3). rewrite <- bpow_plus. reflexivity. Qed.
Lemma D_le : Rabs D <= Rabs a + Rabs b.
Proof. unfold D, Rminus. eapply Rle_trans; [apply Rabs_triang|]. rewrite Rabs_Ropp. lra. Qed.
Lemma add_close : forall p p0, fmt p -> between a b (rnd (a + p)) -> Rabs (rnd (a + p) - (a + p0)) <= 1001 / 1000 * uro * (Rabs a + Rabs b) + Rabs (p - p0).
Proof.
  intros p p0 Fp B. pose proof uro_tiny as U. pose proof (rnd_add_err a p Fa Fp) as R.
  replace (rnd (a + p) - (a + p0)) with ((rnd (a + p) - (a + p)) + (p - p0)) by ring. eapply Rle_trans; [apply Rabs_triang|].
  assert (B1 : Rabs (rnd (a + p)) <= Rabs a + Rabs b) by (pose proof (Rabs_pos a); pose proof (Rabs_pos b); destruct (between_abs _ _ _ B); lra).
  assert (B2 : Rabs (a + p) <= Rabs (rnd (a + p)) + Rabs (rnd (a + p) - (a + p))).
  { replace (a + p) with (rnd (a + p) + - (rnd (a + p) - (a + p))) at 1 by ring. eapply Rle_trans; [apply Rabs_triang|]. rewrite Rabs_Ropp. lra. }
  assert (B3 : Rabs (a + p) <= 1001 / 1000 * (Rabs a + Rabs b)) by (pose proof (Rabs_pos (a + p)); nra).
  assert (uro * Rabs (a + p) <= uro * (1001 / 1000 * (Rabs a + Rabs b))) by (apply Rmult_le_compat_l; lra). lra.
Qed.
Lemma point_close : forall q, 0 <= q <= IZR n -> between a b (rnd (a + rnd (h * q))) -> Rabs (rnd (a + rnd (h * q)) - (a + D / IZR n * q)) <= wiggle.
Proof.
  intros q Hq B. pose proof (n_real n Hn) as N. pose proof uro_tiny as U. pose proof K_pos as PK. pose proof K_n as KN. pose proof K_le as KL. pose proof D_le as DL.
  eapply Rle_trans; [apply add_close; [apply rnd_format|exact B]|]. rewrite wiggle_val. pose proof (prod_close q (proj1 Hq)) as P.
  assert (Q : K * q <= Rabs D) by (rewrite <- KN; apply Rmult_le_compat_l; lra).
  set (M := Rabs a + Rabs b) in *. assert (uro * (1001 / 1000 * K) * (q + 1) + 4 * uro * K * q <= uro * (66 / 10 * M)).
  { replace (uro * (1001 / 1000 * K) * (q + 1) + 4 * uro * K * q) with (uro * (1001 / 1000 * (K * q) + 1001 / 1000 * K + 4 * (K * q))) by ring. apply Rmult_le_compat_l; lra. }
  nra.
Qed.
Lemma half_point_close : forall q, 0 <= q <= 2 * IZR n -> between a b (rnd (a + rnd (/ 2 * rnd (h * q)))) ->
  Rabs (rnd (a + rnd (/ 2 * rnd (h * q))) - (a + D / IZR n * (q / 2))) <= wiggle.
Proof.
  intros q Hq B. pose proof (n_real n Hn) as N. pose proof uro_tiny as U. pose proof K_pos as PK. pose proof K_n as KN. pose proof K_le as KL. pose proof D_le as DL.
  eapply Rle_trans; [apply add_close; [apply rnd_format|exact B]|]. rewrite wiggle_val. pose proof (prod_close q (proj1 Hq)) as P.
  assert (HE : Rabs (rnd (/ 2 * rnd (h * q)) - / 2 * rnd (h * q)) <= uro * (1001 / 1000 * K)).
  { destruct h_size as (_ & [E|E] & _).
    - rewrite E, Rmult_0_l. assert (Z : rnd 0 = 0) by (apply rnd_fmt, generic_format_0). rewrite Z, Rmult_0_r, Z, Rminus_0_r, Rabs_R0. apply Rmult_le_pos; lra.
    - eapply Rle_trans; [apply half_err, rnd_format|exact E]. }
  assert (T : Rabs (rnd (/ 2 * rnd (h * q)) - D / IZR n * (q / 2)) <= uro * (1001 / 1000 * K) + / 2 * Rabs (rnd (h * q) - D / IZR n * q)).
  { replace (rnd (/ 2 * rnd (h * q)) - D / IZR n * (q / 2)) with ((rnd (/ 2 * rnd (h * q)) - / 2 * rnd (h * q)) + / 2 * (rnd (h * q) - D / IZR n * q)) by (field; lra).
    eapply Rle_trans; [apply Rabs_triang|]. rewrite (Rabs_mult (/ 2)), (Rabs_pos_eq (/ 2)) by lra. lra. }
  assert (Q : K * (q / 2) <= Rabs D) by (rewrite <- KN; apply Rmult_le_compat_l; lra).
  set (M := Rabs a + Rabs b) in *. assert (uro * (1001 / 1000 * K) + / 2 * (uro * (1001 / 1000 * K) * (q + 1) + 4 * uro * K * q) <= uro * (66 / 10 * M)).
  { replace (uro * (1001 / 1000 * K) + / 2 * (uro * (1001 / 1000 * K) * (q + 1) + 4 * uro * K * q)) with
      (uro * (1001 / 1000 * (3 / 2) * K + 1001 / 1000 * (K * (q / 2)) + 4 * (K * (q / 2)))) by field. apply Rmult_le_compat_l; lra. }
  nra.
Qed.
(** the factor of Simpson's rule *)
Lemma sixth_close : Rabs (rnd (h / 6) - D / IZR n / 6) <= 12 * uro * (K / 6).
Proof.
  pose proof uro_tiny as U. pose proof K_pos as PK. destruct h_size as (H1 & H2 & H3).
  assert (R1 : Rabs (rnd (h / 6) - h / 6) <= uro * (1001 / 1000 * K) * (7 / 6)).
  { destruct H2 as [E|E].
    - rewrite E. unfold Rdiv. rewrite Rmult_0_l. assert (Z : rnd 0 = 0) by (apply rnd_fmt, generic_format_0). rewrite Z, Rminus_0_r, Rabs_R0. apply Rmult_le_pos; [apply Rmult_le_pos; lra|lra].
    - eapply Rle_trans; [apply rnd_err|]. unfold Rdiv at 1. rewrite Rabs_mult, (Rabs_pos_eq (/ 6)) by lra. nra. }
  replace (rnd (h / 6) - D / IZR n / 6) with ((rnd (h / 6) - h / 6) + / 6 * (h - D / IZR n)) by (field; pose proof (n_real n Hn); lra).
  eapply Rle_trans; [apply Rabs_triang|]. rewrite (Rabs_mult (/ 6)), (Rabs_pos_eq (/ 6)) by lra. nra.
Qed.
End Step.

(** the last step, over real numbers *)
Lemma finish : forall (n : Z) (m : nat) (r c c0 S S0 Sa C Dabs P T k : R), (1 <= n < 2 ^ 32)%Z -> (m <= Z.to_nat n + 4)%nat -> 0 <= k <= (1 + uro) ^ 2 ->
  0 <= P -> 0 <= C -> Rabs c0 * C = Dabs -> Rabs c0 <= Dabs -> Rabs (c - c0) <= 12 * uro * Rabs c0 -> Rabs S <= Sa -> Sa <= C * P -> Rabs (S - S0) <= C * T ->
  Rabs (r - c * S) <= rule_bound m k c Sa ->
  Rabs (r - c0 * S0) <= Dabs * T + (IZR n + 8) * bpow radix2 (-52) * (Dabs * P) + (1 + Dabs) * bpow radix2 (-1074).
Proof.
  intros n m r c c0 S S0 Sa C Dabs P T k Hn Hm Hk HP HC E1 E2 Hc HS HSa HT HR. pose proof uro_tiny as U. pose proof eta_pos as Et.
  assert (N : 1 <= IZR n <= 4294967296) by (split; apply IZR_le; lia).
  assert (Em : INR m <= IZR n + 4). { replace (IZR n + 4) with (INR (Z.to_nat n + 4)) by (rewrite plus_INR, INR_IZR_INZ, Z2Nat.id by lia; simpl; lra). apply le_INR, Hm. }
  pose proof (pos_INR m) as Pm.
  assert (G : (1 + uro) ^ m - 1 <= 102 / 100 * ((IZR n + 4) * uro)).
  { eapply Rle_trans; [apply bound_size|apply Rmult_le_compat_l; [lra|apply Rmult_le_compat_r; lra]]. nra. }
  assert (G0 : 0 <= (1 + uro) ^ m - 1) by (pose proof (pow_R1_Rle (1 + uro) m ltac:(lra)); lra).
  assert (Hca : Rabs c <= (1 + 12 * uro) * Rabs c0). { replace c with ((c - c0) + c0) at 1 by ring. eapply Rle_trans; [apply Rabs_triang|]. lra. }
  pose proof (Rabs_pos c0) as Pc0. pose proof (Rabs_pos c) as Pc. pose proof (Rabs_pos S) as PS. assert (PD : 0 <= Dabs) by lra.
  assert (F1 : Rabs c * Sa <= (1 + 12 * uro) * (Dabs * P)).
  { apply Rle_trans with ((1 + 12 * uro) * Rabs c0 * (C * P)); [apply Rmult_le_compat; lra|]. rewrite <- E1. right. ring. }
  assert (PDP : 0 <= Dabs * P) by (apply Rmult_le_pos; assumption).
  assert (F2 : rule_bound m k c Sa <= 102 / 100 * ((IZR n + 4) * uro) * ((1 + 12 * uro) * (Dabs * P)) + (1 + Dabs) * bpow radix2 (-1074)).
  { unfold rule_bound. apply Rplus_le_compat.
    - apply Rmult_le_compat; [exact G0|apply Rmult_le_pos; [exact Pc|lra]|exact G|exact F1].
    - assert (K2 : (1 + uro) ^ 2 <= 11 / 10) by nra. assert (Rabs c <= 11 / 10 * Dabs) by nra.
      assert (Rabs c * k <= 11 / 10 * Dabs * (11 / 10)) by (apply Rmult_le_compat; lra). rewrite <- eta_half in *.
      assert (0 < bpow radix2 (-1074)) by apply bpow_gt_0. nra. }
  assert (F3 : Rabs (c * S - c0 * S0) <= 12 * uro * (Dabs * P) + Dabs * T).
  { replace (c * S - c0 * S0) with ((c - c0) * S + c0 * (S - S0)) by ring. eapply Rle_trans; [apply Rabs_triang|]. rewrite !Rabs_mult. apply Rplus_le_compat.
    - apply Rle_trans with (12 * uro * Rabs c0 * (C * P)); [apply Rmult_le_compat; try apply Rabs_pos; lra|]. rewrite <- E1. right. ring.
    - apply Rle_trans with (Rabs c0 * (C * T)); [apply Rmult_le_compat_l; lra|]. rewrite <- E1. right. ring. }
  replace (r - c0 * S0) with ((r - c * S) + (c * S - c0 * S0)) by ring. eapply Rle_trans; [apply Rabs_triang|].
  assert (F4 : 102 / 100 * ((IZR n + 4) * uro) * ((1 + 12 * uro) * (Dabs * P)) + 12 * uro * (Dabs * P) <= (IZR n + 8) * bpow radix2 (-52) * (Dabs * P)).
  { replace (bpow radix2 (-52)) with (2 * uro) by (unfold uro; change 2 with (bpow radix2 1); rewrite <- bpow_plus; reflexivity).
    replace (102 / 100 * ((IZR n + 4) * uro) * ((1 + 12 * uro) * (Dabs * P)) + 12 * uro * (Dabs * P)) with ((102 / 100 * (IZR n + 4) * (1 + 12 * uro) + 12) * uro * (Dabs * P)) by ring.
    apply Rmult_le_compat_r; [exact PDP|]. replace ((IZR n + 8) * (2 * uro)) with ((2 * (IZR n + 8)) * uro) by ring. apply Rmult_le_compat_r; [lra|]. nra. }
  lra.
Qed.
Lemma lsum_close : forall X (l : list X) (f g : X -> R) t, (forall x, In x l -> Rabs (f x - g x) <= t) -> Rabs (lsum (map f l) - lsum (map g l)) <= INR (length l) * t.
Proof.
  intros X l f g t H. replace (lsum (map f l) - lsum (map g l)) with (lsum (map (fun x => f x - g x) l)).
  - rewrite <- (lsum_const X l t). apply (lsum_bounded X l (fun x => f x - g x) (fun _ => t)). exact H.
  - induction l as [|x l IH]; [simpl; ring|]. cbn [map lsum fold_right]. unfold lsum in *. cbn [map fold_right]. rewrite IH by (intros y Hy; apply H; right; exact Hy). ring.
Qed.

Section F.
Variable be : Backend.
Notation A := (F64 be).
Variables (n : Z) (a b : A) (g : A -> A) (G : R -> R) (e L B : R).
Hypothesis HI : plain_interval n a b.
Hypothesis HG : computes g G a b e L B.
Local Notation D := (fval b - fval a).
Local Notation h := (ndiv (nsub b a) (nofZ n) : A).
Local Notation w := (wiggle (fval a) (fval b)).

Lemma Hn' : (1 <= n < 2 ^ 32)%Z. Proof. apply HI. Qed.
Lemma Fa' : ffin a. Proof. apply HI. Qed.
Lemma Fb' : ffin b. Proof. apply HI. Qed.
Lemma HS' : Rabs D <= bpow radix2 1022. Proof. apply HI. Qed.
Lemma W' : wide n (fval a) (fval b). Proof. apply HI. Qed.
Lemma HO' : no_overflow D.
Proof.
  unfold no_overflow. eapply Rle_lt_trans; [rewrite rnd_abs; apply rnd_le, HS'|]. rewrite rnd_fmt by (apply generic_format_bpow; unfold FLT_exp; lia). apply bpow_lt. lia.
Qed.
Lemma Lpos : 0 <= L. Proof. apply HG. Qed.
Lemma epos : 0 <= e. Proof. destruct HG as (_ & H & _). specialize (H a (proj1 (ends_inside be a b Fa' Fb'))). eapply Rle_trans; [apply Rabs_pos|exact H]. Qed.
Lemma Bpos : 0 <= B. Proof. destruct HG as (_ & _ & _ & H). destruct (ends_inside be a b Fa' Fb') as [[_ I] _]. specialize (H _ I). eapply Rle_trans; [apply Rabs_pos|exact H]. Qed.
(** the value at a computed point against the value at the exact point *)
Lemma value_close : forall (x : A) y, inside a b x -> between (fval a) (fval b) y -> Rabs (fval x - y) <= w ->
  Rabs (fval (g x) - G y) <= e + L * w /\ Rabs (fval (g x)) <= B + e.
Proof.
  intros x y Hx Hy Hxy. destruct HG as (H0 & H1 & H2 & H3). specialize (H1 x Hx). specialize (H2 (fval x) y (proj2 Hx) Hy). specialize (H3 _ (proj2 Hx)). split.
  - replace (fval (g x) - G y) with ((fval (g x) - G (fval x)) + (G (fval x) - G y)) by ring. eapply Rle_trans; [apply Rabs_triang|].
    assert (L * Rabs (fval x - y) <= L * w) by (apply Rmult_le_compat_l; assumption). lra.
  - replace (fval (g x)) with ((fval (g x) - G (fval x)) + G (fval x)) by ring. eapply Rle_trans; [apply Rabs_triang|]. lra.
Qed.
Lemma h_eq : ffin h /\ fval h = rnd (rnd D / IZR n).
Proof. apply h_value; [apply Hn'|apply Fa'|apply Fb'|apply HO']. Qed.
Lemma exact_between : forall q, 0 <= q <= IZR n -> between (fval a) (fval b) (fval a + D / IZR n * q).
Proof.
  intros q Hq. pose proof (n_real n Hn') as N. assert (Q : 0 <= q / IZR n <= 1).
  { split; [apply Rmult_le_pos; [lra|left; apply Rinv_0_lt_compat; lra]|]. apply (Rmult_le_reg_r (IZR n)); [lra|]. unfold Rdiv. rewrite Rmult_assoc, Rinv_l by lra. lra. }
  replace (D / IZR n * q) with (D * (q / IZR n)) by (field; lra). unfold between, Rmin, Rmax. destruct (Rle_dec (fval a) (fval b)); nra.
Qed.
(** a computed point: inside, and near the exact one *)
Definition good (x : A) (y : R) : Prop := inside a b x /\ between (fval a) (fval b) y /\ Rabs (fval x - y) <= w.
Lemma good_ends : good a (fval a) /\ good b (fval b).
Proof.
  destruct (ends_inside be a b Fa' Fb') as [I1 I2]. unfold good. rewrite !Rminus_diag_eq, !Rabs_R0 by reflexivity.
  assert (0 <= w) by (apply Rmult_le_pos; [apply bpow_ge_0|pose proof (Rabs_pos (fval a)); pose proof (Rabs_pos (fval b)); lra]).
  split; (split; [assumption|]); (split; [first [apply I1|apply I2]|assumption]).
Qed.
Lemma good_step : forall (c : A) q, ffin c -> fval c = q -> 0 <= q <= IZR n - / 2 ->
  good (nadd a (nmul h c)) (fval a + D / IZR n * q) /\ good (nadd a (nmul c h)) (fval a + D / IZR n * q).
Proof.
  intros c q Fc Ec Hq. destruct h_eq as [Fh Eh]. destruct (product_ok be n a b Hn' Fa' Fb' HO' W' c q Fc Ec Hq) as [I1 I2].
  pose proof (exact_between q ltac:(lra)) as EB.
  split; (split; [assumption|split; [exact EB|]]).
  - destruct (add_finite_inv be _ _ (proj1 I1)) as (_ & F1 & _ & E1). destruct (mul_finite_inv be _ _ F1) as (_ & _ & _ & E2). rewrite E2, Ec, Eh in E1. rewrite E1. apply (point_close n (fval a) (fval b) Hn' (fval_format _) (fval_format _) W' q ltac:(lra)). rewrite <- E1. apply I1.
  - destruct (add_finite_inv be _ _ (proj1 I2)) as (_ & F1 & _ & E1). destruct (mul_finite_inv be _ _ F1) as (_ & _ & _ & E2). rewrite E2, Ec, Eh, (Rmult_comm q) in E1. rewrite E1. apply (point_close n (fval a) (fval b) Hn' (fval_format _) (fval_format _) W' q ltac:(lra)). rewrite <- E1. apply I2.
Qed.
Lemma good_half : forall i, (1 <= i <= n)%Z -> good (nadd a (ndiv (nmul (nsub (nmul lit2 (nofZ i)) lit1) h) lit2)) (fval a + D / IZR n * (IZR i - / 2)).
Proof.
  intros i Hi. pose proof (mid_inside be n a b Hn' Fa' Fb' HO' W' HS' i Hi) as I. destruct h_eq as [Fh Eh].
  destruct (odd_value be n Hn' i Hi) as [Fc Ec].
  assert (Q1 : 1 <= IZR i) by (apply IZR_le; lia). assert (Q2 : IZR i <= IZR n) by (apply IZR_le; lia).
  assert (EB : between (fval a) (fval b) (fval a + D / IZR n * (IZR i - / 2))) by (apply exact_between; lra).
  split; [exact I|]. split; [exact EB|].
  assert (Q3 : IZR (2 * i - 1) = 2 * IZR i - 1) by (rewrite minus_IZR, mult_IZR; reflexivity).
  destruct (add_finite_inv be _ _ (proj1 I)) as (_ & F1 & _ & E1). destruct (div_finite_inv be _ _ F1) as (F2 & DV).
  destruct (mul_finite_inv be _ _ F2) as (_ & _ & _ & E2). destruct (lit_int_exact 2 ltac:(lia)) as [F3 E3].
  destruct DV as [(_ & _ & _ & DV)|(_ & NF & _)]; [|exfalso; apply NF; exact F3].
  assert (DV2 : fval (ndiv (nmul (nsub (nmul lit2 (nofZ i)) lit1) h) lit2 : A) = rnd (/ 2 * rnd (rnd (rnd D / IZR n) * IZR (2 * i - 1)))).
  { refine (eq_trans DV _). f_equal. refine (eq_trans (f_equal (fun z => _ / z) E3) _). refine (eq_trans (f_equal (fun z => z / 2) E2) _).
    rewrite Ec, Eh, (Rmult_comm (IZR (2 * i - 1))). field. }
  rewrite DV2 in E1. rewrite E1.
  replace (IZR i - / 2) with (IZR (2 * i - 1) / 2) by (rewrite Q3; field).
  apply (half_point_close n (fval a) (fval b) Hn' (fval_format _) (fval_format _) W'); [rewrite Q3; lra|]. rewrite <- E1. apply I.
Qed.

(** sums over computed points *)
Lemma good_sum : forall (l : list Z) (x : Z -> A) (y : Z -> R), (forall i, In i l -> good (x i) (y i)) ->
  Rabs (total (map g (map x l)) - lsum (map (fun i => G (y i)) l)) <= INR (length l) * (e + L * w) /\ abs_total (map g (map x l)) <= INR (length l) * (B + e).
Proof.
  intros l x y H. unfold total, abs_total. rewrite !map_map. split.
  - apply (lsum_close Z l (fun i => fval (g (x i))) (fun i => G (y i))). intros i Hi. destruct (H i Hi) as (H1 & H2 & H3). apply (value_close (x i) (y i) H1 H2 H3).
  - rewrite <- (lsum_const Z l (B + e)). eapply Rle_trans; [apply Rle_abs|]. apply (lsum_bounded Z l (fun i => Rabs (fval (g (x i)))) (fun _ => B + e)).
    intros i Hi. rewrite Rabs_Rabsolu. destruct (H i Hi) as (H1 & H2 & H3). apply (value_close (x i) (y i) H1 H2 H3).
Qed.
Lemma good_one : forall (x : A) y, good x y -> Rabs (fval (g x) - G y) <= e + L * w /\ Rabs (fval (g x)) <= B + e.
Proof. intros x y (H1 & H2 & H3). apply value_close; assumption. Qed.
Lemma h_close' : Rabs (fval h - D / IZR n) <= 12 * uro * Rabs (D / IZR n).
Proof.
  destruct h_eq as [_ Eh]. rewrite Eh. destruct (h_size n (fval a) (fval b) Hn' (fval_format _) (fval_format _) W') as (_ & _ & H).
  pose proof (n_real n Hn') as N. eapply Rle_trans; [exact H|]. unfold Rdiv at 2. rewrite Rabs_mult, (Rabs_pos_eq (/ IZR n)) by (left; apply Rinv_0_lt_compat; lra).
  pose proof (K_pos n (fval a) (fval b) Hn') as P. pose proof uro_tiny. unfold Rdiv in *. nra.
Qed.
Lemma D_over : Rabs (D / IZR n) * IZR n = Rabs D /\ Rabs (D / IZR n) <= Rabs D.
Proof.
  pose proof (n_real n Hn') as N. assert (E : Rabs (D / IZR n) * IZR n = Rabs D).
  { unfold Rdiv. rewrite Rabs_mult, (Rabs_pos_eq (/ IZR n)) by (left; apply Rinv_0_lt_compat; lra). field. lra. }
  split; [exact E|]. pose proof (Rabs_pos (D / IZR n)). nra.
Qed.
Lemma n_INR : INR (Z.to_nat n) = IZR n. Proof. rewrite INR_IZR_INZ, Z2Nat.id by (pose proof Hn'; lia). reflexivity. Qed.
Lemma excess_eq : float_excess n (fval a) (fval b) e L B =
  Rabs D * (e + L * w) + (IZR n + 8) * bpow radix2 (-52) * (Rabs D * (B + e)) + (1 + Rabs D) * bpow radix2 (-1074).
Proof. reflexivity. Qed.
Lemma total_abs : forall l : list A, Rabs (total l) <= abs_total l. Proof. exact vsum_abs. Qed.

Lemma midpoint_close : forall result : A,
  (result = fst (midpoint_integrate (pure g) (midpoint_new n) a b tt) \/ exists t, result = midpoint_par_integrate g t (midpoint_new n) a b) -> ffin result ->
  Rabs (fval result - midpoint_value (Z.to_nat n) (fval a) (fval b) G) <= float_excess n (fval a) (fval b) e L B.
Proof.
  intros result HR F. pose proof Hn' as Hn. pose proof (n_real n Hn) as N. rewrite excess_eq. destruct D_over as [D1 D2].
  set (pts := map (fun i => nadd a (nmul h (nadd lit_half (nofZ i)))) (ints 0 (Z.to_nat n))) in *.
  assert (RB : Rabs (fval result - fval h * total (map g pts)) <= rule_bound (Z.to_nat n) 0 (fval h) (abs_total (map g pts))).
  { destruct HR as [E|[t E]]; subst result.
    - pose proof (midpoint_round be unit (pure g) n a b tt ltac:(lia)) as R. cbv zeta in R. rewrite call_all_pure in R. cbn [fst] in R. exact (R F).
    - exact (midpoint_par_round be t g n a b ltac:(lia) F). }
  destruct (good_sum (ints 0 (Z.to_nat n)) (fun i => nadd a (nmul h (nadd lit_half (nofZ i)))) (fun i => fval a + D / IZR n * (IZR i + / 2))) as [S1 S2].
  { intros i Hi. apply in_ints in Hi. destruct (half_point be n Hn i ltac:(lia)) as [F1 E1]. apply (good_step _ _ F1 E1).
    assert (0 <= IZR i) by (apply IZR_le; lia). assert (IZR i <= IZR n - 1) by (rewrite <- minus_IZR; apply IZR_le; lia). lra. }
  fold pts in S1, S2. rewrite ints_length, n_INR in S1, S2. rewrite lsum_ints in S1.
  rewrite midpoint_value_eq by lia. rewrite n_INR.
  assert (ES : rsum (Z.to_nat n) (fun i => G (fval a + D / IZR n * (INR i + / 2))) = rsum (Z.to_nat n) (fun i => G (fval a + D / IZR n * (IZR (0 + Z.of_nat i) + / 2)))).
  { apply rsum_ext. intros i _. rewrite Z.add_0_l, <- INR_IZR_INZ. reflexivity. }
  rewrite ES. pose proof epos. pose proof Bpos.
  apply (finish n (Z.to_nat n) (fval result) (fval h) (D / IZR n) (total (map g pts)) _ (abs_total (map g pts)) (IZR n) (Rabs D) (B + e) (e + L * w) 0); try assumption; try lra; try lia.
  - split; [lra|apply pow_le; pose proof uro_pos; lra].
  - apply h_close'.
  - apply total_abs.
Qed.
Lemma good_edges : let l := ints 1 (Z.to_nat (n - 1)) in
  Rabs (total (map g (map (fun i => nadd a (nmul (nofZ i) h)) l)) - rsum (Z.to_nat n - 1) (fun i => G (fval a + D / IZR n * INR (S i)))) <= (IZR n - 1) * (e + L * w) /\
  abs_total (map g (map (fun i => nadd a (nmul (nofZ i) h)) l)) <= (IZR n - 1) * (B + e).
Proof.
  intros l. pose proof Hn' as Hn. destruct (good_sum l (fun i => nadd a (nmul (nofZ i) h)) (fun i => fval a + D / IZR n * IZR i)) as [S1 S2].
  { intros i Hi. apply in_ints in Hi. destruct (ofZ_exact i ltac:(lia)) as [F1 E1]. apply (good_step _ _ F1 E1).
    assert (0 <= IZR i) by (apply IZR_le; lia). assert (IZR i <= IZR n - 1) by (rewrite <- minus_IZR; apply IZR_le; lia). lra. }
  assert (EL : INR (length l) = IZR n - 1) by (unfold l; rewrite ints_length, INR_IZR_INZ, Z2Nat.id, minus_IZR by lia; reflexivity).
  rewrite EL in S1, S2. split; [|exact S2]. unfold l in S1 at 2. rewrite lsum_ints in S1.
  assert (ES : rsum (Z.to_nat n - 1) (fun i => G (fval a + D / IZR n * INR (S i))) = rsum (Z.to_nat (n - 1)) (fun i => G (fval a + D / IZR n * IZR (1 + Z.of_nat i)))).
  { replace (Z.to_nat (n - 1)) with (Z.to_nat n - 1)%nat by lia. apply rsum_ext. intros i _. rewrite INR_IZR_INZ. do 3 f_equal. f_equal. lia. }
  rewrite ES. exact S1.
Qed.
Lemma good_mids : let l := ints 1 (Z.to_nat (n - 1)) in
  let x := fun i => nadd a (ndiv (nmul (nsub (nmul lit2 (nofZ i)) lit1) h) lit2) : A in
  Rabs (total (map g (map x l)) - rsum (Z.to_nat n - 1) (fun i => G (fval a + D / IZR n * (INR i + / 2)))) <= (IZR n - 1) * (e + L * w) /\
  abs_total (map g (map x l)) <= (IZR n - 1) * (B + e).
Proof.
  intros l x. pose proof Hn' as Hn. destruct (good_sum l x (fun i => fval a + D / IZR n * (IZR i - / 2))) as [S1 S2].
  { intros i Hi. apply in_ints in Hi. apply good_half. lia. }
  assert (EL : INR (length l) = IZR n - 1) by (unfold l; rewrite ints_length, INR_IZR_INZ, Z2Nat.id, minus_IZR by lia; reflexivity).
  rewrite EL in S1, S2. split; [|exact S2]. unfold l in S1 at 2. rewrite lsum_ints in S1.
  assert (ES : rsum (Z.to_nat n - 1) (fun i => G (fval a + D / IZR n * (INR i + / 2))) = rsum (Z.to_nat (n - 1)) (fun i => G (fval a + D / IZR n * (IZR (1 + Z.of_nat i) - / 2)))).
  { replace (Z.to_nat (n - 1)) with (Z.to_nat n - 1)%nat by lia. apply rsum_ext. intros i _. rewrite plus_IZR, <- INR_IZR_INZ. do 3 f_equal. field. }
  rewrite ES. exact S1.
Qed.
Lemma trapezoid_close : forall result : A,
  (result = fst (trapezoid_integrate (pure g) (trapezoid_new n) a b tt) \/ exists t, result = trapezoid_par_integrate g t (trapezoid_new n) a b) -> ffin result ->
  Rabs (fval result - trapezoid_value (Z.to_nat n) (fval a) (fval b) G) <= float_excess n (fval a) (fval b) e L B.
Proof.
  intros result HR F. pose proof Hn' as Hn. pose proof (n_real n Hn) as N. rewrite excess_eq. destruct D_over as [D1 D2]. pose proof epos. pose proof Bpos.
  destruct good_edges as [S1 S2]. cbv zeta in S1, S2. destruct good_ends as [Ga Gb]. destruct (good_one _ _ Ga) as [A1 A2]. destruct (good_one _ _ Gb) as [B1 B2].
  set (pts := map (fun i => nadd a (nmul (nofZ i) h)) (ints 1 (Z.to_nat (n - 1)))) in *.
  assert (RB : Rabs (fval result - fval h * ((fval (g a) + fval (g b)) / 2 + total (map g pts))) <=
    rule_bound (Z.to_nat n + 2) ((1 + uro) ^ 2) (fval h) ((Rabs (fval (g a)) + Rabs (fval (g b))) / 2 + abs_total (map g pts))).
  { destruct HR as [E|[t E]]; subst result.
    - pose proof (trapezoid_round be unit (pure g) n a b tt ltac:(lia)) as R. cbv zeta in R. rewrite !call_all_pure in R. cbn [fst snd map nth] in R. exact (R F).
    - exact (trapezoid_par_round be t g n a b ltac:(lia) F). }
  rewrite trapezoid_value_eq by lia. rewrite n_INR.
  pose proof (total_abs (map g pts)) as TA.
  apply (finish n (Z.to_nat n + 2) (fval result) (fval h) (D / IZR n) ((fval (g a) + fval (g b)) / 2 + total (map g pts)) _ ((Rabs (fval (g a)) + Rabs (fval (g b))) / 2 + abs_total (map g pts)) (IZR n) (Rabs D) (B + e) (e + L * w) ((1 + uro) ^ 2));
    try assumption; try lra; try lia.
  - split; [apply pow_le; pose proof uro_pos; lra|lra].
  - apply h_close'.
  - eapply Rle_trans; [apply Rabs_triang|]. apply Rplus_le_compat; [|exact TA]. unfold Rdiv. rewrite Rabs_mult, (Rabs_pos_eq (/ 2)) by lra. apply Rmult_le_compat_r; [lra|apply Rabs_triang].
  - match goal with |- Rabs (?s1 / 2 + ?t1 - (?s2 / 2 + ?t2)) <= _ => replace (s1 / 2 + t1 - (s2 / 2 + t2)) with ((t1 - t2) + (s1 - s2) / 2) by (field; lra) end.
    eapply Rle_trans; [apply Rabs_triang|]. assert (Rabs ((fval (g a) + fval (g b) - (G (fval a) + G (fval b))) / 2) <= e + L * w); [|lra].
    unfold Rdiv. rewrite Rabs_mult, (Rabs_pos_eq (/ 2)) by lra.
    replace (fval (g a) + fval (g b) - (G (fval a) + G (fval b))) with ((fval (g a) - G (fval a)) + (fval (g b) - G (fval b))) by ring. pose proof (Rabs_triang (fval (g a) - G (fval a)) (fval (g b) - G (fval b))). lra.
Qed.
Lemma sixth_eq : fval (ndiv h (nlit 6 0) : A) = rnd (fval h / 6) /\ ffin (ndiv h (nlit 6 0) : A).
Proof.
  destruct h_eq as [Fh Eh]. destruct (lit_int_exact 6 ltac:(lia)) as [F6 E6].
  assert (NZ : fval (nlit 6 0 : A) <> 0) by (intros X; assert (6 = 0) by (rewrite <- E6; exact X); lra).
  assert (DV : fval h / fval (nlit 6 0 : A) = fval h / 6) by (f_equal; exact E6).
  destruct (div_finite be h (nlit 6 0) Fh NZ) as [F1 E1].
  - rewrite DV. unfold no_overflow. apply Rle_lt_trans with (Rabs (fval h)); [|apply fval_bound].
    rewrite rnd_abs. rewrite <- (rnd_fmt (Rabs (fval h))) by (apply generic_format_abs, fval_format). apply rnd_le.
    unfold Rdiv. rewrite Rabs_mult, (Rabs_pos_eq (/ 6)) by lra. pose proof (Rabs_pos (fval h)). lra.
  - rewrite DV in E1. split; assumption.
Qed.
Lemma simpson_close : forall result : A,
  (result = fst (simpson_integrate (pure g) (simpson_new n) a b tt) \/ exists t1 t2, result = simpson_par_integrate g t1 t2 (simpson_new n) a b) -> ffin result ->
  Rabs (fval result - simpson_value (Z.to_nat n) (fval a) (fval b) G) <= float_excess n (fval a) (fval b) e L B.
Proof.
  intros result HR F. pose proof Hn' as Hn. pose proof (n_real n Hn) as N. rewrite excess_eq. destruct D_over as [D1 D2]. pose proof epos. pose proof Bpos.
  destruct good_edges as [S1 S2]. destruct good_mids as [M1 M2]. cbv zeta in S1, S2, M1, M2. destruct good_ends as [Ga Gb]. destruct (good_one _ _ Ga) as [A1 A2]. destruct (good_one _ _ Gb) as [B1 B2].
  destruct (good_one _ _ (good_half n ltac:(lia))) as [C1 C2].
  set (p1 := map (fun i => nadd a (nmul (nofZ i) h)) (ints 1 (Z.to_nat (n - 1)))) in *.
  set (p2 := map (fun i => nadd a (ndiv (nmul (nsub (nmul lit2 (nofZ i)) lit1) h) lit2) : A) (ints 1 (Z.to_nat (n - 1)))) in *.
  set (l := nadd a (ndiv (nmul (nsub (nmul lit2 (nofZ n)) lit1) h) lit2) : A) in *. set (c := ndiv h (nlit 6 0) : A).
  assert (RB : Rabs (fval result - fval c * (2 * total (map g p1) + 4 * total (map g p2) + 4 * fval (g l) + fval (g a) + fval (g b))) <=
    rule_bound (Z.to_nat n + 4) 0 (fval c) (2 * abs_total (map g p1) + 4 * abs_total (map g p2) + 4 * Rabs (fval (g l)) + Rabs (fval (g a)) + Rabs (fval (g b)))).
  { destruct HR as [E|[t1 [t2 E]]]; subst result.
    - pose proof (simpson_round be unit (pure g) n a b tt ltac:(lia)) as R. cbv zeta in R. rewrite !call_all_pure in R. cbn [fst snd map nth] in R. exact (R F).
    - exact (simpson_par_round be t1 t2 g n a b ltac:(lia) F). }
  rewrite simpson_value_eq by lia. rewrite n_INR. cbv zeta.
  replace (INR (Z.to_nat n - 1) + / 2) with (IZR n - / 2) by (rewrite minus_INR, n_INR by lia; simpl; field).
  pose proof (total_abs (map g p1)) as TA1. pose proof (total_abs (map g p2)) as TA2.
  assert (A6 : Rabs (D / IZR n / 6) = Rabs (D / IZR n) / 6) by (unfold Rdiv at 1; rewrite Rabs_mult, (Rabs_pos_eq (/ 6)) by lra; reflexivity).
  pose proof (Rabs_pos (D / IZR n)) as PDn.
  apply (finish n (Z.to_nat n + 4) (fval result) (fval c) (D / IZR n / 6) (2 * total (map g p1) + 4 * total (map g p2) + 4 * fval (g l) + fval (g a) + fval (g b)) _
     (2 * abs_total (map g p1) + 4 * abs_total (map g p2) + 4 * Rabs (fval (g l)) + Rabs (fval (g a)) + Rabs (fval (g b))) (6 * IZR n) (Rabs D) (B + e) (e + L * w) 0);
    try assumption; try lra; try lia.
  - split; [lra|apply pow_le; pose proof uro_pos; lra].
  - rewrite A6, <- D1. field.
  - assert (E6 : fval c = rnd (fval h / 6)) by apply sixth_eq. rewrite E6, (proj2 h_eq). eapply Rle_trans; [apply (sixth_close n (fval a) (fval b) Hn (fval_format _) (fval_format _) W')|].
    assert (EK : Rabs D / IZR n = Rabs (D / IZR n)) by (rewrite <- D1; field; lra). rewrite A6, EK. lra.
  - set (t1 := total (map g p1)) in *. set (t2 := total (map g p2)) in *.
    pose proof (Rabs_triang (2 * t1 + 4 * t2 + 4 * fval (g l) + fval (g a)) (fval (g b))). pose proof (Rabs_triang (2 * t1 + 4 * t2 + 4 * fval (g l)) (fval (g a))).
    pose proof (Rabs_triang (2 * t1 + 4 * t2) (4 * fval (g l))). pose proof (Rabs_triang (2 * t1) (4 * t2)).
    rewrite (Rabs_mult 2), (Rabs_pos_eq 2) in * by lra. rewrite !(Rabs_mult 4), (Rabs_pos_eq 4) in * by lra. lra.
  - set (t1 := total (map g p1)) in *. set (t2 := total (map g p2)) in *.
    match goal with |- Rabs (2 * t1 + 4 * t2 + 4 * ?x + ?y + ?z - (2 * ?u1 + 4 * ?u2 + 4 * ?x' + ?y' + ?z')) <= _ =>
      replace (2 * t1 + 4 * t2 + 4 * x + y + z - (2 * u1 + 4 * u2 + 4 * x' + y' + z')) with (2 * (t1 - u1) + 4 * (t2 - u2) + 4 * (x - x') + (y - y') + (z - z')) by ring;
      pose proof (Rabs_triang (2 * (t1 - u1) + 4 * (t2 - u2) + 4 * (x - x') + (y - y')) (z - z')); pose proof (Rabs_triang (2 * (t1 - u1) + 4 * (t2 - u2) + 4 * (x - x')) (y - y'));
      pose proof (Rabs_triang (2 * (t1 - u1) + 4 * (t2 - u2)) (4 * (x - x'))); pose proof (Rabs_triang (2 * (t1 - u1)) (4 * (t2 - u2))) end.
    rewrite (Rabs_mult 2), (Rabs_pos_eq 2) in * by lra. rewrite !(Rabs_mult 4), (Rabs_pos_eq 4) in * by lra. lra.
Qed.
End F.
