(** Gauss-Legendre rules of more than 100 points in double arithmetic: the whole rule and the integral. *)
From Coq Require Import Reals ZArith List Lra Lia Psatz.
From Coquelicot Require Import Coquelicot.
From Flocq Require Import Core IEEE754.Binary.
From Verif Require Import Arith RInst F64 F64Spec F64Proof Machine Rules Par LegendreData Legendre IntegrateSpec GaussSpec RSum RoundSpec RoundProof AccF64 AccCount RuleSpec ErrorSpec TransferSpec SizeProof RInstProof
  LegSym GammaProof LegAsym LegBig LegBigPoly LegBigFloat LegConv TrigSpec ChebFloat LegFloat GaussFloatRules.
Import ListNotations.
Local Open Scope R_scope.

Ltac step H := match type of H with (bind ?r _) = Ok _ => let E := fresh "E" in destruct r eqn:E; cbn [bind] in H; [|discriminate H] end.
Section F.
Variable be : Backend.
Notation A := (F64 be).
Variable kappa : R.
Hypothesis HT : accurate_trig be kappa.

Lemma apx_abs : forall (x : A) v c j C, apx x v v (c + j * (kappa / uro)) -> 0 <= c -> 0 <= j -> v <= C -> 0 < C ->
  Rabs (fval x - v) <= (1001 / 1000 * c * uro + 1001 / 1000 * j * kappa) * C.
Proof.
  intros x v c j C (F & B & E & R & Cc) Hc Hj HC CP. eapply Rle_trans; [exact E|]. pose proof (ex_hi _ Cc) as H. pose proof (ex_lo _ (proj1 Cc)) as H0. destruct HT as [[k0 k1] _]. pose proof uro_num as U.
  replace (1001 / 1000 * ((c + j * (kappa / uro)) * uro)) with (1001 / 1000 * c * uro + 1001 / 1000 * j * kappa) in H by (field; lra).
  apply Rmult_le_compat; [|apply rng_pos in R; lra|lra|exact HC]. destruct Cc. assert (0 <= (c + j * (kappa / uro)) * uro) by (apply Rmult_le_pos; lra). lra.
Qed.
Lemma mirror_any : forall (x : A) v d, ffin x -> Rabs (fval x - v) <= d -> d <= 1 / 1000 -> 0 < v <= 158 / 100 -> ffin (nsub npi x : A) /\ 0 <= fval (nsub npi x : A) <= 4 /\ Rabs (fval (nsub npi x : A) - (PI - v)) <= d + 5 / 10 ^ 16.
Proof.
  intros x v d F X Hd Hv. pose proof uro_num as U. pose proof PI_lo30 as PL. pose proof PI_hi30 as PU.
  destruct (npi_rel be) as [Fp Ep]. rewrite (Rabs_pos_eq PI) in Ep by lra.
  assert (X1 := Rle_abs (fval x - v)). assert (X2 := Rle_abs (- (fval x - v))). rewrite Rabs_Ropp in X2.
  assert (Y1 := Rle_abs (fval (npi : A) - PI)). assert (Y2 := Rle_abs (- (fval (npi : A) - PI))). rewrite Rabs_Ropp in Y2.
  set (y := fval (npi : A)) in *. assert (D : 1 <= y - fval x <= 3145 / 1000) by lra.
  assert (B5 : 5 <= bpow radix2 1023). { apply Rle_trans with (bpow radix2 3); [simpl; lra|apply bpow_le; lia]. }
  destruct (sub_finite be (npi : A) x Fp F) as [F1 E1]; [apply no_overflow_small; fold y; rewrite Rabs_pos_eq; lra|].
  fold y in E1. pose proof (rnd_err (y - fval x)) as R. rewrite (Rabs_pos_eq (y - fval x)) in R by lra. pose proof eta_num as Et.
  assert (R' : Rabs (rnd (y - fval x) - (y - fval x)) <= 351 / 10 ^ 18) by nra. split; [exact F1|]. rewrite E1.
  assert (Z1 := Rle_abs (rnd (y - fval x) - (y - fval x))). assert (Z2 := Rle_abs (- (rnd (y - fval x) - (y - fval x)))). rewrite Rabs_Ropp in Z2.
  split; [lra|]. apply Rabs_le. lra.
Qed.

Lemma product_range : forall t k nu b, (100 <= usize_max t)%Z -> (1 <= k)%Z -> @bessel_j0_zero RA t k = Ok nu -> @bessel_j1_squared RA t k = Ok b -> 6 / 10 <= b * nu <= 7 / 10.
Proof.
  intros t k nu b Hu Hk E1 E2. pose proof (bessel_product t k nu b Hu Hk E1 E2) as P. assert (K : 1 <= IZR k) by (apply IZR_le; lia).
  assert (Q : 1 / (50 * (IZR k * IZR k)) <= 1 / 50). { unfold Rdiv. rewrite !Rmult_1_l. apply Rinv_le_contravar; [lra|nra]. }
  pose proof PI_lo. pose proof PI_up. pose proof (abs_lower _ _ P) as P1. pose proof (abs_upper _ _ P) as P2. set (z := b * nu) in *. split; nra.
Qed.
(** the left half *)
Lemma left_close : forall t n k (p : A * A) (q : RA * RA), (100 <= usize_max t)%Z -> (100 < n <= 2 ^ 40)%Z -> (1 <= k)%Z -> (2 * k <= n + 1)%Z -> snd q <= 4 / IZR n ->
  compute_pair t n k = Ok p -> compute_pair t n k = Ok q ->
  (ffin (fst p) /\ 0 <= fval (fst p) /\ 0 < fst q <= 158 / 100 /\ Rabs (fval (fst p) - fst q) <= 18 / 10 ^ 16 + kappa / 100) /\ (ffin (snd p) /\ Rabs (fval (snd p) - snd q) <= (2 / 10 ^ 14 + 5 * kappa) / IZR n).
Proof.
  intros t n k p q Hu Hn Hk H2k Hw Hp Hq. unfold compute_pair in Hp, Hq. pose proof PI_lo as PL. pose proof PI_up as PU.
  assert (N : 101 <= IZR n) by (apply IZR_le; lia). assert (K1 : 1 <= IZR k) by (apply IZR_le; lia).
  assert (K2 : 2 * IZR k <= IZR n + 1) by (rewrite <- mult_IZR; rewrite <- plus_IZR; apply IZR_le; lia).
  step Hp. step Hp. step Hq. step Hq. apply ok_inj in Hp; subst p. apply ok_inj in Hq; subst q.
  pose proof (j0_zero_close _ _ _ Hu Hk E1) as C. pose proof (product_range _ _ _ _ Hu Hk E1 E2) as PR. pose proof (j1_squared_pos _ _ _ Hu Hk E2) as BP.
  destruct (expansion_apx be kappa HT n k _ _ _ _ Hn Hk H2k C PR (j0_apx be t k _ _ Hu ltac:(lia) E E1) (j1_apx be t k _ _ Hu ltac:(lia) E0 E2)) as [A1 A2].
  destruct (expansion_close n k _ _ ltac:(lia) Hk H2k C BP) as [X1 X2].
  destruct HT as [[k0 k1] _]. pose proof uro_num as U. assert (IN : 0 < / IZR n) by (apply Rinv_0_lt_compat; lra).
  set (th := fst (expansion n x1 x2)) in *. set (wt := snd (expansion n x1 x2)) in *.
  assert (TB : 0 < th <= 158 / 100).
  { assert (W : 0 < / (IZR n + / 2) <= / 100) by (split; [apply Rinv_0_lt_compat; lra|apply Rinv_le_contravar; lra]).
    assert (W1 : (IZR n + / 2) * / (IZR n + / 2) = 1) by (apply Rinv_r; lra). unfold Rdiv in X1. set (w := / (IZR n + / 2)) in *. clearbody w.
    pose proof (abs_lower _ _ X1). pose proof (abs_upper _ _ X1). assert (2 * w <= PI * (IZR k + - / 4) * w) by (apply Rmult_le_compat_r; nra).
    assert (PI * (IZR k + - / 4) * w <= PI / 2). { apply Rle_trans with (PI * ((IZR n + / 2) / 2) * w); [apply Rmult_le_compat_r; [lra|apply Rmult_le_compat_l; lra]|]. apply Req_le. transitivity (PI / 2 * ((IZR n + / 2) * w)); [field|rewrite W1; ring]. }
    unfold Rminus in *. lra. }
  split; (split; [first [apply A1|apply A2]|]).
  - split. { destruct A1 as (_ & _ & X & Q1 & Q2). pose proof (ex_small _ Q2). pose proof (abs_lower _ _ X). nra. }
    split; [exact TB|]. eapply Rle_trans; [apply (apx_abs _ _ _ _ (158 / 100) A1); lra|]. lra.
  - eapply Rle_trans; [apply (apx_abs _ _ _ _ (4 / IZR n) A2); unfold Rdiv; lra|]. unfold Rdiv. rewrite <- Rmult_assoc. apply Rmult_le_compat_r; lra.
Qed.
Lemma big_weight_bound : forall t n i, (100 <= usize_max t)%Z -> (100 < n)%nat -> (2 * Z.of_nat n <= usize_max t)%Z -> (i < n)%nat -> snd (@tw RA t (Z.of_nat n) i) <= 4 / INR n.
Proof.
  intros t n i Hu Hn H2 Hi. pose proof (big_weight t n i Hu Hn H2 Hi) as W. cbv zeta in W. pose proof PI_lo. pose proof PI_up.
  assert (N : 101 <= INR n) by (rewrite INR_IZR_INZ; apply IZR_le; lia). assert (I1 : 1 <= INR (S i)) by (rewrite S_INR; pose proof (pos_INR i); lra).
  assert (I2 : 1 <= INR (n - i)) by (replace 1 with (INR 1) by reflexivity; apply le_INR; lia).
  assert (J1 : / (INR (S i) * INR (S i)) <= 1) by (rewrite <- Rinv_1; apply Rinv_le_contravar; nra).
  assert (J2 : / (INR (n - i) * INR (n - i)) <= 1) by (rewrite <- Rinv_1; apply Rinv_le_contravar; nra).
  assert (Wn : 0 < / (INR n + / 2) <= / INR n) by (split; [apply Rinv_0_lt_compat; lra|apply Rinv_le_contravar; lra]).
  assert (Wn2 : / (INR n + / 2) <= / 100) by (apply Rinv_le_contravar; lra).
  pose proof (SIN_bound (fst (@tw RA t (Z.of_nat n) i))) as SB. apply abs_upper in W. set (w := / (INR n + / 2)) in *.
  set (s := sin _) in *. set (u := snd (@tw RA t (Z.of_nat n) i)) in *. set (a := / (INR (S i) * INR (S i))) in *. set (c := / (INR (n - i) * INR (n - i))) in *. clearbody s a c.
  assert (P : 0 < PI * w) by (apply Rmult_lt_0_compat; lra).
  assert (PI * w * s <= PI * w * 1) by (apply Rmult_le_compat_l; lra).
  assert (PI * w * (1 / 40 * a + 1 / 40 * c + (6 / 10 ^ 16 + 2 * (w * w))) <= PI * w * (6 / 100)) by (apply Rmult_le_compat_l; nra).
  assert (PI * w <= 31416 / 10000 * / INR n) by (apply Rmult_le_compat; lra). unfold Rdiv. change (u <= 4 * / INR n). lra.
Qed.
Lemma big_rule_close : forall t (n : nat) (r : GaussLegendre A) (q : GaussLegendre RA), (100 <= usize_max t)%Z -> (100 < n)%nat -> (Z.of_nat n <= 2 ^ 40)%Z -> (2 * Z.of_nat n <= usize_max t)%Z ->
  legendre_new t (Z.of_nat n) = Ok r -> legendre_new t (Z.of_nat n) = Ok q -> close_pairs (102 / 100 * kappa + 3 / 10 ^ 15) ((2 / 10 ^ 14 + 5 * kappa) / INR n) (legendre_pairs r) (legendre_pairs q).
Proof.
  intros t n r q Hu Hn Hn2 H2 Hr Hq. rewrite (legendre_list t (Z.of_nat n) r) by (assumption || lia). rewrite (legendre_list t (Z.of_nat n) q) by (assumption || lia).
  apply forall2_rev. apply (forall2_map nat (A * A) (R * R) (close_pair be (102 / 100 * kappa + 3 / 10 ^ 15) ((2 / 10 ^ 14 + 5 * kappa) / INR n))). intros i Hi. apply in_seq in Hi.
  rewrite Nat2Z.id in Hi. pose proof eta_num as Et. destruct HT as [[k0 k1] _].
  assert (C : angle_close be (23 / 10 ^ 16 + kappa / 100) ((2 / 10 ^ 14 + 5 * kappa) / INR n) (tw t (Z.of_nat n) i) (@tw RA t (Z.of_nat n) i)).
  { pose proof (tw_ok (A := A) t (Z.of_nat n) i Hu ltac:(lia) H2 ltac:(lia)) as E1. pose proof (tw_ok (A := RA) t (Z.of_nat n) i Hu ltac:(lia) H2 ltac:(lia)) as E2.
    pose proof (big_weight_bound t n i Hu Hn H2 ltac:(lia)) as WB. revert E1 E2 WB. generalize (@tw RA t (Z.of_nat n) i) as q0. generalize (@tw A t (Z.of_nat n) i) as p0. intros p0 q0 E1 E2 WB. rewrite INR_IZR_INZ in *.
    unfold theta_weight_pair in E1, E2. destruct (Z.leb_spec (Z.of_nat n) 100); [lia|]. rewrite usize_mul_ok in E1, E2 by lia. cbn [bind] in E1, E2. rewrite usize_sub_ok in E1, E2 by lia. cbn [bind] in E1, E2.
    destruct (Z.ltb_spec (Z.of_nat n) (2 * (1 + Z.of_nat i) - 1)) as [H3|H3].
    - rewrite usize_sub_ok in E1, E2 by lia. cbn [bind] in E1, E2. rewrite usize_add_ok in E1, E2 by lia. cbn [bind] in E1, E2.
      step E1. step E2. apply ok_inj in E1. apply ok_inj in E2. subst p0 q0. cbn [fst snd] in WB |- *.
      destruct (left_close t (Z.of_nat n) (Z.of_nat n - (1 + Z.of_nat i) + 1) _ _ Hu ltac:(lia) ltac:(lia) ltac:(lia) WB E E0) as [(F1 & B0 & B1 & D1) W1]. split; cbn [fst snd]; [|exact W1].
      destruct (mirror_any _ _ _ F1 D1 ltac:(lra) B1) as (M1 & M2 & M3). split; [exact M1|]. split; [exact M2|]. change (@nsub RA (@npi RA)) with (Rminus PI). lra.
    - destruct (left_close t (Z.of_nat n) (1 + Z.of_nat i) _ _ Hu ltac:(lia) ltac:(lia) ltac:(lia) WB E1 E2) as [(F1 & B0 & B1 & D1) W1]. split; [|exact W1].
      split; [exact F1|]. pose proof (abs_lower _ _ D1) as L1. pose proof (abs_upper _ _ D1) as L2. split; [|eapply Rle_trans; [exact D1|lra]]. split; [exact B0|]. lra. }
  apply (close_at_cos be kappa HT) in C. eapply close_pair_mono; [exact C|lra|lra].
Qed.

Lemma big_legendre_close : forall t (n : nat) (r : GaussLegendre A) (q : GaussLegendre RA) (a b : A) (g : A -> A) G e L B (result : A),
  (100 <= usize_max t)%Z -> (100 < n)%nat -> (Z.of_nat n <= 2 ^ 40)%Z -> (2 * Z.of_nat n <= usize_max t)%Z -> legendre_new t (Z.of_nat n) = Ok r -> legendre_new t (Z.of_nat n) = Ok q ->
  usable a b -> computes_near g G (fval a) (fval b) (102 / 100 * kappa + 3 / 10 ^ 15) e L B ->
  (result = fst (legendre_integrate (pure g) r a b tt) \/ exists s, result = legendre_par_integrate s g r a b) -> ffin result ->
  Rabs (fval result - legendre_value q (fval a) (fval b) G) <=
    gauss_excess (INR n) (fval a) (fval b) (2 + 14 / INR n) (102 / 100 * kappa + 3 / 10 ^ 15) ((2 / 10 ^ 14 + 5 * kappa) / INR n) e L B.
Proof.
  intros t n r q a b g G e L B result Hu Hn Hn2 H2 Hr Hq HI HG HE HF. destruct HT as [[K0 K1] _].
  assert (N : 101 <= INR n) by (rewrite INR_IZR_INZ; apply IZR_le; lia). pose proof (big_total t n q Hu Hn H2 Hq) as T. apply abs_upper in T.
  assert (N2 : INR n <= 2 * 10 ^ 12). { rewrite INR_IZR_INZ. apply Rle_trans with (IZR (2 ^ 40)); [apply IZR_le; exact Hn2|simpl; lra]. }
  assert (IN : / (2 * 10 ^ 12) <= / INR n) by (apply Rinv_le_contravar; lra).
  rewrite INR_IZR_INZ at 1.
  apply (legendre_close be t (Z.of_nat n) r q _ _ _ a b g G e L B result); try assumption; try lia; try lra.
  - apply Rdiv_le_0_compat; lra.
  - apply (big_rule_close t); assumption.
Qed.
Lemma big_end : forall t (n : nat) (r : GaussLegendre A) (a b : A) (g : A -> A) (f : R -> R) e L B (result : A),
  (100 <= usize_max t)%Z -> (100 < n)%nat -> (Z.of_nat n <= 2 ^ 40)%Z -> (2 * Z.of_nat n <= usize_max t)%Z -> legendre_new t (Z.of_nat n) = Ok r ->
  usable a b -> fval a <> fval b -> computes_near g f (fval a) (fval b) (102 / 100 * kappa + 3 / 10 ^ 15) e L B ->
  (result = fst (legendre_integrate (pure g) r a b tt) \/ exists s, result = legendre_par_integrate s g r a b) -> ffin result ->
  Rabs (fval result - RInt f (fval a) (fval b)) <= ((8 / 5 * L * Rabs (fval b - fval a) + 7 * B) / INR n + 1 / 10 ^ 15 * B) * Rabs (fval b - fval a) +
    gauss_excess (INR n) (fval a) (fval b) (2 + 14 / INR n) (102 / 100 * kappa + 3 / 10 ^ 15) ((2 / 10 ^ 14 + 5 * kappa) / INR n) e L B.
Proof.
  intros t n r a b g f e L B result Hu Hn Hn2 H2 Hr HI Hab HG HE HR. assert (N : 101 <= INR n) by (rewrite INR_IZR_INZ; apply IZR_le; lia).
  destruct (legendre_new_ok (A := RA) t (Z.of_nat n) Hu ltac:(lia) H2) as (q & Hq & _).
  eapply through; [exact (big_legendre_close t n r q a b g f e L B result Hu Hn Hn2 H2 Hr Hq HI HG HE HR)|].
  destruct HG as (L0 & _ & G2 & G3). destruct HT as [[K0 K1] _].
  assert (RP : 0 <= reach (fval a) (fval b) (102 / 100 * kappa + 3 / 10 ^ 15)) by (apply GaussFloat.rho_pos; lra).
  assert (IN : forall x, closed_between (fval a) (fval b) x -> Rmin (fval a) (fval b) - reach (fval a) (fval b) (102 / 100 * kappa + 3 / 10 ^ 15) <= x <= Rmax (fval a) (fval b) + reach (fval a) (fval b) (102 / 100 * kappa + 3 / 10 ^ 15)).
  { intros x Hx. unfold closed_between in Hx. lra. }
  replace (((8 / 5 * L * Rabs (fval b - fval a) + 7 * B) / INR n + 1 / 10 ^ 15 * B) * Rabs (fval b - fval a)) with
    ((L * (8 / 5 * Rabs (fval b - fval a) / INR n) + (7 / INR n + 1 / 10 ^ 15) * B) * Rabs (fval b - fval a)) by (field; lra).
  apply (big_value t n q Hu Hn H2 Hq (fval a) (fval b) f B _ Hab).
  - apply continuous_on_int. intros x Hx eps Heps. exists (eps / (L + 1)). split; [apply Rdiv_lt_0_compat; lra|]. intros y Hy D.
    eapply Rle_lt_trans; [apply G2; apply IN; assumption|]. apply Rle_lt_trans with ((L + 1) * Rabs (y - x)); [apply Rmult_le_compat_r; [apply Rabs_pos|lra]|].
    apply (Rmult_lt_compat_l (L + 1)) in D; [|lra]. replace ((L + 1) * (eps / (L + 1))) with eps in D by (field; lra). exact D.
  - intros x Hx. apply G3, IN, Hx.
  - intros x y Hx Hy D. eapply Rle_trans; [apply G2; apply IN; assumption|]. apply Rmult_le_compat_l; [exact L0|exact D].
Qed.
End F.
