(** Gauss-Legendre rules of more than 100 points: where the angles lie and the
    positivity of the weights, in exact arithmetic. *)
From Coq Require Import Reals ZArith List Lia Lra Bool.
From Verif Require Import Arith RInst Machine Rules Par LegendreData Legendre SizeProof RInstProof LegSym GammaProof.
Import ListNotations.
Local Open Scope R_scope.

Lemma hp : forall p x c P X C Q, Rabs p <= P -> Rabs x <= X -> Rabs c <= C -> P * X + C <= Q -> Rabs (p * x + c) <= Q.
Proof.
  intros p x c P X C Q Hp Hx Hc HQ. pose proof (Rabs_triang (p * x) c). rewrite Rabs_mult in H.
  pose proof (Rmult_le_compat _ _ _ _ (Rabs_pos p) (Rabs_pos x) Hp Hx). lra.
Qed.
Lemma hm : forall p x c P X C Q, Rabs p <= P -> Rabs x <= X -> Rabs c <= C -> P * X + C <= Q -> Rabs (p * x - c) <= Q.
Proof. intros p x c P X C Q Hp Hx Hc HQ. unfold Rminus. apply (hp p x (- c) P X C); try assumption. rewrite Rabs_Ropp. exact Hc. Qed.
Lemma hr : forall p x c P X C Q, Rabs p <= P -> Rabs x <= X -> Rabs c <= C -> P * X + C <= Q -> Rabs (c + x * p) <= Q.
Proof. intros p x c P X C Q Hp Hx Hc HQ. rewrite Rplus_comm, Rmult_comm. now apply (hp p x c P X C). Qed.
Lemma hmul : forall p x P X Q, Rabs p <= P -> Rabs x <= X -> P * X <= Q -> Rabs (p * x) <= Q.
Proof. intros p x P X Q Hp Hx HQ. rewrite Rabs_mult. pose proof (Rmult_le_compat _ _ _ _ (Rabs_pos p) (Rabs_pos x) Hp Hx). lra. Qed.
Ltac lit := unfold R_lit; simpl; apply Rabs_le; lra.

Lemma sf1t_bound : forall x : R, Rabs x <= 5 / 2 -> Rabs (@sf1t RA x) <= (54 / 1000).
Proof.
  intros x Hx. unfold sf1t. cbn [nadd nsub nmul nlit RA].
  apply (hm _ x _ (46 / 10000) (5 / 2) (42 / 1000)); [|exact Hx|lit|lra].
  apply (hp _ x _ (16 / 100000) (5 / 2) (42 / 10000)); [|exact Hx|lit|lra].
  apply (hm _ x _ (29 / 10000000) (5 / 2) (15 / 100000)); [|exact Hx|lit|lra].
  apply (hp _ x _ (33 / 1000000000) (5 / 2) (28 / 10000000)); [|exact Hx|lit|lra].
  apply (hm _ x _ (26 / 100000000000) (5 / 2) (32 / 1000000000)); [|exact Hx|lit|lra].
  apply (hp _ x _ (13 / 10000000000000) (5 / 2) (25 / 100000000000)); [|exact Hx|lit|lra].
  lit.
Qed.
Lemma sf2t_bound : forall x : R, Rabs x <= 5 / 2 -> Rabs (@sf2t RA x) <= (16 / 1000).
Proof.
  intros x Hx. unfold sf2t. cbn [nadd nsub nmul nlit RA].
  apply (hp _ x _ (31 / 10000) (5 / 2) (82 / 10000)); [|exact Hx|lit|lra].
  apply (hm _ x _ (37 / 100000) (5 / 2) (21 / 10000)); [|exact Hx|lit|lra].
  apply (hp _ x _ (31 / 1000000) (5 / 2) (29 / 100000)); [|exact Hx|lit|lra].
  apply (hm _ x _ (20 / 10000000) (5 / 2) (26 / 1000000)); [|exact Hx|lit|lra].
  apply (hp _ x _ (82 / 1000000000) (5 / 2) (17 / 10000000)); [|exact Hx|lit|lra].
  apply (hm _ x _ (23 / 10000000000) (5 / 2) (76 / 1000000000)); [|exact Hx|lit|lra].
  lit.
Qed.
Lemma sf3t_bound : forall x : R, Rabs x <= 5 / 2 -> Rabs (@sf3t RA x) <= (11 / 1000).
Proof.
  intros x Hx. unfold sf3t. cbn [nadd nsub nmul nlit RA].
  apply (hm _ x _ (24 / 10000) (5 / 2) (42 / 10000)); [|exact Hx|lit|lra].
  apply (hp _ x _ (42 / 100000) (5 / 2) (13 / 10000)); [|exact Hx|lit|lra].
  apply (hm _ x _ (61 / 1000000) (5 / 2) (26 / 100000)); [|exact Hx|lit|lra].
  apply (hp _ x _ (73 / 10000000) (5 / 2) (42 / 1000000)); [|exact Hx|lit|lra].
  apply (hm _ x _ (64 / 100000000) (5 / 2) (57 / 10000000)); [|exact Hx|lit|lra].
  apply (hp _ x _ (30 / 1000000000) (5 / 2) (56 / 100000000)); [|exact Hx|lit|lra].
  lit.
Qed.
Lemma wsf1t_bound : forall x : R, Rabs x <= 5 / 2 -> Rabs (@wsf1t RA x) <= (20 / 100).
Proof.
  intros x Hx. unfold wsf1t. cbn [nadd nsub nmul nlit RA].
  apply (hp _ x _ (45 / 1000) (5 / 2) (84 / 1000)); [|exact Hx|lit|lra].
  apply (hm _ x _ (54 / 10000) (5 / 2) (31 / 1000)); [|exact Hx|lit|lra].
  apply (hp _ x _ (38 / 100000) (5 / 2) (44 / 10000)); [|exact Hx|lit|lra].
  apply (hm _ x _ (17 / 1000000) (5 / 2) (33 / 100000)); [|exact Hx|lit|lra].
  apply (hp _ x _ (50 / 100000000) (5 / 2) (15 / 1000000)); [|exact Hx|lit|lra].
  apply (hm _ x _ (12 / 1000000000) (5 / 2) (47 / 100000000)); [|exact Hx|lit|lra].
  apply (hp _ x _ (19 / 100000000000) (5 / 2) (11 / 1000000000)); [|exact Hx|lit|lra].
  apply (hm _ x _ (25 / 10000000000000) (5 / 2) (18 / 100000000000)); [|exact Hx|lit|lra].
  apply (hp _ x _ (23 / 1000000000000000) (5 / 2) (24 / 10000000000000)); [|exact Hx|lit|lra].
  lit.
Qed.
Lemma wsf2t_bound : forall x : R, Rabs x <= 5 / 2 -> Rabs (@wsf2t RA x) <= (23 / 1000).
Proof.
  intros x Hx. unfold wsf2t. cbn [nadd nsub nmul nlit RA].
  apply (hm _ x _ (41 / 10000) (5 / 2) (12 / 1000)); [|exact Hx|lit|lra].
  apply (hp _ x _ (56 / 100000) (5 / 2) (27 / 10000)); [|exact Hx|lit|lra].
  apply (hm _ x _ (59 / 1000000) (5 / 2) (41 / 100000)); [|exact Hx|lit|lra].
  apply (hp _ x _ (45 / 10000000) (5 / 2) (47 / 1000000)); [|exact Hx|lit|lra].
  apply (hm _ x _ (24 / 100000000) (5 / 2) (39 / 10000000)); [|exact Hx|lit|lra].
  apply (hp _ x _ (75 / 10000000000) (5 / 2) (22 / 100000000)); [|exact Hx|lit|lra].
  apply (hm _ x _ (87 / 1000000000000) (5 / 2) (72 / 10000000000)); [|exact Hx|lit|lra].
  apply (hp _ x _ (37 / 10000000000000) (5 / 2) (77 / 1000000000000)); [|exact Hx|lit|lra].
  lit.
Qed.
Lemma wsf3t_bound : forall x : R, Rabs x <= 5 / 2 -> Rabs (@wsf3t RA x) <= (99 / 10000).
Proof.
  intros x Hx. unfold wsf3t. cbn [nadd nsub nmul nlit RA].
  apply (hp _ x _ (13 / 10000) (5 / 2) (66 / 10000)); [|exact Hx|lit|lra].
  apply (hm _ x _ (46 / 100000) (5 / 2) (95 / 1000000)); [|exact Hx|lit|lra].
  apply (hm _ x _ (14 / 100000) (5 / 2) (11 / 100000)); [|exact Hx|lit|lra].
  apply (hm _ x _ (35 / 1000000) (5 / 2) (43 / 1000000)); [|exact Hx|lit|lra].
  apply (hp _ x _ (56 / 10000000) (5 / 2) (21 / 1000000)); [|exact Hx|lit|lra].
  apply (hm _ x _ (64 / 100000000) (5 / 2) (40 / 10000000)); [|exact Hx|lit|lra].
  apply (hp _ x _ (50 / 1000000000) (5 / 2) (51 / 100000000)); [|exact Hx|lit|lra].
  apply (hm _ x _ (21 / 10000000000) (5 / 2) (44 / 1000000000)); [|exact Hx|lit|lra].
  lit.
Qed.

Lemma abs_lower : forall x e, Rabs x <= e -> - e <= x.
Proof. intros x e H. pose proof (Rle_abs (- x)). rewrite Rabs_Ropp in H0. lra. Qed.
Lemma abs_upper : forall x e, Rabs x <= e -> x <= e.
Proof. intros x e H. pose proof (Rle_abs x). lra. Qed.

Lemma hq : forall p x c P X C Q, Rabs p <= P -> Rabs x <= X -> Rabs c <= C -> P * X + C <= Q -> Rabs (c + p * x) <= Q.
Proof. intros p x c P X C Q Hp Hx Hc HQ. rewrite Rplus_comm. now apply (hp p x c P X C). Qed.

Lemma PI_up : PI < 31416 / 10000.
Proof. assert (H := proj2 (PI_2_3_7_ineq 3)). unfold tg_alt, PI_2_3_7_tg, Ratan_seq in H. simpl in H. lra. Qed.
Lemma PI_lo : 31415 / 10000 < PI.
Proof. pose proof PI_lower. lra. Qed.

(** zeros of the Bessel function *)
Lemma tab_R : forall l i x, @tab RA l i = Ok x -> exists d, nth_error l (Z.to_nat i) = Some d /\ x = R_lit (fst d) (snd d).
Proof.
  intros l i x. unfold tab, index. destruct (nth_error l (Z.to_nat i)) as [d|]; [|discriminate]. cbn [bind]. intros E. injection E as <-. eauto.
Qed.
Lemma j0_zero_close : forall t k nu, (100 <= usize_max t)%Z -> (1 <= k)%Z -> @bessel_j0_zero RA t k = Ok nu -> Rabs (nu - PI * (IZR k - / 4)) <= 5 / 100.
Proof.
  intros t k nu Hu Hk. pose proof PI_lo as PL. pose proof PI_up as PU. unfold bessel_j0_zero. destruct (Z.ltb_spec 20 k) as [H|H].
  - intros E. injection E as <-. cbn [nadd nsub nmul ndiv nlit nofZ npi RA].
    replace (R_lit 25 (-2)) with (/ 4) by (unfold R_lit; simpl; lra). rewrite rl1.
    assert (K : 21 <= IZR k) by (apply IZR_le; lia). set (z := PI * (IZR k - / 4)).
    assert (Z : 60 <= z). { unfold z. pose proof (Rmult_le_compat (31415 / 10000) PI (20 + 3 / 4) (IZR k - / 4)). lra. }
    assert (R0 : Rabs (1 / z) <= 1 / 60).
    { unfold Rdiv. rewrite !Rmult_1_l. rewrite Rabs_pos_eq; [apply Rinv_le_contravar; lra|]. left. apply Rinv_0_lt_compat. lra. }
    set (r := 1 / z) in *. clearbody r z.
    assert (R2 : Rabs (r * r) <= 1 / 3600) by (apply (hmul r r (1 / 60) (1 / 60)); [exact R0|exact R0|lra]).
    set (r2 := r * r) in *. clearbody r2.
    match goal with |- Rabs (?x - z) <= _ => replace (x - z) with (x + - z) by ring; rewrite (Rplus_comm _ (- z)), <- Rplus_assoc, Rplus_opp_l, Rplus_0_l end.
    rewrite Rmult_comm. apply (hmul _ r 3 (1 / 60)); [|exact R0|lra].
    apply (hr _ r2 _ 3600 (1 / 3600) 1 3); [|exact R2|lit|lra].
    apply (hr _ r2 _ 10000 (1 / 3600) 1); [|exact R2|lit|lra].
    apply (hr _ r2 _ 30000 (1 / 3600) 1); [|exact R2|lit|lra].
    apply (hr _ r2 _ 100000 (1 / 3600) 2); [|exact R2|lit|lra].
    apply (hr _ r2 _ 300000 (1 / 3600) 26); [|exact R2|lit|lra].
    apply (hr _ r2 _ 1000000 (1 / 3600) 600); [|exact R2|lit|lra].
    apply (hr _ r2 _ 2000000 (1 / 3600) 20000); [|exact R2|lit|lra].
    apply (hq _ r2 _ 60000000 (1 / 3600) 900000); [|exact R2|lit|lra].
    lit.
  - rewrite usize_sub_ok by lia. cbn [bind]. intros E. apply tab_R in E. destruct E as (d & E & ->).
    assert (Hn : exists m : nat, (m < 20)%nat /\ k = (1 + Z.of_nat m)%Z) by (exists (Z.to_nat (k - 1)); lia).
    destruct Hn as (m & Hm & ->). replace (Z.to_nat (1 + Z.of_nat m - 1)) with m in E by lia.
    do 20 (destruct m as [|m]; [injection E as <-; unfold R_lit; simpl; apply Rabs_le; lra|]). lia.
Qed.
Lemma j1_squared_pos : forall t k b, (100 <= usize_max t)%Z -> (1 <= k)%Z -> @bessel_j1_squared RA t k = Ok b -> 0 < b.
Proof.
  intros t k b Hu Hk. unfold bessel_j1_squared. destruct (Z.ltb_spec 21 k) as [H|H].
  - intros E. injection E as <-. cbn [nadd nsub nmul ndiv nlit nofZ npi RA].
    replace (R_lit 25 (-2)) with (/ 4) by (unfold R_lit; simpl; lra). rewrite rl1.
    assert (K : 22 <= IZR k) by (apply IZR_le; lia).
    assert (X0 : 0 < 1 / (IZR k - / 4)) by (apply Rdiv_lt_0_compat; lra).
    assert (X1 : Rabs (1 / (IZR k - / 4)) <= 1 / 20).
    { rewrite Rabs_pos_eq by lra. unfold Rdiv. rewrite !Rmult_1_l. apply Rinv_le_contravar; lra. }
    set (x := 1 / (IZR k - / 4)) in *. clearbody x.
    assert (X2 : Rabs (x * x) <= 1 / 400) by (apply (hmul x x (1 / 20) (1 / 20)); [exact X1|exact X1|lra]).
    set (x2 := x * x) in *. clearbody x2.
    apply Rmult_lt_0_compat; [exact X0|].
    match goal with |- 0 < ?c + ?y * ?p => assert (B : Rabs (p * y) <= 1 / 100) end.
    2:{ rewrite (Rmult_comm _ (_ + _)). apply abs_lower in B. revert B.
        match goal with |- _ <= ?u -> 0 < ?c + ?v => intros B; assert (0 < c - 1 / 100) by (unfold R_lit; simpl; lra); lra end. }
    apply (hmul _ _ 1 (1 / 400)); [|apply (hmul _ _ (1 / 400) (1 / 400)); [exact X2|exact X2|lra]|lra].
    apply (hr _ x2 _ 1 (1 / 400) (1 / 100)); [|exact X2|lit|lra].
    apply (hr _ x2 _ 1 (1 / 400) (1 / 100)); [|exact X2|lit|lra].
    apply (hr _ x2 _ 1 (1 / 400) (1 / 100)); [|exact X2|lit|lra].
    apply (hr _ x2 _ 1 (1 / 400) (1 / 100)); [|exact X2|lit|lra].
    apply (hr _ x2 _ 1 (1 / 400) (1 / 100)); [|exact X2|lit|lra].
    apply (hr _ x2 _ 1 (1 / 400) (1 / 100)); [|exact X2|lit|lra].
    apply (hq _ x2 _ 1 (1 / 400) (3 / 100)); [|exact X2|lit|lra].
    lit.
  - rewrite usize_sub_ok by lia. cbn [bind]. intros E. apply tab_R in E. destruct E as (d & E & ->).
    assert (Hn : exists m : nat, (m < 21)%nat /\ k = (1 + Z.of_nat m)%Z) by (exists (Z.to_nat (k - 1)); lia).
    destruct Hn as (m & Hm & ->). replace (Z.to_nat (1 + Z.of_nat m - 1)) with m in E by lia.
    do 21 (destruct m as [|m]; [injection E as <-; unfold R_lit; simpl; lra|]). lia.
Qed.

Lemma sin_half : forall x, 0 < x <= 158 / 100 -> x / 2 <= sin x.
Proof.
  intros x Hx. pose proof (proj1 (pre_sin_bound x 0 ltac:(lra) ltac:(lra))) as H.
  unfold sin_approx, sin_term in H. simpl in H. eapply Rle_trans; [|exact H].
  assert (x * x <= 25 / 10) by nra. nra.
Qed.
Lemma expansion_close : forall n k (nu b : R), (100 < n)%Z -> (1 <= k)%Z -> (2 * k <= n + 1)%Z ->
  Rabs (nu - PI * (IZR k - / 4)) <= 5 / 100 -> 0 < b ->
  Rabs (fst (@expansion RA n nu b) - PI * (IZR k - / 4) / (IZR n + / 2)) <= 52 / 1000 / (IZR n + / 2) /\ 0 < snd (@expansion RA n nu b).
Proof.
  intros n k nu b Hn Hk H2k Hnu Hb. pose proof PI_lo as PL. pose proof PI_up as PU.
  assert (N : 101 <= IZR n) by (apply IZR_le; lia). assert (K1 : 1 <= IZR k) by (apply IZR_le; lia).
  assert (K2 : 2 * IZR k <= IZR n + 1) by (rewrite <- mult_IZR; rewrite <- plus_IZR; apply IZR_le; lia).
  unfold expansion. cbn [nadd nsub nmul ndiv nlit nofZ npi nsin RA fst snd]. rewrite ?rl1, ?rl2, ?rlhalf.
  change (@lit1 RA) with (R_lit 1 0). change (@lit2 RA) with (R_lit 2 0). change (@lit_half RA) with (R_lit 5 (-1)). rewrite ?rl1, ?rl2, ?rlhalf.
  set (w := 1 / (IZR n + / 2)).
  assert (W0 : 0 < w) by (apply Rdiv_lt_0_compat; lra).
  assert (W1 : w * (IZR n + / 2) = 1) by (unfold w; field; lra).
  assert (W2 : w <= 1 / 100) by (unfold w, Rdiv; rewrite !Rmult_1_l; apply Rinv_le_contravar; lra).
  assert (NU1 : 2 <= nu) by (apply abs_lower in Hnu; nra).
  assert (NU2 : nu <= PI * (IZR k - / 4) + 5 / 100) by (apply abs_upper in Hnu; lra).
  assert (TH : 0 < w * nu <= 158 / 100).
  { split; [apply Rmult_lt_0_compat; lra|]. apply Rle_trans with (w * (PI * ((IZR n + / 2) / 2) + 5 / 100)).
    - apply Rmult_le_compat_l; [lra|]. apply Rle_trans with (1 := NU2). apply Rplus_le_compat_r. apply Rmult_le_compat_l; lra.
    - replace (w * (PI * ((IZR n + / 2) / 2) + 5 / 100)) with (PI / 2 * (w * (IZR n + / 2)) + w * (5 / 100)) by field. rewrite W1. lra. }
  set (th := w * nu) in *. assert (S := sin_half th TH). assert (SP : 0 < sin th) by lra.
  assert (Q0 : 0 < nu / sin th) by (apply Rdiv_lt_0_compat; lra).
  assert (I0 : 0 < w * w * (nu / sin th) <= 1 / 50).
  { assert (EE : forall s, s <> 0 -> w * w * (nu / s) = w * (w * nu / s)) by (intros; field; assumption). rewrite EE by lra. fold th. clear EE.
    assert (0 < th / sin th <= 2). { split; [apply Rdiv_lt_0_compat; lra|]. apply Rmult_le_reg_r with (sin th); [lra|]. unfold Rdiv. rewrite Rmult_assoc, Rinv_l by lra. lra. }
    split; [apply Rmult_lt_0_compat; lra|]. apply Rle_trans with (1 / 100 * 2); [apply Rmult_le_compat; lra|lra]. }
  set (wis := w * w * (nu / sin th)) in *. set (bq := b * (nu / sin th)). assert (BQ : 0 < bq) by (apply Rmult_lt_0_compat; lra).
  assert (X : Rabs (th * th) <= 5 / 2) by (rewrite Rabs_pos_eq; nra).
  assert (I2 : Rabs (wis * wis) <= 1 / 2500) by (apply (hmul wis wis (1 / 50) (1 / 50)); [rewrite Rabs_pos_eq; lra|rewrite Rabs_pos_eq; lra|lra]).
  assert (G : Rabs (@sf1t RA (th * th) + wis * wis * (@sf2t RA (th * th) + wis * wis * @sf3t RA (th * th))) <= 6 / 100).
  { apply (hr _ (wis * wis) _ 1 (1 / 2500) (54 / 1000)); [|exact I2|apply sf1t_bound; exact X|lra].
    apply (hr _ (wis * wis) _ 1 (1 / 2500) (1 / 10)); [|exact I2| |lra].
    - eapply Rle_trans; [apply sf3t_bound; exact X|lra].
    - eapply Rle_trans; [apply sf2t_bound; exact X|lra]. }
  assert (G' : Rabs (@wsf1t RA (th * th) + wis * wis * (@wsf2t RA (th * th) + wis * wis * @wsf3t RA (th * th))) <= 1).
  { apply (hr _ (wis * wis) _ 1 (1 / 2500) (1 / 2)); [|exact I2| |lra].
    2:{ eapply Rle_trans; [apply wsf1t_bound; exact X|lra]. }
    apply (hr _ (wis * wis) _ 1 (1 / 2500) (1 / 10)); [|exact I2| |lra].
    - eapply Rle_trans; [apply wsf3t_bound; exact X|lra].
    - eapply Rle_trans; [apply wsf2t_bound; exact X|lra]. }
  split.
  - set (g := (_ + wis * wis * (@sf2t RA _ + _))) in *. clearbody g.
    replace (52 / 1000 / (IZR n + / 2)) with (w * (52 / 1000)) by (unfold w; field; lra).
    replace (w * (nu + th * wis * g) - PI * (IZR k - / 4) / (IZR n + / 2)) with (w * (nu - PI * (IZR k - / 4) + th * wis * g)) by (unfold w; field; lra).
    rewrite Rabs_mult, (Rabs_pos_eq w) by lra. apply Rmult_le_compat_l; [lra|].
    eapply Rle_trans; [apply Rabs_triang|].
    assert (Rabs (th * wis * g) <= 2 / 1000); [|lra].
    apply (hmul _ _ (316 / 10000) (6 / 100)); [|exact G|lra]. apply (hmul _ _ (158 / 100) (1 / 50)); [rewrite Rabs_pos_eq; lra|rewrite Rabs_pos_eq; lra|lra].
  - set (g := (_ + wis * wis * (@wsf2t RA _ + _))) in *. clearbody g.
    apply Rdiv_lt_0_compat; [lra|]. replace (bq + bq * (wis * wis) * g) with (bq * (1 + wis * wis * g)) by ring.
    apply Rmult_lt_0_compat; [exact BQ|].
    assert (B : Rabs (wis * wis * g) <= 1 / 2) by (apply (hmul _ _ (1 / 2500) 1); [exact I2|exact G'|lra]). apply abs_lower in B. lra.
Qed.

(** every angle, counted from 0, is close to (i + 3/4) PI / (n + 1/2) *)
Lemma tw_close : forall t n i, (100 <= usize_max t)%Z -> (100 < n)%Z -> (2 * n <= usize_max t)%Z -> (i < Z.to_nat n)%nat ->
  Rabs (fst (@tw RA t n i) - PI * (INR i + 3 / 4) / (IZR n + / 2)) <= 52 / 1000 / (IZR n + / 2) /\ 0 < snd (@tw RA t n i).
Proof.
  intros t n i Hu Hn H2n Hi.
  assert (C : forall j, (2 * j + 1 <= Z.to_nat n)%nat -> (j < Z.to_nat n)%nat ->
    Rabs (fst (@tw RA t n j) - PI * (INR j + 3 / 4) / (IZR n + / 2)) <= 52 / 1000 / (IZR n + / 2) /\ 0 < snd (@tw RA t n j)).
  { intros j Hj Hj'. unfold tw, theta_weight_pair. destruct (Z.leb_spec n 100); [lia|].
    rewrite usize_mul_ok by lia. cbn [bind]. rewrite usize_sub_ok by lia. cbn [bind].
    destruct (Z.ltb_spec n (2 * (1 + Z.of_nat j) - 1)); [lia|].
    destruct (compute_ok (A := RA) t n (1 + Z.of_nat j) Hu ltac:(lia)) as [p E]. rewrite E. unfold compute_pair in E.
    destruct (@bessel_j0_zero RA t (1 + Z.of_nat j)) as [nu|] eqn:E1; [|discriminate]. cbn [bind] in E.
    destruct (@bessel_j1_squared RA t (1 + Z.of_nat j)) as [b|] eqn:E2; [|discriminate]. cbn [bind] in E. injection E as <-.
    apply j0_zero_close in E1; [|lia|lia]. apply j1_squared_pos in E2; [|lia|lia].
    destruct (expansion_close n (1 + Z.of_nat j) nu b Hn ltac:(lia) ltac:(lia) E1 E2) as [A B]. split; [|exact B].
    rewrite plus_IZR, <- INR_IZR_INZ in A. replace (INR j + 3 / 4) with (1 + INR j - / 4) by lra. exact A. }
  destruct (Nat.leb_spec (2 * i + 1) (Z.to_nat n)) as [H|H]; [apply C; assumption|].
  set (j := (Z.to_nat n - 1 - i)%nat). assert (Hj : (2 * j + 1 < Z.to_nat n)%nat) by (unfold j; lia).
  pose proof (tw_sym (A := RA) t n j Hu ltac:(lia) H2n Hj) as T. replace (Z.to_nat n - 1 - j)%nat with i in T by (unfold j; lia).
  rewrite T. cbn [fst snd]. destruct (C j ltac:(lia) ltac:(lia)) as [A B]. split; [|exact B].
  change (@nsub RA (@npi RA)) with (Rminus PI).
  assert (E : INR i + INR j + 1 = IZR n).
  { rewrite <- plus_INR, <- S_INR. rewrite INR_IZR_INZ. f_equal. unfold j. lia. }
  assert (N : 101 <= IZR n) by (apply IZR_le; lia).
  replace (PI - fst (@tw RA t n j) - PI * (INR i + 3 / 4) / (IZR n + / 2)) with (- (fst (@tw RA t n j) - PI * (INR j + 3 / 4) / (IZR n + / 2))).
  - rewrite Rabs_Ropp. exact A.
  - replace (INR i) with (IZR n - 1 - INR j) by lra.
    match goal with |- - (?x - _) = PI - ?x - _ => generalize (x : R) end. intros x. field. lra.
Qed.
