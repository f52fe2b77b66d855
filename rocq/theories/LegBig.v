(** Gauss-Legendre rules of more than 100 points: the weights are close to
    PI/(n+1/2) times the sine of the angle, in exact arithmetic. *)
From Coq Require Import Reals ZArith List Lia Lra Bool.
From Verif Require Import Arith RInst Machine Rules Par LegendreData Legendre SizeProof RInstProof LegSym GammaProof LegAsym.
Import ListNotations.
Local Open Scope R_scope.

Lemma PI_upper : PI < 31415926535897933 / 10000000000000000.
Proof. assert (H := proj2 (PI_2_3_7_ineq 8)). unfold tg_alt, PI_2_3_7_tg, Ratan_seq in H. simpl in H. lra. Qed.

(** beyond the table the zero is z + q/z with q close to 1/8 *)
Lemma j0_asym : forall t k nu, (21 <= k)%Z -> @bessel_j0_zero RA t k = Ok nu ->
  exists q, Rabs q <= 126 / 1000 /\ nu = PI * (IZR k - / 4) + q / (PI * (IZR k - / 4)).
Proof.
  intros t k nu Hk. pose proof PI_lo as PL. unfold bessel_j0_zero. destruct (Z.ltb_spec 20 k) as [H|H]; [|lia].
  intros E. injection E as <-. cbn [nadd nsub nmul ndiv nlit nofZ npi RA].
  replace (R_lit 25 (-2)) with (/ 4) by (unfold R_lit; simpl; lra). rewrite rl1.
  assert (K : 21 <= IZR k) by (apply IZR_le; lia). set (z := PI * (IZR k - / 4)).
  assert (Z : 60 <= z). { unfold z. pose proof (Rmult_le_compat (31415 / 10000) PI (20 + 3 / 4) (IZR k - / 4)). lra. }
  assert (R0 : Rabs (1 / z) <= 1 / 60).
  { unfold Rdiv. rewrite !Rmult_1_l. rewrite Rabs_pos_eq; [apply Rinv_le_contravar; lra|]. left. apply Rinv_0_lt_compat. lra. }
  assert (Er : forall q, q / z = 1 / z * q) by (intros; unfold Rdiv; ring).
  set (r := 1 / z) in *. clearbody r z.
  assert (R2 : Rabs (r * r) <= 1 / 3600) by (apply (hmul r r (1 / 60) (1 / 60)); [exact R0|exact R0|lra]).
  set (r2 := r * r) in *. clearbody r2.
  eexists. split; [|rewrite Er; reflexivity].
  apply (hr _ r2 _ 1 (1 / 3600) (125 / 1000)); [|exact R2|lit|lra].
  apply (hr _ r2 _ 1 (1 / 3600) (9 / 100)); [|exact R2|lit|lra].
  apply (hr _ r2 _ 2 (1 / 3600) (25 / 100)); [|exact R2|lit|lra].
  apply (hr _ r2 _ 26 (1 / 3600) (19 / 10)); [|exact R2|lit|lra].
  apply (hr _ r2 _ 600 (1 / 3600) (255 / 10)); [|exact R2|lit|lra].
  apply (hr _ r2 _ 20000 (1 / 3600) 570); [|exact R2|lit|lra].
  apply (hr _ r2 _ 900000 (1 / 3600) 18700); [|exact R2|lit|lra].
  apply (hq _ r2 _ 60000000 (1 / 3600) 850000); [|exact R2|lit|lra].
  lit.
Qed.
Lemma j1_asym : forall t k b, (22 <= k)%Z -> @bessel_j1_squared RA t k = Ok b ->
  exists p, Rabs p <= 1 / 1000 /\ b = / (IZR k - / 4) * (20264236728467555 / 10 ^ 17 + (/ (IZR k - / 4)) ^ 4 * p).
Proof.
  intros t k b Hk. unfold bessel_j1_squared. destruct (Z.ltb_spec 21 k) as [H|H]; [|lia].
  intros E. injection E as <-. cbn [nadd nsub nmul ndiv nlit nofZ npi RA].
  replace (R_lit 25 (-2)) with (/ 4) by (unfold R_lit; simpl; lra). rewrite rl1.
  replace (R_lit 20264236728467555 (-17)) with (20264236728467555 / 10 ^ 17) by (unfold R_lit; simpl; lra).
  assert (K : 22 <= IZR k) by (apply IZR_le; lia).
  replace (1 / (IZR k - / 4)) with (/ (IZR k - / 4)) by (unfold Rdiv; ring).
  assert (X1 : Rabs (/ (IZR k - / 4)) <= 1 / 20).
  { rewrite Rabs_pos_eq by (left; apply Rinv_0_lt_compat; lra). unfold Rdiv. rewrite !Rmult_1_l. apply Rinv_le_contravar; lra. }
  set (x := / (IZR k - / 4)) in *. clearbody x.
  replace (x ^ 4) with (x * x * (x * x)) by ring.
  assert (X2 : Rabs (x * x) <= 1 / 400) by (apply (hmul x x (1 / 20) (1 / 20)); [exact X1|exact X1|lra]).
  set (x2 := x * x) in *. clearbody x2.
  eexists. split; [|reflexivity].
  apply (hr _ x2 _ (1 / 10) (1 / 400) (4 / 10000)); [|exact X2|lit|lra].
  apply (hr _ x2 _ 1 (1 / 400) (1 / 100)); [|exact X2|lit|lra].
  apply (hr _ x2 _ 1 (1 / 400) (1 / 100)); [|exact X2|lit|lra].
  apply (hr _ x2 _ 1 (1 / 400) (1 / 100)); [|exact X2|lit|lra].
  apply (hr _ x2 _ 1 (1 / 400) (1 / 100)); [|exact X2|lit|lra].
  apply (hr _ x2 _ 1 (1 / 400) (1 / 100)); [|exact X2|lit|lra].
  apply (hq _ x2 _ 1 (1 / 400) (3 / 100)); [|exact X2|lit|lra].
  lit.
Qed.

(** the product of the two Bessel quantities is close to 2/PI *)
Lemma bessel_product : forall t k nu b, (100 <= usize_max t)%Z -> (1 <= k)%Z -> @bessel_j0_zero RA t k = Ok nu -> @bessel_j1_squared RA t k = Ok b ->
  Rabs (b * nu * (PI / 2) - 1) <= 1 / (50 * (IZR k * IZR k)) + 5 / 10 ^ 16.
Proof.
  intros t k nu b Hu Hk E1 E2. pose proof PI_lower as PL. pose proof PI_upper as PU.
  destruct (Z_le_gt_dec 22 k) as [Hk22|Hk22]; [|destruct (Z.eq_dec k 21) as [Ek|Hk21]].
  - destruct (j0_asym t k nu ltac:(lia) E1) as (q & Hq & ->). destruct (j1_asym t k b Hk22 E2) as (p & Hp & ->).
    assert (K : 22 <= IZR k) by (apply IZR_le; lia). set (y := IZR k - / 4).
    set (c := 20264236728467555 / 10 ^ 17).
    assert (Y : 21 <= y) by (unfold y; lra).
    assert (Ex : / y * (c + (/ y) ^ 4 * p) * (PI * y + q / (PI * y)) * (PI / 2) - 1
       = (c * (PI * PI) / 2 - 1) + (c * q / 2 + (/ y) * (/ y) * p * (PI * PI / 2 + (/ y) * (/ y) * q / 2)) * ((/ y) * (/ y))) by (field; lra).
    rewrite Ex. clear Ex E1 E2.
    assert (P2 : 98 / 10 <= PI * PI <= 99 / 10) by (clear -PL PU; split; nra).
    assert (A : Rabs (c * (PI * PI) / 2 - 1) <= 5 / 10 ^ 16).
    { assert (Q1 : 31415926535897925 / 10000000000000000 * (31415926535897925 / 10000000000000000) <= PI * PI) by (apply Rmult_le_compat; lra).
      assert (Q2 : PI * PI <= 31415926535897933 / 10000000000000000 * (31415926535897933 / 10000000000000000)) by (apply Rmult_le_compat; lra).
      unfold c. apply Rabs_le. lra. }
    assert (X1 : Rabs (/ y) <= 1 / 20).
    { rewrite Rabs_pos_eq by (left; apply Rinv_0_lt_compat; lra). unfold Rdiv. rewrite !Rmult_1_l. apply Rinv_le_contravar; lra. }
    assert (X2 : Rabs (/ y * / y) <= 1 / 400) by (apply (hmul _ _ (1 / 20) (1 / 20)); [exact X1|exact X1|lra]).
    assert (X3 : 0 <= / y * / y <= 15 / 10 * / (IZR k * IZR k)).
    { split; [apply Rmult_le_pos; left; apply Rinv_0_lt_compat; lra|]. rewrite <- Rinv_mult_distr by lra.
      apply (Rmult_le_reg_r (y * y * (IZR k * IZR k))); [apply Rmult_lt_0_compat; nra|].
      replace (/ (y * y) * (y * y * (IZR k * IZR k))) with (IZR k * IZR k) by (field; lra).
      replace (15 / 10 * / (IZR k * IZR k) * (y * y * (IZR k * IZR k))) with (15 / 10 * (y * y)) by (field; lra). unfold y. nra. }
    set (u := / y * / y) in *. clearbody u.
    assert (B : Rabs (c * q / 2 + u * p * (PI * PI / 2 + u * q / 2)) <= 13 / 1000).
    { eapply Rle_trans; [apply Rabs_triang|].
      assert (B1 : Rabs (c * q / 2) <= 1278 / 100000).
      { unfold Rdiv. rewrite !Rabs_mult. rewrite (Rabs_pos_eq c), (Rabs_pos_eq (/ 2)) by (unfold c; lra). unfold c. lra. }
      assert (B2 : Rabs (u * p * (PI * PI / 2 + u * q / 2)) <= 2 / 100000).
      { apply (hmul _ _ (1 / 400000) 6); [apply (hmul _ _ (1 / 400) (1 / 1000)); [exact X2|exact Hp|lra]| |lra].
        eapply Rle_trans; [apply Rabs_triang|]. rewrite (Rabs_pos_eq (PI * PI / 2)) by lra.
        assert (Rabs (u * q / 2) <= 1).
        { unfold Rdiv. rewrite Rabs_mult, (Rabs_pos_eq (/ 2)) by lra. assert (Rabs (u * q) <= 1) by (apply (hmul _ _ (1 / 400) (126 / 1000)); [exact X2|exact Hq|lra]). lra. }
        lra. }
      lra. }
    eapply Rle_trans; [apply Rabs_triang|]. rewrite Rabs_mult, (Rabs_pos_eq u) by lra.
    replace (1 / (50 * (IZR k * IZR k))) with (/ 50 * / (IZR k * IZR k)) by (field; lra).
    assert (Rabs (c * q / 2 + u * p * (PI * PI / 2 + u * q / 2)) * u <= 13 / 1000 * (15 / 10 * / (IZR k * IZR k))).
    { apply Rmult_le_compat; [apply Rabs_pos|lra|exact B|lra]. }
    assert (0 < / (IZR k * IZR k)) by (apply Rinv_0_lt_compat; nra). lra.
  - subst k. destruct (j0_asym t 21 nu ltac:(lia) E1) as (q & Hq & ->). clear E1.
    unfold bessel_j1_squared in E2. replace (21 <? 21)%Z with false in E2 by reflexivity. rewrite usize_sub_ok in E2 by lia. cbn [bind] in E2.
    apply tab_R in E2. destruct E2 as (d & E2 & ->). change (Z.to_nat (21 - 1)) with 20%nat in E2. injection E2 as <-. unfold R_lit. simpl.
    assert (Hq1 := abs_lower _ _ Hq). assert (Hq2 := abs_upper _ _ Hq).
    match goal with |- Rabs (?b * _ * _ - 1) <= _ => set (c := b) end.
    replace (c * (PI * (21 - / 4) + q / (PI * (21 - / 4))) * (PI / 2) - 1) with (c * (21 - / 4) * (PI * PI) / 2 - 1 + c * q * (2 / 83)) by (field; lra).
    assert (Q1 : 31415926535897925 / 10000000000000000 * (31415926535897925 / 10000000000000000) <= PI * PI) by (apply Rmult_le_compat; lra).
    assert (Q2 : PI * PI <= 31415926535897933 / 10000000000000000 * (31415926535897933 / 10000000000000000)) by (apply Rmult_le_compat; lra).
    unfold c. apply Rabs_le. lra.
  - assert (Hk20 : (1 <= k <= 20)%Z) by lia. unfold bessel_j0_zero in E1. unfold bessel_j1_squared in E2.
    destruct (Z.ltb_spec 20 k); [lia|]. destruct (Z.ltb_spec 21 k); [lia|]. rewrite usize_sub_ok in E1, E2 by lia. cbn [bind] in E1, E2.
    apply tab_R in E1. destruct E1 as (d1 & E1 & ->). apply tab_R in E2. destruct E2 as (d2 & E2 & ->).
    assert (Hn : exists m : nat, (m < 20)%nat /\ k = (1 + Z.of_nat m)%Z) by (exists (Z.to_nat (k - 1)); lia).
    destruct Hn as (m & Hm & ->). replace (Z.to_nat (1 + Z.of_nat m - 1)) with m in E1, E2 by lia.
    do 20 (destruct m as [|m]; [injection E1 as <-; injection E2 as <-; unfold R_lit; simpl; apply Rabs_le; lra|]). lia.
Qed.

Lemma sin_lipschitz : forall x y, Rabs (sin x - sin y) <= Rabs (x - y).
Proof.
  intros x y. destruct (MVT_abs sin cos x y) as (c & E & _); [intros; apply derivable_pt_lim_sin|].
  rewrite (Rabs_minus_sym x y), (Rabs_minus_sym (sin x) (sin y)), E. assert (B := COS_bound c). assert (Rabs (cos c) <= 1) by (apply Rabs_le; lra).
  assert (P := Rabs_pos (y - x)). nra.
Qed.
Lemma cos_lipschitz : forall x y, Rabs (cos x - cos y) <= Rabs (x - y).
Proof.
  intros x y. destruct (MVT_abs cos (fun x => - sin x) x y) as (c & E & _); [intros; apply derivable_pt_lim_cos|].
  rewrite (Rabs_minus_sym x y), (Rabs_minus_sym (cos x) (cos y)), E. assert (B := SIN_bound c). assert (Rabs (- sin c) <= 1) by (apply Rabs_le; lra).
  assert (P := Rabs_pos (y - x)). nra.
Qed.
Lemma quotient_close : forall d e D E, Rabs d <= D -> Rabs e <= E -> D <= 21 / 1000 -> E <= 1 / 1000 -> Rabs (/ ((1 + d) * (1 + e)) - 1) <= 105 / 100 * (D + E).
Proof.
  intros d e D E Hd He HD HE. assert (D1 := abs_lower _ _ Hd). assert (D2 := abs_upper _ _ Hd). assert (E1 := abs_lower _ _ He). assert (E2 := abs_upper _ _ He).
  assert (D0 : 0 <= D) by (assert (P := Rabs_pos d); lra). assert (E0 : 0 <= E) by (assert (P := Rabs_pos e); lra).
  set (s := d + e + d * e). assert (Es : (1 + d) * (1 + e) = 1 + s) by (unfold s; ring). rewrite Es.
  assert (S : Rabs s <= 102 / 100 * (D + E)).
  { unfold s. eapply Rle_trans; [apply Rabs_triang|]. assert (A := Rabs_triang d e). rewrite Rabs_mult.
    assert (Rabs d * Rabs e <= D * (1 / 1000)) by (apply Rmult_le_compat; try apply Rabs_pos; lra). lra. }
  assert (S1 := abs_lower _ _ S). assert (S2 := abs_upper _ _ S).
  replace (/ (1 + s) - 1) with (- s * / (1 + s)) by (field; lra). rewrite Rabs_mult, Rabs_Ropp, (Rabs_pos_eq (/ (1 + s))) by (left; apply Rinv_0_lt_compat; lra).
  assert (I : / (1 + s) <= 1024 / 1000).
  { apply (Rmult_le_reg_r (1 + s)); [lra|]. rewrite Rinv_l by lra. lra. }
  apply Rle_trans with (102 / 100 * (D + E) * (1024 / 1000)); [|lra].
  apply Rmult_le_compat; [apply Rabs_pos|left; apply Rinv_0_lt_compat; lra|exact S|exact I].
Qed.
Lemma weight_core : forall w s P b q g, 0 < w -> 0 < s -> 0 < P -> b <> 0 -> q <> 0 -> 1 + g <> 0 ->
  2 * w / (b * (q / s) * (1 + g)) = P * w * s * / (b * q * (P / 2) * (1 + g)).
Proof. intros. field. repeat split; try assumption; lra. Qed.

Lemma expansion_weight : forall n k (nu b : R), (100 < n)%Z -> (1 <= k)%Z -> (2 * k <= n + 1)%Z ->
  Rabs (nu - PI * (IZR k - / 4)) <= 5 / 100 -> 0 < b -> Rabs (b * nu * (PI / 2) - 1) <= 1 / (50 * (IZR k * IZR k)) + 5 / 10 ^ 16 ->
  Rabs (snd (@expansion RA n nu b) - PI / (IZR n + / 2) * sin (fst (@expansion RA n nu b)))
    <= PI / (IZR n + / 2) * (1 / (40 * (IZR k * IZR k)) + 6 / 10 ^ 16 + 2 / ((IZR n + / 2) * (IZR n + / 2))).
Proof.
  intros n k nu b Hn Hk H2k Hnu Hb Hd. pose proof PI_lo as PL. pose proof PI_up as PU.
  assert (N : 101 <= IZR n) by (apply IZR_le; lia). assert (K1 : 1 <= IZR k) by (apply IZR_le; lia).
  assert (K2 : 2 * IZR k <= IZR n + 1) by (rewrite <- mult_IZR; rewrite <- plus_IZR; apply IZR_le; lia).
  unfold expansion. cbn [nadd nsub nmul ndiv nlit nofZ npi nsin RA fst snd].
  change (@lit1 RA) with (R_lit 1 0). change (@lit2 RA) with (R_lit 2 0). change (@lit_half RA) with (R_lit 5 (-1)). rewrite ?rl1, ?rl2, ?rlhalf.
  replace (PI / (IZR n + / 2)) with (PI * (1 / (IZR n + / 2))) by (field; lra).
  replace (2 / ((IZR n + / 2) * (IZR n + / 2))) with (2 * (1 / (IZR n + / 2) * (1 / (IZR n + / 2)))) by (field; lra).
  assert (W1 : 1 / (IZR n + / 2) * (IZR n + / 2) = 1) by (field; lra).
  assert (W0 : 0 < 1 / (IZR n + / 2)) by (apply Rdiv_lt_0_compat; lra).
  assert (W2 : 1 / (IZR n + / 2) <= 1 / 100) by (unfold Rdiv; rewrite !Rmult_1_l; apply Rinv_le_contravar; lra).
  set (w := 1 / (IZR n + / 2)) in *. clearbody w.
  assert (NU1 : 2 <= nu) by (apply abs_lower in Hnu; nra).
  assert (NU2 : nu <= PI * (IZR k - / 4) + 5 / 100) by (apply abs_upper in Hnu; lra).
  assert (TH : 0 < w * nu <= 158 / 100).
  { split; [apply Rmult_lt_0_compat; lra|]. apply Rle_trans with (w * (PI * ((IZR n + / 2) / 2) + 5 / 100)).
    - apply Rmult_le_compat_l; [lra|]. apply Rle_trans with (1 := NU2). apply Rplus_le_compat_r. apply Rmult_le_compat_l; lra.
    - replace (w * (PI * ((IZR n + / 2) / 2) + 5 / 100)) with (PI / 2 * (w * (IZR n + / 2)) + w * (5 / 100)) by field. rewrite W1. lra. }
  set (th := w * nu) in *. assert (S := sin_half th TH). assert (SP : 0 < sin th) by lra.
  assert (Q0 : 0 < nu / sin th) by (apply Rdiv_lt_0_compat; lra).
  assert (I0 : 0 < w * w * (nu / sin th) <= 2 * w).
  { assert (EE : forall s, s <> 0 -> w * w * (nu / s) = w * (w * nu / s)) by (intros; field; assumption). rewrite EE by lra. fold th. clear EE.
    assert (0 < th / sin th <= 2). { split; [apply Rdiv_lt_0_compat; lra|]. apply Rmult_le_reg_r with (sin th); [lra|]. unfold Rdiv. rewrite Rmult_assoc, Rinv_l by lra. lra. }
    split; [apply Rmult_lt_0_compat; lra|]. rewrite (Rmult_comm 2 w). apply Rmult_le_compat_l; lra. }
  set (wis := w * w * (nu / sin th)) in *.
  assert (X : Rabs (th * th) <= 5 / 2) by (rewrite Rabs_pos_eq; nra).
  assert (I2 : Rabs (wis * wis) <= 4 * (w * w)) by (rewrite Rabs_pos_eq; nra).
  assert (I3 : Rabs (wis * wis) <= 1 / 2500) by (eapply Rle_trans; [exact I2|]; nra).
  assert (G : Rabs (@sf1t RA (th * th) + wis * wis * (@sf2t RA (th * th) + wis * wis * @sf3t RA (th * th))) <= 6 / 100).
  { apply (hr _ (wis * wis) _ 1 (1 / 2500) (54 / 1000)); [|exact I3|apply sf1t_bound; exact X|lra].
    apply (hr _ (wis * wis) _ 1 (1 / 2500) (1 / 10)); [|exact I3| |lra].
    - eapply Rle_trans; [apply sf3t_bound; exact X|lra].
    - eapply Rle_trans; [apply sf2t_bound; exact X|lra]. }
  assert (G' : Rabs (@wsf1t RA (th * th) + wis * wis * (@wsf2t RA (th * th) + wis * wis * @wsf3t RA (th * th))) <= 21 / 100).
  { apply (hr _ (wis * wis) _ 1 (1 / 2500) (20 / 100)); [|exact I3| |lra].
    2:{ eapply Rle_trans; [apply wsf1t_bound; exact X|lra]. }
    apply (hr _ (wis * wis) _ 1 (1 / 2500) (1 / 10)); [|exact I3| |lra].
    - eapply Rle_trans; [apply wsf3t_bound; exact X|lra].
    - eapply Rle_trans; [apply wsf2t_bound; exact X|lra]. }
  set (g1 := (@sf1t RA _ + wis * wis * (@sf2t RA _ + _))) in *. clearbody g1.
  set (g2 := (@wsf1t RA _ + wis * wis * (@wsf2t RA _ + _))) in *. clearbody g2.
  set (eta := wis * wis * g2). assert (Eta : Rabs eta <= 84 / 100 * (w * w)).
  { apply (hmul _ _ (4 * (w * w)) (21 / 100)); [exact I2|exact G'|lra]. }
  assert (Ew : w * w <= 1 / 10000) by nra.
  assert (Eta1 : -1 / 1000 <= eta <= 1 / 1000) by (assert (T1 := abs_lower _ _ Eta); assert (T2 := abs_upper _ _ Eta); lra).
  set (dd := b * nu * (PI / 2) - 1) in *.
  assert (Kp : 0 < 1 / (IZR k * IZR k) <= 1).
  { split; [apply Rdiv_lt_0_compat; nra|]. apply (Rmult_le_reg_r (IZR k * IZR k)); [nra|]. unfold Rdiv. rewrite Rmult_assoc, Rinv_l by nra. nra. }
  replace (1 / (50 * (IZR k * IZR k))) with (1 / 50 * (1 / (IZR k * IZR k))) in Hd by (field; lra).
  replace (1 / (40 * (IZR k * IZR k))) with (1 / 40 * (1 / (IZR k * IZR k))) by (field; lra).
  set (kk := 1 / (IZR k * IZR k)) in *. clearbody kk.
  assert (QC := quotient_close dd eta _ _ Hd Eta ltac:(lra) ltac:(lra)).
  assert (Wt : 2 * w / (b * (nu / sin th) + b * (nu / sin th) * (wis * wis) * g2) = PI * w * sin th * / ((1 + dd) * (1 + eta))).
  { replace (b * (nu / sin th) + b * (nu / sin th) * (wis * wis) * g2) with (b * (nu / sin th) * (1 + eta)) by (unfold eta; ring).
    replace (1 + dd) with (b * nu * (PI / 2)) by (unfold dd; ring). apply weight_core; lra. }
  rewrite Wt. set (sg := sin (w * (nu + th * wis * g1))).
  assert (Ds : Rabs (sin th - sg) <= 2 / 10 * (w * w)).
  { unfold sg. eapply Rle_trans; [apply sin_lipschitz|]. replace (th - w * (nu + th * wis * g1)) with (- (w * (th * wis * g1))) by (unfold th; ring).
    rewrite Rabs_Ropp. apply Rle_trans with (w * (2 / 10 * w)); [|lra].
    rewrite Rabs_mult, (Rabs_pos_eq w) by lra. apply Rmult_le_compat_l; [lra|].
    apply (hmul _ _ (316 / 100 * w) (6 / 100)); [|exact G|lra]. apply (hmul _ _ (158 / 100) (2 * w)); [rewrite Rabs_pos_eq; lra|rewrite Rabs_pos_eq; lra|lra]. }
  set (iv := / ((1 + dd) * (1 + eta))) in *.
  replace (PI * w * sin th * iv - PI * w * sg) with (PI * w * (sin th * (iv - 1) + (sin th - sg))) by ring.
  assert (Pw : 0 < PI * w) by (apply Rmult_lt_0_compat; lra).
  rewrite Rabs_mult, (Rabs_pos_eq (PI * w)) by lra. apply Rmult_le_compat_l; [lra|].
  eapply Rle_trans; [apply Rabs_triang|]. rewrite Rabs_mult, (Rabs_pos_eq (sin th)) by lra.
  assert (S1 : sin th <= 1) by apply SIN_bound.
  assert (sin th * Rabs (iv - 1) <= Rabs (iv - 1)) by (assert (T := Rabs_pos (iv - 1)); nra).
  assert (Z : 0 < w * w) by nra. lra.
Qed.
