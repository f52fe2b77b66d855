(** The Bessel quantities used by the expansion, for every index: conclusion. *)
From Coq Require Import Reals ZArith Bool List Lra Lia Psatz.
From Coquelicot Require Import Coquelicot.
From Verif Require Import Arith RInst Machine Rules Par LegendreData Legendre SizeProof RInstProof LegSym GammaProof LegAsym LegBig AccF64 TM Ode Bessel BesselJ BesselTab McPoly McMahon McRule.
Import ListNotations.
Local Open Scope R_scope.

Definition tk (k : Z) : R := PI * (IZR k - / 4).
Lemma tk_big : forall k, (21 <= k)%Z -> 6518 / 100 < tk k. Proof. intros k Hk. apply IZR_le in Hk. pose proof PI_lo30. unfold tk. nra. Qed.
Section K.
Variable k : Z. Hypothesis Hk : (21 <= k)%Z.
Notation t := (tk k).
Lemma V1a : 79 / 100 <= Rabs (V1 ta) <= 80 / 100.
Proof. pose proof V1_ta as K. apply abs_both in K. unfold W0 in K. assert (E : V1 ta * V1 ta = Rabs (V1 ta) * Rabs (V1 ta)) by (rewrite <- Rabs_mult, Rabs_pos_eq by nra; reflexivity). rewrite E in K. pose proof (Rabs_pos (V1 ta)). split; nra. Qed.
Lemma at_k : Rabs (V t) <= 4 / 10 ^ 16 /\ Rabs ((V1 t - Lm t * V t) * (V1 t - Lm t * V t) - W0) <= 1 / 10 ^ 15.
Proof.
  pose proof (tk_big k Hk) as B. destruct ta_near as (_ & T & _). pose proof V_ta as A0. pose proof V1_ta as A1. pose proof V1a as A2.
  destruct (amp_close ta (t + 1) ltac:(lra) ltac:(lra) ltac:(lra) t ltac:(lra)) as [C1 C0].
  assert (D : t - ta = IZR (k - 20) * PI) by (unfold tk, ta; rewrite minus_IZR; ring). assert (S : sin (t - ta) = 0) by (apply sin_eq_0_1; exists (k - 20)%Z; exact D).
  pose proof (sin2_cos2 (t - ta)) as SC. unfold Rsqr in SC. unfold amp0 in C0. unfold amp1 in C1. rewrite S in C0, C1, SC. set (c := cos (t - ta)) in *. clearbody c. clear S D.
  assert (Cc : Rabs c = 1). { assert (E : Rabs c * Rabs c = 1) by (rewrite <- Rabs_mult, Rabs_pos_eq; nra). pose proof (Rabs_pos c). nra. }
  assert (V0 : Rabs (V t) <= 4 / 10 ^ 16).
  { replace (V t) with ((V t - (V ta * c + V1 ta * 0)) + V ta * c) by ring. eapply Rle_trans; [apply Rabs_triang|]. rewrite (Rabs_mult (V ta)), Cc. lra. }
  split; [exact V0|]. pose proof (Lm_small t ltac:(lra)) as Lb. assert (E : Rabs (Lm t * V t) <= 8 / 10 ^ 18). { rewrite Rabs_mult. apply Rle_trans with (/ 50 * (4 / 10 ^ 16)); [apply Rmult_le_compat; try apply Rabs_pos; lra|lra]. }
  set (e := (V1 t - Lm t * V t) - V1 ta * c). assert (Ee : Rabs e <= 9 / 10 ^ 18). { unfold e. replace (V1 t - Lm t * V t - V1 ta * c) with ((V1 t - (- V ta * 0 + V1 ta * c)) + - (Lm t * V t)) by ring. eapply Rle_trans; [apply Rabs_triang|]. rewrite Rabs_Ropp. lra. }
  replace ((V1 t - Lm t * V t) * (V1 t - Lm t * V t) - W0) with ((V1 ta * V1 ta - W0) + (2 * (V1 ta * c) + e) * e + (c * c - 1) * (V1 ta * V1 ta)) by (unfold e; ring). replace (c * c) with 1 by lra.
  eapply Rle_trans; [apply Rabs_triang|]. replace ((1 - 1) * (V1 ta * V1 ta)) with 0 by ring. rewrite Rabs_R0, Rplus_0_r. eapply Rle_trans; [apply Rabs_triang|]. rewrite (Rabs_mult _ e).
  assert (Rabs (2 * (V1 ta * c) + e) <= 2). { eapply Rle_trans; [apply Rabs_triang|]. rewrite !Rabs_mult, Cc, (Rabs_pos_eq 2) by lra. lra. }
  assert (Rabs (2 * (V1 ta * c) + e) * Rabs e <= 2 * (9 / 10 ^ 18)) by (apply Rmult_le_compat; try apply Rabs_pos; assumption). lra.
Qed.
Definition bk : R := / (IZR k - / 4) * horner BC (/ (IZR k - / 4) * / (IZR k - / 4)).
Lemma bk_W : Rabs (bk * (Zt t * Z1 t) - W0) <= 3 / 10 ^ 17.
Proof.
  pose proof (tk_big k Hk) as B. pose proof (rr_ok t ltac:(lra)) as R0. pose proof (bb_small (rr t) ltac:(lra)) as S. unfold W0z in S. change (10 ^ 20)%Z with 100000000000000000000%Z in S. pose proof PI_lo30 as PP. assert (Y : 0 < IZR k - / 4) by (apply IZR_le in Hk; lra).
  assert (EX : / (IZR k - / 4) * / (IZR k - / 4) = PI * PI * rr t) by (unfold rr, tk; field; lra).
  unfold bk. rewrite EX. unfold Zt. fold (Z1 t). unfold W0. set (h := horner BC (PI * PI * rr t)) in *. fold (Z1 t) in S. set (z := ze (rr t)) in *. set (y := Z1 t) in *. clearbody h z y.
  replace (/ (IZR k - / 4) * h * (t * z * y)) with (PI * (h * (z * y))) by (unfold tk; field; lra). eapply Rle_trans; [|exact S]. right. f_equal. f_equal. field.
Qed.
Lemma pair_of : forall b, Rabs (b - bk) <= bk / 10 ^ 16 -> bessel_pair (6 / 10 ^ 15) (2 / 10 ^ 15) (Zt t) b.
Proof.
  intros b Hb. unfold bessel_pair. pose proof (tk_big k Hk) as B. destruct at_k as [V0 S]. pose proof bk_W as W. pose proof (Zt_rng t ltac:(lra)) as ZR. pose proof (Z1_rng t ltac:(lra)) as BR. destruct (m_sq t ltac:(lra)) as [M P].
  assert (E : V1 t - Lm t * V t = mm t * Z1 t * Jd 1 (Zt t)) by (unfold V1, V, lp1, lp; ring). rewrite E in S. unfold V, lp in V0. rewrite Jd_J0 in *. rewrite J_J0 in *.
  assert (ZP : 0 < Zt t * Z1 t) by (apply Rmult_lt_0_compat; lra). assert (SQ : mm t * Z1 t * J0' (Zt t) * (mm t * Z1 t * J0' (Zt t)) = Zt t * Z1 t * (J0' (Zt t) * J0' (Zt t))). { transitivity (mm t * mm t * (Z1 t * Z1 t) * (J0' (Zt t) * J0' (Zt t))); [ring|]. rewrite M. field. lra. }
  pose proof SQ as SQ'. rewrite SQ in S. unfold W0 in *. set (zp := Zt t * Z1 t) in *. set (j := J0' (Zt t)) in *. set (j0 := J0 (Zt t)) in *. clearbody j j0. apply abs_both in S. apply abs_both in W. apply abs_both in Hb. clear E.
  assert (Bk : 0 < bk). { destruct (Rle_or_lt bk 0); [nra|assumption]. } 
  assert (Bz : Rabs (b * zp - 63661977236758134308 / 10 ^ 20) <= 1 / 10 ^ 16). { assert (- (bk * zp / 10 ^ 16) <= (b - bk) * zp <= bk * zp / 10 ^ 16) by (split; nra). apply Rabs_le. lra. } apply abs_both in Bz.
  assert (b0 : 0 < b) by lra.
  split; [lra|]. split; [exact b0|]. split; [|split].
  - assert (Lo : 79 / 100 <= Rabs (mm t * Z1 t * j)). { assert (Rabs (mm t * Z1 t * j) * Rabs (mm t * Z1 t * j) = zp * (j * j)) by (rewrite <- Rabs_mult, <- SQ; apply Rabs_pos_eq; rewrite SQ; nra). pose proof (Rabs_pos (mm t * Z1 t * j)). nra. }
    rewrite !Rabs_mult, (Rabs_pos_eq (mm t)), (Rabs_pos_eq (Z1 t)) in Lo by lra. rewrite Rabs_mult, (Rabs_pos_eq (mm t)) in V0 by lra.
    apply Rmult_le_reg_l with (mm t); [exact P|]. pose proof (Rabs_pos j). assert (mm t * Z1 t * Rabs j <= 1001 / 1000 * (mm t * Rabs j)) by nra. lra.
  - split; apply Rmult_le_reg_r with zp; try exact ZP; lra.
  - assert (EE : Zt t * b = b * zp / Z1 t) by (unfold zp; field; lra). rewrite EE. split; apply Rmult_le_reg_r with (Z1 t); try lra; unfold Rdiv; rewrite (Rmult_assoc _ (/ Z1 t)), Rinv_l by lra; lra.
Qed.
End K.
Lemma weaken : forall t r r' nu b, r <= r' -> bessel_pair t r nu b -> bessel_pair t r' nu b.
Proof. intros t r r' nu b Hr (A & B & C & D & E). split; [exact A|]. split; [exact B|]. split; [exact C|]. split; [|exact E]. split; nra. Qed.
Lemma nu_k : forall t k nu, (21 <= k)%Z -> @bessel_j0_zero RA t k = Ok nu -> nu = Zt (tk k).
Proof.
  intros t k nu Hk E. pose proof (tk_big k Hk) as B. unfold bessel_j0_zero in E. destruct (Z.ltb_spec 20 k) as [H|H]; [|lia]. injection E as <-. cbn [nadd nsub nmul ndiv nlit nofZ npi RA].
  replace (R_lit 25 (-2)) with (/ 4) by (unfold R_lit; simpl; lra). rewrite rl1. fold (tk k). rewrite !lit_frac by lia. unfold Zt, ze, g, MC. cbn [horner].
  change (- (-3))%Z with 3%Z. change (- (-17))%Z with 17%Z. change (- (-15))%Z with 15%Z. change (- (-13))%Z with 13%Z. change (- (-12))%Z with 12%Z. change (- (-10))%Z with 10%Z. change (- (-8))%Z with 8%Z.
  set (z := tk k) in *. assert (ER : 1 / z * (1 / z) = rr z) by (unfold rr; field; lra). rewrite !ER. set (c0 := IZR 125 / _). set (c1 := IZR (-8072916666666667) / _). set (c2 := IZR 24602864583333334 / _). set (c3 := IZR (-1824438767206101) / _). set (c4 := IZR 25336414797343906 / _). set (c5 := IZR (-5676444121351834) / _). set (c6 := IZR 18690476528232066 / _). set (c7 := IZR (-8493535802991488) / _). set (c8 := IZR 5092254624022268 / _).
  clearbody c0 c1 c2 c3 c4 c5 c6 c7 c8. unfold rr. match goal with |- ?a = ?b => change (@eq R a b) end. field. lra.
Qed.
Lemma b_k : forall t k b, (22 <= k)%Z -> @bessel_j1_squared RA t k = Ok b -> b = bk k.
Proof.
  intros t k b Hk E. unfold bessel_j1_squared in E. destruct (Z.ltb_spec 21 k) as [H|H]; [|lia]. injection E as <-. cbn [nadd nsub nmul ndiv nlit nofZ npi RA].
  replace (R_lit 25 (-2)) with (/ 4) by (unfold R_lit; simpl; lra). rewrite rl1. rewrite !lit_frac by lia. unfold bk, BC. cbn [horner].
  change (- (-17))%Z with 17%Z. change (- (-18))%Z with 18%Z. change (- (-19))%Z with 19%Z. change (- (-20))%Z with 20%Z. apply IZR_le in Hk. assert (Y : 0 < IZR k - / 4) by lra. replace (1 / (IZR k - / 4)) with (/ (IZR k - / 4)) by (field; lra). set (x := / (IZR k - / 4)). clearbody x.
  replace (0 / 1) with 0 by field. set (c0 := IZR 20264236728467555 / _). set (c1 := IZR (-30338042971129027) / _). set (c2 := IZR 1989243642459693 / _). set (c3 := IZR (-22896990277211166) / _). set (c4 := IZR 4337107191307463 / _). set (c5 := IZR (-1236323497271754) / _). set (c6 := IZR 49610142326888314 / _). set (c7 := IZR (-26683739370232377) / _). set (c8 := IZR 18539539820634562 / _).
  clearbody c0 c1 c2 c3 c4 c5 c6 c7 c8. match goal with |- ?a = ?b => change (@eq R a b) end. ring.
Qed.
Theorem all_pairs : forall t k nu b, (100 <= usize_max t)%Z -> (1 <= k)%Z -> @bessel_j0_zero RA t k = Ok nu -> @bessel_j1_squared RA t k = Ok b ->
  bessel_pair (6 / 10 ^ 15) (2 / 10 ^ 15) nu b.
Proof.
  intros t k nu b Hu Hk E1 E2. destruct (Z_le_gt_dec k 20) as [K|K]. { eapply weaken; [|apply (table_pair t k nu b Hu ltac:(lia) E1 E2)]. lra. }
  rewrite (nu_k t k nu ltac:(lia) E1). apply pair_of; [lia|].
  destruct (Z.eq_dec k 21) as [->|K2].
  - unfold bessel_j1_squared in E2. replace (21 <? 21)%Z with false in E2 by reflexivity. rewrite usize_sub_ok in E2 by lia. cbn [bind] in E2.
    apply tab_R in E2. destruct E2 as (d & E2 & ->). change (Z.to_nat (21 - 1)) with 20%nat in E2. injection E2 as <-. cbn [fst snd nlit RA]. rewrite lit_frac by lia. change (10 ^ (- (-18)))%Z with 1000000000000000000%Z.
    unfold bk, BC. cbn [horner]. change (10 ^ 17)%Z with 100000000000000000%Z. change (10 ^ 18)%Z with 1000000000000000000%Z. change (10 ^ 19)%Z with 10000000000000000000%Z. change (10 ^ 20)%Z with 100000000000000000000%Z. replace (/ (21 - / 4)) with (4 / 83) by field. apply Rabs_le. lra.
  - rewrite (b_k t k b ltac:(lia) E2). replace (bk k - bk k) with 0 by ring. rewrite Rabs_R0. pose proof (bk_W k ltac:(lia)) as W. pose proof (tk_big k ltac:(lia)) as B. pose proof (Zt_rng (tk k) ltac:(lra)) as ZR. pose proof (Z1_rng (tk k) ltac:(lra)) as BR. apply abs_both in W. unfold W0 in W. assert (ZP : 0 < Zt (tk k) * Z1 (tk k)) by (apply Rmult_lt_0_compat; lra). destruct (Rle_or_lt (bk k) 0); [nra|lra].
Qed.
