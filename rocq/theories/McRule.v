(** The Bessel quantities used by the expansion, for every index. *)
From Coq Require Import Reals ZArith Bool List Lra Lia Psatz.
From Coquelicot Require Import Coquelicot.
From Verif Require Import Arith RInst Machine Rules Par LegendreData Legendre SizeProof RInstProof LegSym GammaProof LegAsym LegBig AccF64 TM Ode Bessel BesselJ BesselTab McPoly McMahon.
Import ListNotations.
Local Open Scope R_scope.

Lemma mvt_lip : forall (f f' : R -> R) lo hi M a b, (forall x, lo <= x <= hi -> is_derive f x (f' x) /\ Rabs (f' x) <= M) -> lo <= a <= hi -> lo <= b <= hi -> Rabs (f a - f b) <= M * Rabs (a - b).
Proof.
  intros f f' lo hi M a b D Ha Hb. assert (In : forall x, Rmin b a <= x <= Rmax b a -> lo <= x <= hi). { intros x Hx. unfold Rmin, Rmax in Hx. destruct (Rle_dec b a); lra. }
  destruct (MVT_gen f b a f') as (c & Hc & E).
  - intros x Hx. apply D. apply In. lra.
  - intros x Hx. apply derivable_continuous_pt. exists (f' x). apply is_derive_Reals. apply D. apply In. exact Hx.
  - rewrite E, Rabs_mult. apply Rmult_le_compat_r; [apply Rabs_pos|]. apply D. apply In. exact Hc.
Qed.
Lemma J_J0 : forall z, J 1 z = J0 z. Proof. intros z. unfold J, J0, jy. f_equal. field. Qed.
Lemma Jd_J0 : forall z, Jd 1 z = J0' z. Proof. intros z. unfold Jd, J0', jy. replace (1 * z * (1 * z) / 4) with (z * z / 4) by field. field. Qed.

(** anchor *)
Definition ta : R := PI * (20 - / 4).
Definition tn : Z := (79 * PIz)%Z. Definition td : Z := (4 * 10 ^ 18)%Z.
Definition th : R := IZR tn / IZR td.
Definition zs : Z := 62048469190227169873715576%Z. Definition bs : Z := 999967546784797617236568%Z. Definition us : Z := 101293498933943252417910%Z. Definition qs : Z := (10 ^ 24)%Z.
Definition zz : R := IZR zs / IZR qs.
Definition crr : tm := tm_cst (td * td) (tn * tn).
Definition cze : tm := tm_add tm_one (tm_mul crr (tm_horner MC crr)).
Definition ceb : tm := tm_add (tm_horner MC crr) (tm_mul crr (tm_scal 2 1 (tm_horner MC1 crr))).
Definition cBz : tm := tm_sub tm_one (tm_mul crr ceb).
Definition cZ : tm := tm_sub (tm_mul (tm_cst tn td) cze) (tm_cst zs qs).
Definition cB : tm := tm_sub cBz (tm_cst bs qs).
Lemma th_eq : th = 79 * 3141592653589793238 / 4000000000000000000.
Proof. unfold th, tn, td, PIz. change (79 * 3141592653589793238)%Z with 248185819633593665802%Z. change (4 * 10 ^ 18)%Z with 4000000000000000000%Z. field. Qed.
Lemma ta_near : Rabs (ta - th) <= 2 / 10 ^ 17 /\ 62 < ta < 6205 / 100 /\ 62 < th < 6205 / 100.
Proof. pose proof PI_lo30. pose proof PI_hi30. rewrite th_eq. unfold ta. split; [apply Rabs_le; lra|lra]. Qed.
Lemma frac_sq : forall a b : Z, (0 < a)%Z -> (0 < b)%Z -> / (IZR a / IZR b * (IZR a / IZR b)) = IZR (b * b) / IZR (a * a).
Proof. intros a b Ha Hb. apply IZR_lt in Ha. apply IZR_lt in Hb. rewrite !mult_IZR. field. split; lra. Qed.
Lemma rr_th : rr th = IZR (td * td) / IZR (tn * tn). Proof. exact (frac_sq tn td eq_refl eq_refl). Qed.
Lemma X0 : 0 <= 0 <= 1. Proof. lra. Qed.
Lemma cst_bd : forall t f e d, tm_is 0 0 t f -> valid t = true -> (0 < d)%Z -> (bound t * d <=? SC * e)%Z = true -> Rabs f <= IZR e / IZR d.
Proof.
  intros t f e d T V Hd C. apply Z.leb_le in C. apply IZR_le in C. rewrite !mult_IZR in C. apply IZR_lt in Hd. pose proof SC_pos as S. eapply Rle_trans; [apply (is_bound 0 0 X0 X0 t f T V)|].
  apply Rmult_le_reg_r with (IZR SC * IZR d); [nra|]. replace (IZR (bound t) / IZR SC * (IZR SC * IZR d)) with (IZR (bound t) * IZR d) by (field; lra). replace (IZR e / IZR d * (IZR SC * IZR d)) with (IZR SC * IZR e) by (field; lra). exact C.
Qed.
Lemma is_crr : tm_is 0 0 crr (rr th). Proof. rewrite rr_th. apply (is_cst 0 0 X0 X0). Qed.
Lemma is_cze : tm_is 0 0 cze (ze (rr th)). Proof. exact (is_add 0 0 X0 X0 _ _ _ _ (is_one 0 0 X0 X0) (is_mul 0 0 X0 X0 _ _ _ _ is_crr (is_horner 0 0 X0 X0 MC _ _ is_crr))). Qed.
Lemma is_ceb : tm_is 0 0 ceb (eb (rr th)).
Proof.
  refine (is_add 0 0 X0 X0 _ _ _ _ (is_horner 0 0 X0 X0 MC _ _ is_crr) (is_mul 0 0 X0 X0 _ _ _ _ is_crr _)).
  eapply (is_ext 0 0 X0 X0); [exact (is_scal 0 0 X0 X0 2%Z 1%Z _ _ (is_horner 0 0 X0 X0 MC1 _ _ is_crr))|]. unfold g1. ring.
Qed.
Lemma is_cBz : tm_is 0 0 cBz (Z1 th). Proof. exact (is_sub 0 0 X0 X0 _ _ _ _ (is_one 0 0 X0 X0) (is_mul 0 0 X0 X0 _ _ _ _ is_crr is_ceb)). Qed.
Lemma Z_th : Rabs (Zt th - zz) <= 1 / 10 ^ 18.
Proof.
  assert (T : tm_is 0 0 cZ (Zt th - zz)) by exact (is_sub 0 0 X0 X0 _ _ _ _ (is_mul 0 0 X0 X0 _ _ _ _ (is_cst 0 0 X0 X0 tn td) is_cze) (is_cst 0 0 X0 X0 zs qs)).
  pose proof (cst_bd cZ _ 1 1000000000000000000 T) as K. eapply Rle_trans; [apply K; vm_compute; reflexivity|lra].
Qed.
Lemma B_th : Rabs (Z1 th - IZR bs / IZR qs) <= 1 / 10 ^ 18.
Proof.
  assert (T : tm_is 0 0 cB (Z1 th - IZR bs / IZR qs)) by exact (is_sub 0 0 X0 X0 _ _ _ _ is_cBz (is_cst 0 0 X0 X0 bs qs)).
  pose proof (cst_bd cB _ 1 1000000000000000000 T) as K. eapply Rle_trans; [apply K; vm_compute; reflexivity|lra].
Qed.
Lemma Z_ta : Rabs (Zt ta - zz) <= 3 / 10 ^ 17.
Proof.
  destruct ta_near as (A & B & C). pose proof Z_th as T.
  assert (K : Rabs (Zt ta - Zt th) <= 1001 / 1000 * Rabs (ta - th)). { apply (mvt_lip Zt Z1 62 63); [|lra|lra]. intros x Hx. split; [apply Z_d; lra|]. pose proof (Z1_rng x ltac:(lra)). rewrite Rabs_pos_eq; lra. }
  replace (Zt ta - zz) with ((Zt ta - Zt th) + (Zt th - zz)) by ring. eapply Rle_trans; [apply Rabs_triang|]. lra.
Qed.
Lemma Z2_small : forall t, 62 <= t -> Rabs (Z2 t) <= / 100.
Proof.
  intros t Ht. pose proof (rr_ok t Ht) as R0. pose proof (mb1_range (rr t) ltac:(lra)) as K. unfold Z2. rewrite !Rabs_mult, (Rabs_pos_eq 2) by lra.
  assert (P : / (t * t * t) <= / 1000). { apply Rinv_le_contravar; [lra|]. assert (3844 <= t * t) by nra. nra. }
  assert (P0 : 0 < / (t * t * t)). { apply Rinv_0_lt_compat. assert (0 < t * t) by nra. nra. } rewrite (Rabs_pos_eq (/ _)) by lra. pose proof (Rabs_pos (mb1 (rr t))). nra.
Qed.
Lemma B_ta : Rabs (Z1 ta - IZR bs / IZR qs) <= 2 / 10 ^ 18.
Proof.
  destruct ta_near as (A & B & C). pose proof B_th as T.
  assert (K : Rabs (Z1 ta - Z1 th) <= / 100 * Rabs (ta - th)). { apply (mvt_lip Z1 Z2 62 63); [|lra|lra]. intros x Hx. split; [apply Z1_d; lra|apply Z2_small; lra]. }
  replace (Z1 ta - IZR bs / IZR qs) with ((Z1 ta - Z1 th) + (Z1 th - IZR bs / IZR qs)) by ring. eapply Rle_trans; [apply Rabs_triang|]. lra.
Qed.
Lemma near0 : near (Z.of_nat 0) (zs * zs) (4 * qs * qs) (10 ^ 60) 130 (- (10 ^ 42)) (10 ^ 42) = true. Proof. vm_compute. reflexivity. Qed.
Lemma near1 : near (Z.of_nat 1) (zs * zs) (4 * qs * qs) (10 ^ 60) 130 (-3264979789377214767503369417127956312164805179098575148321) (-3264979789377214767501369417127956312164805179098575148321) = true. Proof. vm_compute. reflexivity. Qed.
Lemma zz_eq : zz = 62048469190227169873715576 / 1000000000000000000000000. Proof. reflexivity. Qed.
Lemma frac_q : forall a b : Z, (0 < b)%Z -> IZR (a * a) / IZR (4 * b * b) = IZR a / IZR b * (IZR a / IZR b) / 4.
Proof. intros a b Hb. apply IZR_lt in Hb. rewrite !mult_IZR. field. lra. Qed.
Lemma yy_eq : IZR (zs * zs) / IZR (4 * qs * qs) = zz * zz / 4. Proof. exact (frac_q zs qs eq_refl). Qed.
Lemma J_zz : Rabs (J 1 zz) <= 1 / 10 ^ 18.
Proof.
  pose proof (near_ok _ _ _ _ _ _ _ near0) as K. rewrite yy_eq in K. rewrite J_J0. unfold J0, B. change (- 10 ^ 42)%Z with (-1000000000000000000000000000000000000000000)%Z in K. change (10 ^ 42)%Z with 1000000000000000000000000000000000000000000%Z in K. change (10 ^ 60)%Z with 1000000000000000000000000000000000000000000000000000000000000%Z in K. apply Rabs_le. lra.
Qed.
Lemma Jd_zz : Rabs (Jd 1 zz - IZR us / IZR qs) <= 1 / 10 ^ 20.
Proof.
  pose proof (near_ok _ _ _ _ _ _ _ near1) as K. rewrite yy_eq in K. rewrite Jd_J0. unfold J0', B1. change (10 ^ 60)%Z with 1000000000000000000000000000000000000000000000000000000000000%Z in K. set (h := H 1 0 (zz * zz / 4)) in *. clearbody h. rewrite zz_eq. unfold us, qs. change (10 ^ 24)%Z with 1000000000000000000000000%Z. apply Rabs_le. lra.
Qed.
Lemma J_ta : Rabs (J 1 (Zt ta)) <= 32 / 10 ^ 18.
Proof.
  pose proof Z_ta as A. apply abs_both in A. assert (K : Rabs (J 1 (Zt ta) - J 1 zz) <= 1 * Rabs (Zt ta - zz)). { rewrite zz_eq in *. apply (mvt_lip (J 1) (Jd 1) 62 63); [|lra|lra]. intros x Hx. split; [apply J_d|apply Jd_leN; lra]. }
  pose proof Z_ta as A'. pose proof J_zz. replace (J 1 (Zt ta)) with ((J 1 (Zt ta) - J 1 zz) + J 1 zz) by ring. eapply Rle_trans; [apply Rabs_triang|]. lra.
Qed.
Lemma Jdd_le : forall x, 62 <= x -> Rabs (Jdd 1 x) <= 2.
Proof.
  intros x Hx. pose proof (J_ode 1 x ltac:(lra)) as O. replace (Jdd 1 x) with (- (/ x * Jd 1 x) + - J 1 x) by lra. eapply Rle_trans; [apply Rabs_triang|]. rewrite !Rabs_Ropp, Rabs_mult. pose proof (J_le1 1 ltac:(lra) x ltac:(lra)). pose proof (Jd_leN 1 ltac:(lra) x ltac:(lra)).
  assert (0 < / x <= 1). { split; [apply Rinv_0_lt_compat; lra|]. rewrite <- Rinv_1. apply Rinv_le_contravar; lra. } rewrite (Rabs_pos_eq (/ x)) by lra. pose proof (Rabs_pos (Jd 1 x)). nra.
Qed.
Lemma Jd_ta : Rabs (Jd 1 (Zt ta) - IZR us / IZR qs) <= 61 / 10 ^ 18.
Proof.
  pose proof Z_ta as A. apply abs_both in A. assert (K : Rabs (Jd 1 (Zt ta) - Jd 1 zz) <= 2 * Rabs (Zt ta - zz)). { rewrite zz_eq in *. apply (mvt_lip (Jd 1) (Jdd 1) 62 63); [|lra|lra]. intros x Hx. split; [apply J_d1|apply Jdd_le; lra]. }
  pose proof Z_ta as A'. pose proof Jd_zz. replace (Jd 1 (Zt ta) - IZR us / IZR qs) with ((Jd 1 (Zt ta) - Jd 1 zz) + (Jd 1 zz - IZR us / IZR qs)) by ring. eapply Rle_trans; [apply Rabs_triang|]. lra.
Qed.
Lemma Lm_small : forall t, 62 <= t -> Rabs (Lm t) <= / 50.
Proof.
  intros t Ht. pose proof (Zt_rng t Ht) as A. pose proof (Z1_rng t Ht) as B. pose proof (Z2_small t Ht) as C. unfold Lm. rewrite Rabs_mult, (Rabs_pos_eq (/ 2)) by lra.
  assert (P : Rabs (Z1 t / Zt t) <= 2 / 100). { rewrite Rabs_pos_eq by (left; apply Rdiv_lt_0_compat; lra). apply Rmult_le_reg_r with (Zt t); [lra|]. unfold Rdiv. rewrite Rmult_assoc, Rinv_l by lra. nra. }
  assert (Q : Rabs (Z2 t / Z1 t) <= 2 / 100). { unfold Rdiv. rewrite Rabs_mult, (Rabs_pos_eq (/ Z1 t)) by (left; apply Rinv_0_lt_compat; lra). apply Rmult_le_reg_r with (Z1 t); [lra|]. rewrite Rmult_assoc, Rinv_l by lra. nra. }
  pose proof (Rabs_triang (Z1 t / Zt t) (- (Z2 t / Z1 t))) as T. rewrite Rabs_Ropp in T. unfold Rminus. lra.
Qed.
Lemma m_sq : forall t, 62 <= t -> mm t * mm t = Zt t / Z1 t /\ 0 < mm t. Proof. intros t Ht. pose proof (mm_pos t Ht) as P. split; [apply sqrt_sqrt; lra|apply sqrt_lt_R0; exact P]. Qed.
Lemma V_ta : Rabs (V ta) <= 3 / 10 ^ 16.
Proof.
  destruct ta_near as (_ & T & _). destruct (m_sq ta ltac:(lra)) as [M P]. pose proof (Zt_rng ta ltac:(lra)) as A. pose proof (Z1_rng ta ltac:(lra)) as B. pose proof J_ta as J0. unfold V, lp. rewrite Rabs_mult, (Rabs_pos_eq (mm ta)) by lra.
  assert (M8 : mm ta <= 8). { apply Rsqr_incr_0_var; [|lra]. unfold Rsqr. rewrite M. apply Rmult_le_reg_r with (Z1 ta); [lra|]. unfold Rdiv. rewrite Rmult_assoc, Rinv_l by lra. lra. }
  apply Rle_trans with (8 * (32 / 10 ^ 18)); [apply Rmult_le_compat; try apply Rabs_pos; lra|lra].
Qed.
Definition W0 : R := 63661977236758134308 / 10 ^ 20.
Lemma V1_ta : Rabs (V1 ta * V1 ta - W0) <= 9 / 10 ^ 16.
Proof.
  destruct ta_near as (_ & T & _). destruct (m_sq ta ltac:(lra)) as [M P]. pose proof (Z1_rng ta ltac:(lra)) as B. pose proof (Zt_rng ta ltac:(lra)) as A. pose proof (Lm_small ta ltac:(lra)) as Lb. pose proof J_ta as JT. pose proof Jd_ta as JD. pose proof Z_ta as ZT. pose proof B_ta as BT.
  set (e := Lm ta * J 1 (Zt ta)). assert (E : Rabs e <= 1 / 10 ^ 18). { unfold e. rewrite Rabs_mult. apply Rle_trans with (/ 50 * (32 / 10 ^ 18)); [apply Rmult_le_compat; try apply Rabs_pos; lra|lra]. }
  assert (EV : V1 ta * V1 ta = Zt ta * Z1 ta * ((Jd 1 (Zt ta) + e / Z1 ta) * (Jd 1 (Zt ta) + e / Z1 ta))).
  { unfold V1, lp1. fold e. transitivity (mm ta * mm ta * ((Jd 1 (Zt ta) * Z1 ta + e) * (Jd 1 (Zt ta) * Z1 ta + e))); [ring|]. rewrite M. field. lra. }
  rewrite EV. assert (U : Rabs (Jd 1 (Zt ta) + e / Z1 ta - IZR us / IZR qs) <= 63 / 10 ^ 18).
  { replace (Jd 1 (Zt ta) + e / Z1 ta - IZR us / IZR qs) with ((Jd 1 (Zt ta) - IZR us / IZR qs) + e / Z1 ta) by ring. eapply Rle_trans; [apply Rabs_triang|]. assert (Rabs (e / Z1 ta) <= 2 / 10 ^ 18); [|lra]. unfold Rdiv at 1. rewrite Rabs_mult, (Rabs_pos_eq (/ Z1 ta)) by (left; apply Rinv_0_lt_compat; lra). apply Rmult_le_reg_r with (Z1 ta); [lra|]. rewrite Rmult_assoc, Rinv_l by lra. lra. }
  set (u := Jd 1 (Zt ta) + e / Z1 ta) in *. set (z := Zt ta) in *. set (b := Z1 ta) in *. clearbody u z b. clear -U ZT BT. rewrite zz_eq in ZT. unfold us, qs, bs in *. change (10 ^ 24)%Z with 1000000000000000000000000%Z in *. unfold W0. apply abs_both in U. apply abs_both in ZT. apply abs_both in BT.
  set (du := u - 101293498933943252417910 / 1000000000000000000000000) in *. set (dz := z - 62048469190227169873715576 / 1000000000000000000000000) in *. set (db := b - 999967546784797617236568 / 1000000000000000000000000) in *.
  assert (U2 : u * u = 101293498933943252417910 / 1000000000000000000000000 * (101293498933943252417910 / 1000000000000000000000000) + (2 * (101293498933943252417910 / 1000000000000000000000000) + du) * du) by (unfold du; ring).
  assert (ZB : z * b = 62048469190227169873715576 / 1000000000000000000000000 * (999967546784797617236568 / 1000000000000000000000000) + (62048469190227169873715576 / 1000000000000000000000000 * db + dz * (999967546784797617236568 / 1000000000000000000000000) + dz * db)) by (unfold dz, db; ring).
  rewrite U2, ZB. set (f := (2 * _ + du) * du). assert (F : - (128 / 10 ^ 19) <= f <= 128 / 10 ^ 19). { unfold f. split; nra. } clearbody f.
  set (h := _ * db + _ + _). assert (HH : - (2 / 10 ^ 16) <= h <= 2 / 10 ^ 16). { assert (- (1 / 10 ^ 18) <= dz * db <= 1 / 10 ^ 18) by (split; nra). unfold h. lra. } clearbody h. clear -F HH.
  set (c := 62048469190227169873715576 / 1000000000000000000000000 * (999967546784797617236568 / 1000000000000000000000000)). set (d := 101293498933943252417910 / 1000000000000000000000000 * (101293498933943252417910 / 1000000000000000000000000)).
  replace ((c + h) * (d + f) - 63661977236758134308 / 10 ^ 20) with ((c * d - 63661977236758134308 / 10 ^ 20) + c * f + d * h + h * f) by ring. assert (CD : - (1 / 10 ^ 19) <= c * d - 63661977236758134308 / 10 ^ 20 <= 1 / 10 ^ 19) by (unfold c, d; lra). assert (C1 : 62 <= c <= 63) by (unfold c; lra). assert (D1 : 0 <= d <= 2 / 100) by (unfold d; lra). clearbody c d.
  assert (- (65 * 128 / 10 ^ 19) <= c * f <= 65 * 128 / 10 ^ 19) by (split; nra). assert (- (1 / 10 ^ 17) <= d * h <= 1 / 10 ^ 17) by (split; nra). assert (- (1 / 10 ^ 17) <= h * f <= 1 / 10 ^ 17) by (split; nra). apply Rabs_le. lra.
Qed.
