(** What the checks of the tabulated angles and weights say about the zeros of the Legendre polynomials. *)
From Coq Require Import Reals Ranalysis5 ZArith List Lia Lra Bool Psatz.
From Coquelicot Require Import Coquelicot.
From Verif Require Import Arith RInst LegendreData LegAsym LegTable Fix63 FixPoint LegCheck LegMom LegCheb RSum PolySpec PolyProof EigenSpec EigenProof OrthoProof LegBig LegOde Bern LegZero LegZeroRun LegZeroAp.
Import ListNotations.
Local Open Scope R_scope.

Lemma sc_up : sc <= 2 * 10 ^ 36. Proof. rewrite sc_val. simpl. lra. Qed.
Lemma val30 : forall z, val (z, -30)%Z = IZR z / 10 ^ 30 /\ fix30 (z, -30)%Z = z /\ exp_ok (z, -30)%Z = true.
Proof.
  intros z. assert (E : exp_ok (z, -30)%Z = true) by reflexivity. assert (X : fix30 (z, -30)%Z = z) by (unfold fix30; cbn [fst snd]; change (30 + -30)%Z with 0%Z; rewrite Z.pow_0_r; lia).
  split; [|split; assumption]. unfold val. rewrite (fix30_val _ E), X. reflexivity.
Qed.
Lemma cosz_ap : forall z, 0 < IZR z / 10 ^ 30 <= 157 / 100 -> ap (sz (cosz z)) (cos (IZR z / 10 ^ 30)) 2000.
Proof.
  intros z H. destruct (val30 z) as (V & X & E). pose proof (dec_ap (z, -30)%Z E) as D. rewrite V, X in D. specialize (D ltac:(lra)).
  unfold cosz. cbv zeta. apply cos_err; [lra|]. apply (ap_fmul _ _ _ _ 200 200 2 2); try exact D; try lra; rewrite Rabs_pos_eq; lra.
Qed.
Lemma F_lg : forall n t, F n t = lg n (cos t). Proof. reflexivity. Qed.
Lemma F1_gen : forall k t, sin t * F1 (S k) t = - (INR (S k) * (lg k (cos t) - cos t * lg (S k) (cos t))).
Proof.
  intros k t. pose proof (leg_s k (cos t)) as L. rewrite lb_sq in L.
  destruct (leg_one k) as [P0 P1]. unfold F1, lg. rewrite P1. pose proof (sin2_cos2 t) as SC. unfold Rsqr in SC. replace (1 - cos t * cos t) with (sin t * sin t) in L by lra.
  rewrite S_INR in *. pose proof (pos_INR k) as K. set (y := monic la lb k 1) in *. set (p := monic la lb k (cos t)) in *. set (q := dmonic la lb (S k) (cos t)) in *. set (pp := monic la lb (S k) (cos t)) in *. set (s := sin t) in *. set (c := cos t) in *. clearbody y p q s pp c. set (z := INR k) in *. clearbody z.
  assert (K5 : 4 * (z + 1) * (z + 1) - 1 <> 0) by nra.
  replace (s * (- s * (q / (y * ((z + 1) / (2 * z + 1)))))) with (- (s * s * q) * ((2 * z + 1) / (y * (z + 1)))) by (field; repeat split; lra). rewrite L. field. repeat split; lra.
Qed.
Lemma F1_lg : forall k t, F (S k) t = 0 -> sin t * F1 (S k) t = - (INR (S k) * lg k (cos t)).
Proof. intros k t H. rewrite F1_gen. rewrite F_lg in H. rewrite H. ring. Qed.
Lemma F_cont : forall n x, continuity_pt (F n) x.
Proof. intros n x. apply derivable_continuous_pt. exists (F1 n x). apply is_derive_Reals. apply F_d. Qed.
Lemma sign_root : forall n x y, x < y -> F n x * F n y < 0 -> exists u, x < u < y /\ F n u = 0.
Proof.
  intros n x y H S. assert (G : forall f : R -> R, (forall t, continuity_pt f t) -> f x < 0 -> 0 < f y -> exists u, x < u < y /\ f u = 0).
  { intros f C A B. destruct (Ranalysis5.IVT_interv f x y (fun t _ => C t) H A B) as (u & [U1 U2] & E). exists u. split; [|exact E].
    split; [destruct U1 as [U1| <-]; [exact U1|lra]|destruct U2 as [U2| ->]; [exact U2|lra]]. }
  destruct (Rlt_le_dec (F n x) 0) as [A|A].
  - apply (G (F n)); [apply F_cont|exact A|nra].
  - destruct (G (fun t => - F n t)) as (u & U & E).
    + intros t. apply continuity_pt_opp, F_cont.
    + destruct A as [A|A]; [lra|rewrite <- A in S; lra].
    + destruct A as [A|A]; [|rewrite <- A in S; lra]. nra.
    + exists u. split; [exact U|lra].
Qed.
Lemma sin_half : forall t, 0 < t <= 1561 / 1000 -> t / 2 <= sin t.
Proof.
  intros t Ht. pose proof PI_lo as PL. destruct (SIN t ltac:(lra) ltac:(lra)) as [S1 _]. eapply Rle_trans; [|exact S1]. unfold sin_lb, sin_approx, sin_term. cbn [sum_f_R0]. simpl fact. simpl INR. cbn [pow Nat.mul Nat.add].
  assert (0 <= t ^ 5 / 120 - t ^ 7 / 5040). { replace (t ^ 5 / 120 - t ^ 7 / 5040) with (t ^ 5 * (/ 120 - t * t / 5040)) by field. apply Rmult_le_pos; [apply pow_le; lra|nra]. }
  assert (0 <= t / 2 - t ^ 3 / 6). { replace (t / 2 - t ^ 3 / 6) with (t * (/ 2 - t * t / 6)) by field. apply Rmult_le_pos; [lra|nra]. } lra.
Qed.
Lemma F1_bound : forall k t, (S k <= 100)%nat -> 9 / 1000 <= t <= 1561 / 1000 -> Rabs (F1 (S k) t) <= 50000.
Proof.
  intros k t Hn Ht. pose proof (sin_half t ltac:(lra)) as SH. pose proof (F1_gen k t) as G.
  assert (N : 0 <= INR (S k) <= 100). { split; [apply pos_INR|]. replace 100 with (INR 100) by (rewrite INR_IZR_INZ; reflexivity). apply le_INR. exact Hn. }
  assert (B1 : Rabs (lg k (cos t)) <= 1) by (apply lg_bound, COS_bound). assert (B2 : Rabs (lg (S k) (cos t)) <= 1) by (apply lg_bound, COS_bound). assert (B3 : Rabs (cos t) <= 1) by (apply Rabs_le; pose proof (COS_bound t); lra).
  set (f := F1 (S k) t) in *. clearbody f. set (p := lg k (cos t)) in *. set (q := lg (S k) (cos t)) in *. clearbody p q. set (c := cos t) in *. clearbody c.
  assert (E : Rabs (sin t * f) <= 200).
  { rewrite G, Rabs_Ropp, Rabs_mult, (Rabs_pos_eq (INR (S k))) by lra. assert (Rabs (p - c * q) <= 2). { unfold Rminus. eapply Rle_trans; [apply Rabs_triang|]. rewrite Rabs_Ropp, Rabs_mult. assert (Rabs c * Rabs q <= 1 * 1) by (apply Rmult_le_compat; try apply Rabs_pos; assumption). lra. }
    replace 200 with (100 * 2) by ring. apply Rmult_le_compat; try apply Rabs_pos; lra. }
  rewrite Rabs_mult, (Rabs_pos_eq (sin t)) in E by lra. pose proof (Rabs_pos f). nra.
Qed.
Lemma F2_bound : forall k t, (S k <= 100)%nat -> 9 / 1000 <= t <= 1561 / 1000 -> Rabs (F2 (S k) t) <= 2 * 10 ^ 7.
Proof.
  intros k t Hn Ht. pose proof (F1_bound k t Hn Ht) as B. pose proof (sin_half t ltac:(lra)) as SH. pose proof PI_lo as PL. pose proof (F_ode (S k) t ltac:(lra)) as O.
  assert (N : 0 <= INR (S k) <= 100). { split; [apply pos_INR|]. replace 100 with (INR 100) by (rewrite INR_IZR_INZ; reflexivity). apply le_INR. exact Hn. }
  assert (B2 : Rabs (F (S k) t) <= 1) by (rewrite F_lg; apply lg_bound, COS_bound). assert (B3 : Rabs (cos t) <= 1) by (apply Rabs_le; pose proof (COS_bound t); lra).
  replace (F2 (S k) t) with (- (cos t / sin t * F1 (S k) t) - INR (S k) * (INR (S k) + 1) * F (S k) t) by lra. clear O.
  set (f := F1 (S k) t) in *. set (g := F (S k) t) in *. clearbody f g.
  assert (C : Rabs (cos t / sin t) <= 250).
  { unfold Rdiv. rewrite Rabs_mult, (Rabs_pos_eq (/ sin t)) by (left; apply Rinv_0_lt_compat; lra). replace 250 with (1 * / (4 / 1000)) by field. apply Rmult_le_compat; try apply Rabs_pos; [left; apply Rinv_0_lt_compat; lra|exact B3|]. apply Rinv_le_contravar; lra. }
  unfold Rminus. eapply Rle_trans; [apply Rabs_triang|]. rewrite !Rabs_Ropp, !Rabs_mult.
  assert (Rabs (cos t / sin t) * Rabs f <= 250 * 50000) by (apply Rmult_le_compat; try apply Rabs_pos; assumption).
  rewrite (Rabs_pos_eq (INR (S k))), (Rabs_pos_eq (INR (S k) + 1)) by lra.
  assert (INR (S k) * (INR (S k) + 1) * Rabs g <= 100 * 101 * 1). { apply Rmult_le_compat; [nra|apply Rabs_pos|nra|exact B2]. }
  lra.
Qed.
Lemma F1_near : forall k s t, (S k <= 100)%nat -> 9 / 1000 <= s <= 1561 / 1000 -> 9 / 1000 <= t <= 1561 / 1000 -> Rabs (F1 (S k) s - F1 (S k) t) <= 2 * 10 ^ 7 * Rabs (s - t).
Proof.
  intros k s t Hn Hs Ht. destruct (MVT_gen (F1 (S k)) t s (F2 (S k))) as (c & Hc & E); [intros; apply F1_d|intros x _; apply derivable_continuous_pt; exists (F2 (S k) x); apply is_derive_Reals; apply F1_d|].
  rewrite E, Rabs_mult. apply Rmult_le_compat_r; [apply Rabs_pos|]. apply F2_bound; [exact Hn|].
  unfold Rmin, Rmax in Hc. destruct (Rle_dec t s); lra.
Qed.
Lemma F_step : forall n s t, exists c, Rmin s t <= c <= Rmax s t /\ F n t - F n s = F1 n c * (t - s).
Proof.
  intros n s t. destruct (MVT_gen (F n) s t (F1 n)) as (c & Hc & E); [intros; apply F_d|intros x _; apply F_cont|]. exists c. split; assumption.
Qed.
(** a steep place close to the axis is close to a zero *)
Lemma steep_root : forall k x m, (S k <= 100)%nat -> / 100 <= x <= 156 / 100 -> 0 < m -> Rabs (F (S k) x) < / 10 ^ 26 * m -> m + 2 / 10 ^ 19 <= Rabs (F1 (S k) x) ->
  exists u, x - / 10 ^ 26 < u < x + / 10 ^ 26 /\ F (S k) u = 0.
Proof.
  intros k x m Hn Hx Hm A B. set (d := / 10 ^ 26) in *. assert (D : 0 < d <= / 10 ^ 26) by (unfold d; lra).
  destruct (F_step (S k) x (x + d)) as (c & Hc & E1). destruct (F_step (S k) x (x - d)) as (e & He & E2).
  rewrite Rmin_left, Rmax_right in Hc by lra. rewrite Rmin_right, Rmax_left in He by lra.
  assert (N1 : Rabs (F1 (S k) c - F1 (S k) x) <= 2 / 10 ^ 19).
  { eapply Rle_trans; [apply F1_near; [exact Hn|lra|lra]|]. assert (Rabs (c - x) <= / 10 ^ 26) by (apply Rabs_le; lra). lra. }
  assert (N2 : Rabs (F1 (S k) e - F1 (S k) x) <= 2 / 10 ^ 19).
  { eapply Rle_trans; [apply F1_near; [exact Hn|lra|lra]|]. assert (Rabs (e - x) <= / 10 ^ 26) by (apply Rabs_le; lra). lra. }
  apply sign_root; [lra|].
  set (f := F (S k) x) in *. set (g := F (S k) (x + d)) in *. set (h := F (S k) (x - d)) in *. set (p := F1 (S k) x) in *. set (q := F1 (S k) c) in *. set (r := F1 (S k) e) in *. clearbody f g h p q r d.
  replace (x + d - x) with d in E1 by ring. replace (x - d - x) with (- d) in E2 by ring.
  pose proof (abs_upper _ _ N1). pose proof (abs_lower _ _ N1). pose proof (abs_upper _ _ N2). pose proof (abs_lower _ _ N2).
  assert (AU : f < d * m) by (pose proof (Rle_abs f); lra). assert (AL : - (d * m) < f) by (pose proof (Rle_abs (- f)) as K; rewrite Rabs_Ropp in K; lra).
  destruct (Rle_lt_dec 0 p) as [P|P].
  - rewrite Rabs_pos_eq in B by exact P. assert (Q1 : d * m <= d * q) by (apply Rmult_le_compat_l; lra). assert (Q2 : d * m <= d * r) by (apply Rmult_le_compat_l; lra).
    assert (0 < g) by lra. assert (h < 0) by lra. nra.
  - rewrite Rabs_left in B by exact P. assert (Q1 : d * m <= d * - q) by (apply Rmult_le_compat_l; lra). assert (Q2 : d * m <= d * - r) by (apply Rmult_le_compat_l; lra).
    assert (g < 0) by lra. assert (0 < h) by lra. nra.
Qed.
Lemma lg_lip : forall k s t, Rabs (lg k (cos s) - lg k (cos t)) <= 2 * INR k * Rabs (s - t).
Proof. intros k s t. eapply Rle_trans; [apply (bernstein k (lg k) 1 (lg_poly k)); intros x Hx; apply lg_bound; exact Hx|]. lra. Qed.
Lemma sq_diff : forall a b e, Rabs a <= 1 -> Rabs b <= 1 -> Rabs (a - b) <= e -> Rabs (a * a - b * b) <= 2 * e.
Proof.
  intros a b e A B E. replace (a * a - b * b) with ((a + b) * (a - b)) by ring. rewrite Rabs_mult. apply Rmult_le_compat; try apply Rabs_pos; [|exact E].
  eapply Rle_trans; [apply Rabs_triang|]. lra.
Qed.
(** from the comparison of integers to that of real numbers *)
Lemma scaled_check : forall (X S2 w N D S : R), 0 <= N -> Rabs (w * D * sc - X) <= 5 * 10 ^ 13 / N -> 0 < N -> Rabs (S * sc - S2) <= 5 * 10 ^ 11 ->
  10 ^ 17 * (Rabs (N * (N * X) - 2 * S2) + (5 * 10 ^ 13 * N + 10 ^ 12)) <= 42 * (S2 - 10 ^ 12) -> Rabs (N * N * w * D - 2 * S) <= 21 / 10 ^ 17 * (2 * S).
Proof.
  intros X S2 w N D S HN HX N0 HS H. pose proof sc_pos as SP. set (s := sc) in *. clearbody s.
  apply (Rmult_le_reg_r s); [exact SP|]. rewrite <- (Rabs_pos_eq s) at 1 by lra. rewrite <- Rabs_mult.
  replace ((N * N * w * D - 2 * S) * s) with ((N * (N * X) - 2 * S2) + N * N * (w * D * s - X) - 2 * (S * s - S2)) by ring.
  assert (T1 : Rabs (N * N * (w * D * s - X)) <= 5 * 10 ^ 13 * N).
  { rewrite Rabs_mult, Rabs_pos_eq by nra. apply Rle_trans with (N * N * (5 * 10 ^ 13 / N)); [apply Rmult_le_compat_l; [nra|exact HX]|]. right. field. lra. }
  assert (T2 : Rabs (2 * (S * s - S2)) <= 10 ^ 12) by (rewrite Rabs_mult, (Rabs_pos_eq 2) by lra; lra).
  pose proof (Rabs_triang (N * (N * X) - 2 * S2) (N * N * (w * D * s - X))) as T3.
  pose proof (Rabs_triang ((N * (N * X) - 2 * S2) + N * N * (w * D * s - X)) (- (2 * (S * s - S2)))) as T4. rewrite Rabs_Ropp in T4. fold (Rminus (N * (N * X) - 2 * S2 + N * N * (w * D * s - X)) (2 * (S * s - S2))) in T4.
  apply abs_lower in HS. replace (21 / 10 ^ 17 * (2 * S) * s) with (/ 10 ^ 17 * (42 * (S * s))) by field. lra.
Qed.
Lemma weight_of : forall w N D S G e, 0 <= w -> 0 < S -> e < 1 -> 0 <= e -> S * G = N * D -> Rabs (N * w * D - 2 * S) <= e * (2 * S) -> Rabs (w - 2 / G) <= e * (2 / G) /\ G <> 0.
Proof.
  intros w N D S G e Hw HS He He0 E H. assert (ND : N * w * D = w * (S * G)) by (rewrite E; ring). rewrite ND in H.
  assert (H' : Rabs (w * G - 2) <= e * 2).
  { apply (Rmult_le_reg_r S); [exact HS|]. rewrite <- (Rabs_pos_eq S) at 1 by lra. rewrite <- Rabs_mult. replace ((w * G - 2) * S) with (w * (S * G) - 2 * S) by ring. lra. }
  assert (P : 0 < G). { apply abs_lower in H'. destruct (Rlt_le_dec 0 G) as [X|X]; [exact X|]. assert (w * G <= 0) by nra. lra. }
  split; [|lra]. apply (Rmult_le_reg_r G); [exact P|]. rewrite <- (Rabs_pos_eq G) at 2 by lra. rewrite <- Rabs_mult. replace ((w - 2 / G) * G) with (w * G - 2) by (field; lra).
  replace (e * (2 / G) * G) with (e * 2) by (field; lra). exact H'.
Qed.

Section P.
Variable k : nat. Notation n := (S k).
Hypothesis Hn : (n <= 100)%nat.
Lemma n_range : 1 <= INR n <= 100.
Proof. split; [rewrite S_INR; pose proof (pos_INR k); lra|]. replace 100 with (INR 100) by (rewrite INR_IZR_INZ; reflexivity). apply le_INR. exact Hn. Qed.
Lemma pair_core : forall y w z (a b W X Cz : Z), (0 < w <= 2 * 10 ^ 30)%Z -> near_zero n z y = true -> steep (Z.of_nat n) a b = true -> weighs (Z.of_nat n) W X (SC - Cz) = true ->
  a = sz (fst (ev n (cosz z))) -> b = sz (snd (ev n (cosz z))) -> W = sz (dec w) -> X = sz (fmul (dec w) (fmul (fst (ev n (cosz z))) (fst (ev n (cosz z))))) -> Cz = sz (fmul (cosz z) (cosz z)) ->
  exists u, 0 < u < PI /\ F n u = 0 /\ Rabs (IZR y / 10 ^ 30 - u) <= 21 / 10 ^ 17 /\
  Rabs (IZR w / 10 ^ 30 - 2 / (F1 n u * F1 n u)) <= 21 / 10 ^ 17 * (2 / (F1 n u * F1 n u)).
Proof.
  intros y w z a b W X Cz Hw HZ HS HW Eqa Eqb EqW EqX EqC. unfold near_zero in HZ. unfold steep in HS. unfold weighs in HW.
  apply andb_prop in HZ. destruct HZ as [HZ H3]. apply andb_prop in HZ. destruct HZ as [H1 H2]. apply andb_prop in HW. destruct HW as [H4 H5].
  apply Z.leb_le in H1, H2, H3, HS, H4, H5. pose proof n_range as NR. pose proof sc_pos as SP. pose proof sc_up as SU. pose proof sc_big as SB.
  assert (P28 : IZR p28 = 10 ^ 28) by (rewrite (pow_IZR 10 28); reflexivity). assert (P26 : IZR p26 = 10 ^ 26) by (rewrite (pow_IZR 10 26); reflexivity). assert (P18 : IZR p18 = 10 ^ 18) by (rewrite (pow_IZR 10 18); reflexivity).
  assert (P17 : IZR p17 = 10 ^ 17) by (rewrite (pow_IZR 10 17); reflexivity). assert (P13 : IZR p13 = 10 ^ 13) by (rewrite (pow_IZR 10 13); reflexivity). assert (P12 : IZR p12 = 10 ^ 12) by (rewrite (pow_IZR 10 12); reflexivity). assert (P8 : IZR p8 = 10 ^ 8) by (rewrite (pow_IZR 10 8); reflexivity).
  set (x := IZR z / 10 ^ 30).
  assert (X0 : / 100 <= x). { apply IZR_le in H2. rewrite P28 in H2. unfold x. lra. }
  assert (X1 : x <= 156 / 100). { apply IZR_le in H3. rewrite mult_IZR, P28 in H3. unfold x. lra. }
  assert (DZ : IZR dz = 10 ^ 4) by (rewrite (pow_IZR 10 4); reflexivity).
  pose proof (cosz_ap z ltac:(fold x; lra)) as CM. fold x in CM.
  destruct (ev_ap n _ _ ltac:(lia) (COS_bound _) CM) as [VM VN]. replace (n - 1)%nat with k in VM by lia. 
  assert (BX : Rabs (lg k (cos x)) <= 1) by (apply lg_bound, COS_bound).
  destruct (val30 w) as (VW & XW & EW). pose proof (dec_ap (w, -30)%Z EW) as DW. rewrite VW, XW in DW.
  assert (W01 : 0 < IZR w / 10 ^ 30 <= 2). { destruct Hw as [W1 W2]. apply IZR_lt in W1. apply IZR_le in W2. rewrite mult_IZR in W2. replace (IZR (10 ^ 30)) with (10 ^ 30) in W2 by (rewrite (pow_IZR 10 30); reflexivity). lra. }
  specialize (DW W01).
  assert (DD : ap (sz (fmul (fst (ev n (cosz z))) (fst (ev n (cosz z))))) (lg k (cos x) * lg k (cos x)) (2 * 10 ^ 8)) by (apply (ap_fmul _ _ _ _ (5 * 10 ^ 7) (5 * 10 ^ 7) 1 1); try exact VM; try exact BX; lra).
  assert (CC : ap (sz (fmul (cosz z) (cosz z))) (cos x * cos x) 5000) by (apply (ap_fmul _ _ _ _ 2000 2000 1 1); try exact CM; try (apply Rabs_le; pose proof (COS_bound x); lra); lra).
  assert (BB : Rabs (lg k (cos x) * lg k (cos x)) <= 1). { rewrite Rabs_mult. replace 1 with (1 * 1) by ring. apply Rmult_le_compat; try apply Rabs_pos; exact BX. }
  assert (XX : ap (sz (fmul (dec w) (fmul (fst (ev n (cosz z))) (fst (ev n (cosz z)))))) (IZR w / 10 ^ 30 * (lg k (cos x) * lg k (cos x))) (10 ^ 9)).
  { apply (ap_fmul _ _ _ _ 200 (2 * 10 ^ 8) 2 1); try exact DW; try exact DD; try exact BB; try lra. rewrite Rabs_pos_eq; lra. }
  rewrite <- Eqa in VM. rewrite <- Eqb in VN. rewrite <- EqW in DW. rewrite <- EqX in XX. rewrite <- EqC in CC. clear Eqa Eqb EqW EqX EqC DD CM. unfold ap in *.
  set (v := IZR w / 10 ^ 30) in *. set (N := INR n) in *.
  assert (VN' : v <= 5 / N).
  { apply IZR_le in H4. rewrite !mult_IZR, <- INR_IZR_INZ in H4. fold N in H4. change (IZR SC) with sc in H4. apply abs_upper in DW.
    assert (N * (v * sc) <= 5 * sc). { assert (N * (v * sc) <= N * (IZR W + 200)) by (apply Rmult_le_compat_l; lra). nra. }
    apply (Rmult_le_reg_r N); [lra|]. replace (5 / N * N) with 5 by (field; lra). apply (Rmult_le_reg_r sc); [exact SP|]. lra. }
  assert (RT : exists u, x - / 10 ^ 26 < u < x + / 10 ^ 26 /\ F n u = 0).
  { apply IZR_le in HS. rewrite plus_IZR, !mult_IZR, plus_IZR, !minus_IZR, !abs_IZR, P26, P18, P8, <- INR_IZR_INZ in HS. fold N in HS.
    pose proof (sin_half x ltac:(lra)) as SH. pose proof (F1_gen k x) as G. fold N in G. rewrite <- F_lg in VN. fold (lg k (cos x)) in VM. rewrite <- (F_lg (S k)) in G.
    assert (BC : Rabs (cos x) <= 1) by (apply Rabs_le; pose proof (COS_bound x); lra). pose proof (SIN_bound x) as SX.
    apply (steep_root k x ((10 ^ 26 * (Rabs (IZR b) + 10 ^ 8)) / sc) Hn ltac:(lra)).
    - apply Rdiv_lt_0_compat; [|exact SP]. pose proof (Rabs_pos (IZR b)). lra.
    - replace (/ 10 ^ 26 * (10 ^ 26 * (Rabs (IZR b) + 10 ^ 8) / sc)) with ((Rabs (IZR b) + 10 ^ 8) / sc) by (field; lra). apply (Rmult_lt_reg_r sc); [exact SP|]. replace ((Rabs (IZR b) + 10 ^ 8) / sc * sc) with (Rabs (IZR b) + 10 ^ 8) by (field; lra).
      rewrite <- (Rabs_pos_eq sc) at 1 by lra. rewrite <- Rabs_mult. replace (F n x * sc) with (IZR b + (F n x * sc - IZR b)) by ring. eapply Rle_lt_trans; [apply Rabs_triang|]. lra.
    - apply Rle_trans with (Rabs (sin x * F1 n x)).
      2:{ rewrite Rabs_mult, (Rabs_pos_eq (sin x)) by lra. pose proof (Rabs_pos (F1 n x)). nra. }
      rewrite G, Rabs_Ropp, Rabs_mult, (Rabs_pos_eq N) by lra.
      set (p := lg k (cos x)) in *. set (q := F n x) in *. clearbody p q. set (c := cos x) in *. clearbody c.
      assert (L : Rabs (IZR a) - Rabs (IZR b) - 10 ^ 8 <= Rabs (p - c * q) * sc).
      { assert (La : Rabs (IZR a) <= Rabs p * sc + 5 * 10 ^ 7). { rewrite <- (Rabs_pos_eq sc) by lra. rewrite <- Rabs_mult. replace (IZR a) with (p * sc - (p * sc - IZR a)) by ring. unfold Rminus at 1. eapply Rle_trans; [apply Rabs_triang|]. rewrite Rabs_Ropp. lra. }
        assert (Lb : Rabs q * sc <= Rabs (IZR b) + 5 * 10 ^ 7). { rewrite <- (Rabs_pos_eq sc) at 1 by lra. rewrite <- Rabs_mult. replace (q * sc) with (IZR b + (q * sc - IZR b)) by ring. eapply Rle_trans; [apply Rabs_triang|]. lra. }
        assert (Lq : Rabs p - Rabs q <= Rabs (p - c * q)).
        { pose proof (Rabs_triang (p - c * q) (c * q)) as T. replace (p - c * q + c * q) with p in T by ring. rewrite Rabs_mult in T. assert (Rabs c * Rabs q <= 1 * Rabs q) by (apply Rmult_le_compat_r; [apply Rabs_pos|exact BC]). lra. }
        assert ((Rabs p - Rabs q) * sc <= Rabs (p - c * q) * sc) by (apply Rmult_le_compat_r; lra). lra. }
      apply (Rmult_le_reg_r sc); [exact SP|]. rewrite Rmult_plus_distr_r. replace (10 ^ 26 * (Rabs (IZR b) + 10 ^ 8) / sc * sc) with (10 ^ 26 * (Rabs (IZR b) + 10 ^ 8)) by (field; lra).
      apply Rle_trans with (N * (Rabs (p - c * q) * sc)); [|lra]. apply Rle_trans with (N * (Rabs (IZR a) - Rabs (IZR b) - 10 ^ 8)); [lra|]. apply Rmult_le_compat_l; lra. }
  clear HS VM VN. destruct RT as (u & U & Z). exists u.
  assert (PB : 31 / 10 < PI) by (pose proof PI_lo; lra). split; [lra|]. split; [exact Z|].
  assert (UX : Rabs (u - x) <= / 10 ^ 26) by (apply Rabs_le; lra).
  split.
  - apply IZR_le in H1. rewrite plus_IZR, DZ, abs_IZR, minus_IZR, mult_IZR, P13 in H1.
    assert (Y : Rabs (x - IZR y / 10 ^ 30) * 10 ^ 30 + 10 ^ 4 <= 21 * 10 ^ 13).
    { rewrite <- (Rabs_pos_eq (10 ^ 30)) at 2 by lra. rewrite <- Rabs_mult. unfold x. replace ((IZR z / 10 ^ 30 - IZR y / 10 ^ 30) * 10 ^ 30) with (IZR z - IZR y) by field. exact H1. }
    replace (IZR y / 10 ^ 30 - u) with (- (x - IZR y / 10 ^ 30) - (u - x)) by ring. unfold Rminus at 1. eapply Rle_trans; [apply Rabs_triang|]. rewrite !Rabs_Ropp. lra.
  - assert (SN : 0 < sin u) by (apply sin_gt_0; lra). assert (S2P : 0 < sin u * sin u) by (apply Rmult_lt_0_compat; assumption).
    pose proof (F1_lg k u Z) as FE. fold N in FE. set (D := lg k (cos u)) in *.
    assert (LD : Rabs (lg k (cos u) - lg k (cos x)) <= 2 / 10 ^ 24).
    { eapply Rle_trans; [apply lg_lip|]. assert (K : 0 <= INR k <= 100) by (unfold N in NR; rewrite S_INR in NR; split; [apply pos_INR|lra]). apply Rle_trans with (2 * 100 * / 10 ^ 26); [|lra]. apply Rmult_le_compat; [lra|apply Rabs_pos|lra|exact UX]. }
    assert (BD : Rabs D <= 1) by (apply lg_bound, COS_bound).
    destruct (weight_of v (N * N) (D * D) (sin u * sin u) (F1 n u * F1 n u) (21 / 10 ^ 17)) as [R _]; try assumption; try lra.
    + replace (sin u * sin u * (F1 n u * F1 n u)) with ((sin u * F1 n u) * (sin u * F1 n u)) by ring. rewrite FE. ring.
    + apply (scaled_check (IZR X) (sc - IZR Cz)); try lra.
      * replace (v * (D * D) * sc - IZR X) with (v * ((D * D - lg k (cos x) * lg k (cos x)) * sc) + (v * (lg k (cos x) * lg k (cos x)) * sc - IZR X)) by ring.
        eapply Rle_trans; [apply Rabs_triang|]. rewrite !Rabs_mult, (Rabs_pos_eq sc), (Rabs_pos_eq v) by lra.
        pose proof (sq_diff D (lg k (cos x)) (2 / 10 ^ 24) BD BX LD) as SD.
        assert (E1 : Rabs (D * D - lg k (cos x) * lg k (cos x)) * sc <= 2 * (2 / 10 ^ 24) * (2 * 10 ^ 36)) by (apply Rmult_le_compat; [apply Rabs_pos|lra|exact SD|exact SU]).
        assert (E2 : v * (Rabs (D * D - lg k (cos x) * lg k (cos x)) * sc) <= 5 / N * (8 * 10 ^ 12)). { apply Rmult_le_compat; [lra| |exact VN'|lra]. apply Rmult_le_pos; [apply Rabs_pos|lra]. }
        assert (E3 : / 100 <= / N) by (apply Rinv_le_contravar; lra). unfold Rdiv in *. lra.
      * pose proof (sin2_cos2 u) as SC2. unfold Rsqr in SC2.
        replace (sin u * sin u * sc - (sc - IZR Cz)) with ((cos x * cos x - cos u * cos u) * sc - (cos x * cos x * sc - IZR Cz)) by (replace (sin u * sin u) with (1 - cos u * cos u) by lra; ring).
        unfold Rminus at 1. eapply Rle_trans; [apply Rabs_triang|]. rewrite Rabs_Ropp, Rabs_mult, (Rabs_pos_eq sc) by lra.
        assert (CD : Rabs (cos x - cos u) <= / 10 ^ 26) by (eapply Rle_trans; [apply cos_lipschitz|rewrite Rabs_minus_sym; exact UX]).
        pose proof (sq_diff (cos x) (cos u) (/ 10 ^ 26) ltac:(apply Rabs_le; pose proof (COS_bound x); lra) ltac:(apply Rabs_le; pose proof (COS_bound u); lra) CD) as SD.
        assert (Rabs (cos x * cos x - cos u * cos u) * sc <= 2 * (/ 10 ^ 26) * (2 * 10 ^ 36)) by (apply Rmult_le_compat; [apply Rabs_pos|lra|exact SD|exact SU]). lra.
      * apply IZR_le in H5. rewrite !mult_IZR, !plus_IZR, !mult_IZR, abs_IZR, !minus_IZR, !mult_IZR, !minus_IZR, P17, P13, P12, <- (INR_IZR_INZ n) in H5. exact H5.
Qed.
Lemma pair_ok : forall z y w, (0 < w <= 2 * 10 ^ 30)%Z -> pair_check n z y w = true -> exists u, 0 < u < PI /\ F n u = 0 /\ Rabs (IZR y / 10 ^ 30 - u) <= 21 / 10 ^ 17 /\
  Rabs (IZR w / 10 ^ 30 - 2 / (F1 n u * F1 n u)) <= 21 / 10 ^ 17 * (2 / (F1 n u * F1 n u)).
Proof.
  intros z y w Hw H. unfold pair_check in H. cbv zeta in H.
  apply andb_prop in H. destruct H as [H H3]. apply andb_prop in H. destruct H as [H1 H2].
  eapply pair_core; [exact Hw|exact H1|exact H2|exact H3|reflexivity|reflexivity|reflexivity|reflexivity|reflexivity].
Qed.
Lemma pairs_ok : forall es zs, pairs_check n zs es = true -> forall d, In d es -> exists z, pair_check n z (fix30 (fst d)) (fix30 (snd d)) = true.
Proof.
  induction es as [|e es IH]; intros [|z zs] H d Hd; try (destruct Hd; fail); cbn [pairs_check] in H; [discriminate|]. apply andb_prop in H. destruct H as [H1 H2].
  destruct Hd as [-> |Hd]; [exists z; exact H1|]. apply (IH zs H2 d Hd).
Qed.
Lemma middle_ok : Nat.odd n = true -> middle_check n = true -> F n (PI / 2) = 0 /\
  Rabs (midw n - 2 / (F1 n (PI / 2) * F1 n (PI / 2))) <= 21 / 10 ^ 17 * (2 / (F1 n (PI / 2) * F1 n (PI / 2))).
Proof.
  intros O H. unfold middle_check, midw in *. rewrite O in *. cbv zeta in H. apply Z.leb_le in H. pose proof n_range as NR. pose proof sc_pos as SP. pose proof sc_big as SB.
  assert (Z : F n (PI / 2) = 0).
  { rewrite F_lg, cos_PI2. clear - O. assert (G : forall j, lg (S (2 * j)) 0 = 0). { induction j as [|j IH]; [apply lg_1|]. replace (S (2 * S j)) with (S (S (S (2 * j)))) by lia. rewrite lg_rec, IH. ring. }
    apply Nat.odd_spec in O. destruct O as [m E]. replace n with (S (2 * m)) by lia. apply G. }
  split; [exact Z|]. pose proof (F1_lg k _ Z) as FE. rewrite sin_PI2, cos_PI2, Rmult_1_l in FE.
  assert (V0 : ap (sz fzero) 0 2000). { unfold ap. change (sz fzero) with 0%Z. rewrite Rmult_0_l, Rminus_0_r, Rabs_R0. lra. }
  destruct (ev_ap n 0 fzero ltac:(lia) ltac:(lra) V0) as [VM _]. replace (n - 1)%nat with k in VM by lia. assert (BD : Rabs (lg k 0) <= 1) by (apply lg_bound; lra).
  set (D := lg k 0) in *. clearbody D.
  assert (DD : ap (sz (fmul (fst (ev n fzero)) (fst (ev n fzero)))) (D * D) (2 * 10 ^ 8)) by (apply (ap_fmul _ _ _ _ (5 * 10 ^ 7) (5 * 10 ^ 7) 1 1); try exact VM; try exact BD; lra).
  set (D2 := sz (fmul (fst (ev n fzero)) (fst (ev n fzero)))) in *. clearbody D2. clear VM V0. unfold ap in DD.
  destruct (cl_facts n ltac:(lia)) as [CE CN]. set (c := val (cl_entry n)) in *. assert (CV : IZR (fix30 (cl_entry n)) = c * 10 ^ 30) by (unfold c, val; rewrite (fix30_val _ CE); field). clearbody c.
  apply IZR_le in H. rewrite !mult_IZR, !plus_IZR, !mult_IZR, abs_IZR, !minus_IZR, !mult_IZR, CV, <- (INR_IZR_INZ n) in H.
  replace (IZR (10 ^ 17)) with (10 ^ 17) in H by (rewrite (pow_IZR 10 17); reflexivity). replace (IZR (10 ^ 60)) with (10 ^ 60) in H by (rewrite (pow_IZR 10 60); reflexivity). replace (IZR (10 ^ 9)) with (10 ^ 9) in H by (rewrite (pow_IZR 10 9); reflexivity).
  set (N := INR n) in *. set (d2 := IZR D2) in *. clearbody d2. set (s := sc) in *. clearbody s.
  assert (NN : 1 <= N * N) by nra.
  assert (C0 : 0 < c * c) by (assert (c * c <> 0) by (apply Rmult_integral_contrapositive; split; assumption); pose proof (sq_nn c); lra).
  assert (K : Rabs (N * N * (D * D) - c * c) <= 21 / 10 ^ 17 * (c * c)).
  { apply (Rmult_le_reg_r (10 ^ 60 * s)); [apply Rmult_lt_0_compat; lra|]. rewrite <- (Rabs_pos_eq (10 ^ 60 * s)) at 1 by (apply Rmult_le_pos; lra). rewrite <- Rabs_mult.
    replace ((N * N * (D * D) - c * c) * (10 ^ 60 * s)) with ((N * N * d2 * 10 ^ 60 - c * 10 ^ 30 * (c * 10 ^ 30) * s) + N * N * 10 ^ 60 * (D * D * s - d2)) by ring.
    eapply Rle_trans; [apply Rabs_triang|]. assert (Rabs (N * N * 10 ^ 60 * (D * D * s - d2)) <= N * N * 10 ^ 60 * 10 ^ 9).
    { rewrite Rabs_mult, Rabs_pos_eq by (apply Rmult_le_pos; lra). apply Rmult_le_compat_l; [apply Rmult_le_pos; lra|lra]. }
    replace (21 / 10 ^ 17 * (c * c) * (10 ^ 60 * s)) with (/ 10 ^ 17 * (21 * (c * 10 ^ 30 * (c * 10 ^ 30) * s))) by field. lra. }
  replace (F1 n (PI / 2) * F1 n (PI / 2)) with (N * N * (D * D)) by (rewrite FE; ring).
  destruct (weight_of (2 / (c * c)) 1 (N * N * (D * D)) 1 (N * N * (D * D)) (21 / 10 ^ 17)) as [R _]; try lra.
  - apply Rmult_le_pos; [lra|left; apply Rinv_0_lt_compat; exact C0].
  - replace (1 * (2 / (c * c)) * (N * N * (D * D)) - 2 * 1) with (2 / (c * c) * (N * N * (D * D) - c * c)) by (field; exact CN). rewrite Rabs_mult, Rabs_pos_eq by (apply Rmult_le_pos; [lra|left; apply Rinv_0_lt_compat; exact C0]).
    apply Rle_trans with (2 / (c * c) * (21 / 10 ^ 17 * (c * c))); [apply Rmult_le_compat_l; [apply Rmult_le_pos; [lra|left; apply Rinv_0_lt_compat; exact C0]|exact K]|]. right. field. exact CN.
Qed.
End P.
