(** The defect of the functional equation, and its bound. *)
From Coq Require Import Reals Lra Lia List ZArith.
From Coquelicot Require Import Coquelicot.
From Verif Require Import Arith RInst RInstProof Gamma GammaProof GamPoly GamRatio.
Import ListNotations.
Local Open Scope R_scope.

Lemma checks : check_M = true /\ check_low pA_v (16 * 10 ^ 19) = true /\ check_low pB_v (24 * 10 ^ 19) = true.
Proof.
  assert (H := check_true). unfold check_all in H. apply Bool.andb_true_iff in H. destruct H as [H H3].
  apply Bool.andb_true_iff in H. destruct H as [H1 H2]. auto.
Qed.
Lemma gq_pos : (0 < gq)%Z. Proof. reflexivity. Qed.
Lemma M_bound : forall w, 0 <= w -> IZR gq * w <= 2 -> Rabs (peval pM w) <= IZR gbeta * w ^ 3.
Proof.
  intros w H1 H2. destruct checks as [C _]. unfold check_M in C. rewrite pM_val.
  destruct pM_v as [|a0 [|a1 [|a2 m]]]; try discriminate C.
  apply Bool.andb_true_iff in C. destruct C as [C C4]. apply Bool.andb_true_iff in C. destruct C as [C C3].
  apply Bool.andb_true_iff in C. destruct C as [C1 C2].
  apply Z.eqb_eq in C1, C2, C3. apply Z.leb_le in C4. subst.
  assert (B := peval_bound m gq w gq_pos H1 H2). apply IZR_le in C4. rewrite mult_IZR, <- pow_IZR in C4.
  assert (Q : 0 < IZR gq ^ pred (length m)) by (apply pow_lt, IZR_lt, gq_pos).
  assert (B2 : Rabs (peval m w) <= IZR gbeta) by (apply (Rmult_le_reg_l _ _ _ Q); lra).
  cbn [peval]. replace (0 + w * (0 + w * (0 + w * peval m w))) with (peval m w * w ^ 3) by ring.
  rewrite Rabs_mult, (Rabs_pos_eq (w ^ 3)) by (apply pow_le; exact H1). apply Rmult_le_compat_r; [apply pow_le; exact H1|exact B2].
Qed.
Lemma low_bound : forall p b w, check_low p b = true -> 0 <= w -> IZR gq * w <= 2 -> IZR b <= peval p w.
Proof.
  intros p b w C H1 H2. assert (B := peval_low p gq w gq_pos H1 H2). unfold check_low in C.
  destruct (pshift (pscale gq p)) as [|c s]; [discriminate C|]. apply Z.leb_le in C. apply IZR_le in C. rewrite mult_IZR, <- pow_IZR in C.
  assert (Q : 0 < IZR gq ^ pred (length p)) by (apply pow_lt, IZR_lt, gq_pos).
  apply (Rmult_le_reg_l _ _ _ Q). lra.
Qed.
Lemma A_low : forall w, 0 <= w -> IZR gq * w <= 2 -> 16 * 10 ^ 19 <= peval pA w.
Proof.
  intros w H1 H2. assert (L := low_bound _ _ w (proj1 (proj2 checks)) H1 H2). rewrite <- pA_val in L.
  rewrite mult_IZR in L. change (10 ^ 19)%Z with (10 ^ Z.of_nat 19)%Z in L. rewrite <- pow_IZR in L. exact L.
Qed.
Lemma B_low : forall w, 0 <= w -> IZR gq * w <= 2 -> 24 * 10 ^ 19 <= peval pB w.
Proof.
  intros w H1 H2. assert (L := low_bound _ _ w (proj2 (proj2 checks)) H1 H2). rewrite <- pB_val in L.
  rewrite mult_IZR in L. change (10 ^ 19)%Z with (10 ^ Z.of_nat 19)%Z in L. rewrite <- pow_IZR in L. exact L.
Qed.

Definition vcorr (w : R) : R := peval pv w / IZR gV.
Definition psi (w : R) : R :=
  (/ (T * w) + (1 - gamma_g)) * ln (1 + T * w) - 1 + ln (peval pA w) - ln (peval pB w) + (vcorr w - vcorr (w / (1 + T * w))).
Definition dpsi (w : R) : R :=
  - ln (1 + T * w) / (T * w ^ 2) + (/ (T * w) + (1 - gamma_g)) * (T / (1 + T * w))
  + peval (pder pA) w / peval pA w - peval (pder pB) w / peval pB w
  + (peval pdv w - peval pdv (w / (1 + T * w)) / (1 + T * w) ^ 2) / IZR gV.
Lemma gV_pos : 0 < IZR gV. Proof. apply IZR_lt. reflexivity. Qed.
Lemma gL_pos : 0 < IZR gL. Proof. apply IZR_lt. reflexivity. Qed.
Lemma psi_der : forall w, 0 < w -> IZR gq * w <= 2 -> is_derive psi w (dpsi w).
Proof.
  intros w H1 H2. assert (A := A_low w ltac:(lra) H2). assert (B := B_low w ltac:(lra) H2).
  assert (Tp : 0 < T) by (rewrite T_val; lra). assert (Tw : 0 < T * w) by (apply Rmult_lt_0_compat; assumption).
  assert (V := gV_pos).
  assert (D : forall p t, is_derive (fun x => peval p x) t (peval (pder p) t)) by (intros; apply peval_derive).
  assert (E : forall p t, ex_derive (fun x => peval p x) t) by (intros p t; exists (peval (pder p) t); apply D).
  assert (U : forall p t, Derive (fun x => peval p x) t = peval (pder p) t) by (intros p t; apply is_derive_unique, D).
  unfold psi, vcorr. 
  set (fA := fun x : R => peval pA x). set (fB := fun x : R => peval pB x). set (fv := fun x : R => peval pv x).
  apply (is_derive_ext (fun w => (/ (T * w) + (1 - gamma_g)) * ln (1 + T * w) - 1 + ln (fA w) - ln (fB w) + (fv w / IZR gV - fv (w / (1 + T * w)) / IZR gV))); [reflexivity|].
  auto_derive.
  - repeat split; try (apply E); try lra. 
    + change (0 < peval pA w). lra.
    + change (0 < peval pB w). lra.
  - change (fun x : R => fA x) with (fun x : R => peval pA x). change (fun x : R => fB x) with (fun x : R => peval pB x).
    change (fun x : R => fv x) with (fun x : R => peval pv x). rewrite !U. fold pdv. unfold fA, fB. cbv beta.
    unfold dpsi, Rdiv. set (a := peval pA w) in *. set (b := peval pB w) in *. set (P := 1 + T * w). 
    assert (0 < P) by (unfold P; lra). set (l := ln P). set (d1 := peval pdv w). set (d2 := peval pdv (w * / P)).
    set (a' := peval (pder pA) w). set (b' := peval (pder pB) w). clearbody a b l d1 d2 a' b'. 
    set (c := gamma_g). set (v := IZR gV) in *. clearbody c v. set (t := T) in *. unfold P in *. clearbody t. field. repeat split; lra.
Qed.
Lemma dpsi_ident : forall w, 0 < w -> IZR gq * w <= 2 -> let P := 1 + T * w in
  dpsi w * (IZR gL * IZR gV * T * w ^ 2 * P ^ 11 * peval pA w * peval pB w)
  = peval pM w + IZR gL * IZR gV * P ^ 11 * peval pA w * peval pB w * (T * w * lser 16 1 (T * w) - ln P).
Proof.
  intros w H1 H2 P. assert (A := A_low w ltac:(lra) H2). assert (B := B_low w ltac:(lra) H2).
  assert (Tp : 0 < T) by (rewrite T_val; lra). assert (Tw : 0 < T * w) by (apply Rmult_lt_0_compat; assumption).
  assert (V := gV_pos). rewrite pM_eval by lra. fold P. unfold dpsi. fold P.
  assert (HP : 0 < P) by (unfold P; lra).
  assert (G : 9900511 = - (1 - gamma_g) * T) by (unfold gamma_g; rewrite T_val; lra). rewrite G.
  set (a := peval pA w) in *. set (b := peval pB w) in *. set (l := ln P). set (d1 := peval pdv w). set (d2 := peval pdv (w / P)).
  set (a' := peval (pder pA) w). set (b' := peval (pder pB) w). set (s := lser 16 1 (T * w)).
  set (c := gamma_g). set (v := IZR gV) in *. clearbody c v. set (t := T) in *. set (gl := IZR gL).
  clearbody a b l d1 d2 a' b' s gl. unfold P in *. clearbody t. field. repeat split; lra.
Qed.
Definition wmax : R := / 10900511.
Lemma beta_val : IZR gbeta = 148 * 10 ^ 71.
Proof. unfold gbeta. rewrite mult_IZR. f_equal. symmetry. apply (pow_IZR 10 71). Qed.
Lemma gL_val : IZR gL = 720720. Proof. reflexivity. Qed.
Lemma gV_val : IZR gV = 10 ^ 22. Proof. symmetry. apply (pow_IZR 10 22). Qed.
Lemma combine : forall t gl gv be w a b P d m l, t = 1000000 -> gl = 720720 -> gv = 10 ^ 22 -> be = 148 * 10 ^ 71 ->
  0 < w <= wmax -> 16 * 10 ^ 19 <= a -> 24 * 10 ^ 19 <= b -> 1 <= P ->
  d * (gl * gv * t * w ^ 2 * P ^ 11 * a * b) = m + gl * gv * P ^ 11 * a * b * l ->
  Rabs m <= be * w ^ 3 -> Rabs l <= (t * w) ^ 17 / INR 17 -> Rabs d <= 56 / 1000 * w.
Proof.
  intros t gl gv be w a b P d m l Et El Ev Eb [H1 H3] A B HP I MB LT. unfold wmax in H3.
  assert (Tp : 0 < t) by lra. assert (Tw : 0 < t * w) by (apply Rmult_lt_0_compat; assumption).
  assert (V : 0 < gv) by lra. assert (L : 0 < gl) by lra.
  assert (HP11 : 1 <= P ^ 11) by (apply pow_R1_Rle, HP).
  assert (HX' : 384 * 10 ^ 38 <= P ^ 11 * a * b).
  { apply Rle_trans with (1 * (16 * 10 ^ 19) * (24 * 10 ^ 19)); [lra|].
    apply Rmult_le_compat; [lra|lra| |exact B]. apply Rmult_le_compat; lra. }
  remember (P ^ 11 * a * b) as X eqn:EX. rename HX' into HX.
  assert (I2 : d * (gl * gv * t * w ^ 2 * X) = m + gl * gv * X * l).
  { rewrite EX. revert I. match goal with |- ?l = ?r -> ?l2 = ?r2 => replace l2 with l by ring; replace r2 with r by ring; auto end. }
  clear I EX A B HP HP11 a b P.
  assert (HX0 : 0 < X) by lra. assert (W2 : 0 < w ^ 2) by (apply pow_lt, H1).
  assert (LV : 0 < gl * gv) by (apply Rmult_lt_0_compat; assumption).
  assert (LVX : 0 < gl * gv * X) by (apply Rmult_lt_0_compat; assumption).
  assert (HD : 0 < gl * gv * t * w ^ 2 * X) by exact (Rmult_lt_0_compat _ _ (Rmult_lt_0_compat _ _ (Rmult_lt_0_compat _ _ LV Tp) W2) HX0).
  remember (gl * gv * t * w ^ 2 * X) as Dn eqn:ED.
  apply (Rmult_le_reg_r Dn); [exact HD|]. rewrite <- (Rabs_pos_eq Dn) at 1 by lra. rewrite <- Rabs_mult, I2.
  eapply Rle_trans; [apply Rabs_triang|]. rewrite Rabs_mult, (Rabs_pos_eq (gl * gv * X)) by lra.
  apply Rle_trans with (be * w ^ 3 + gl * gv * X * ((t * w) ^ 17 / INR 17)).
  { apply Rplus_le_compat; [exact MB|]. apply Rmult_le_compat_l; [lra|exact LT]. }
  assert (E1 : be * w ^ 3 <= 54 / 1000 * w * Dn).
  { rewrite ED. replace (54 / 1000 * w * (gl * gv * t * w ^ 2 * X)) with ((54 / 1000 * gl * gv * t * X) * w ^ 3) by ring.
    apply Rmult_le_compat_r; [apply pow_le; lra|].
    apply Rle_trans with (54 / 1000 * gl * gv * t * (384 * 10 ^ 38)).
    - rewrite Eb, El, Ev, Et. lra.
    - apply Rmult_le_compat_l; [rewrite El, Ev, Et; lra|exact HX]. }
  assert (E2 : gl * gv * X * ((t * w) ^ 17 / INR 17) <= 2 / 1000 * w * Dn).
  { rewrite ED. replace (INR 17) with 17 by (simpl; lra).
    replace (gl * gv * X * ((t * w) ^ 17 / 17)) with ((t * w) ^ 14 * (t ^ 2 / 17) * (gl * gv * X * t * w ^ 3)) by field.
    replace (2 / 1000 * w * (gl * gv * t * w ^ 2 * X)) with (2 / 1000 * (gl * gv * X * t * w ^ 3)) by ring.
    apply Rmult_le_compat_r; [apply Rmult_le_pos; [apply Rmult_le_pos; lra|apply pow_le; lra]|].
    apply Rle_trans with ((92 / 1000) ^ 14 * (t ^ 2 / 17)).
    - apply Rmult_le_compat_r; [rewrite Et; lra|]. apply pow_incr. split; [lra|]. rewrite Et. lra.
    - rewrite Et. lra. }
  replace (56 / 1000 * w * Dn) with (54 / 1000 * w * Dn + 2 / 1000 * w * Dn) by field. exact (Rplus_le_compat _ _ _ _ E1 E2).
Qed.
Lemma dpsi_bound : forall w, 0 < w <= wmax -> Rabs (dpsi w) <= 56 / 1000 * w.
Proof.
  intros w H. assert (H2 : IZR gq * w <= 2) by (unfold gq, wmax in *; lra).
  assert (Tw : 0 < T * w) by (rewrite T_val; lra).
  apply (combine T (IZR gL) (IZR gV) (IZR gbeta) w (peval pA w) (peval pB w) (1 + T * w) (dpsi w) (peval pM w) (T * w * lser 16 1 (T * w) - ln (1 + T * w))).
  - exact T_val.
  - exact gL_val.
  - exact gV_val.
  - exact beta_val.
  - exact H.
  - apply A_low; [lra|exact H2].
  - apply B_low; [lra|exact H2].
  - lra.
  - exact (dpsi_ident w (proj1 H) H2).
  - apply M_bound; [lra|exact H2].
  - rewrite Rabs_minus_sym. apply log_taylor. lra.
Qed.

(** near 0 the defect vanishes *)
Lemma A0_B0 : peval pA 0 = peval pB 0.
Proof. rewrite pA_val, pB_val. assert (E : hd 0%Z pA_v = hd 0%Z pB_v) by (vm_compute; reflexivity).
  assert (H : forall p, peval p 0 = IZR (hd 0%Z p)) by (intros [|x p]; simpl; lra). rewrite !H, E. reflexivity. Qed.
Lemma psi_small : forall e, 0 < e -> exists d, 0 < d /\ forall w, 0 < w < d -> Rabs (psi w) < e.
Proof.
  intros e He.
  set (f := fun w => ln (peval pA w) - ln (peval pB w) + (vcorr w - vcorr (w / (1 + T * w)))).
  assert (C : continuous f 0).
  { assert (E : forall p t, ex_derive (fun x => peval p x) t) by (intros p t; exists (peval (pder p) t); apply peval_derive).
    apply (ex_derive_continuous (V := R_NormedModule)). unfold f, vcorr. 
    set (fA := fun x : R => peval pA x). set (fB := fun x : R => peval pB x). set (fv := fun x : R => peval pv x).
    apply (ex_derive_ext (fun w => ln (fA w) - ln (fB w) + (fv w / IZR gV - fv (w / (1 + T * w)) / IZR gV))); [reflexivity|].
    auto_derive. repeat split; try (apply E); try lra.
    - change (0 < peval pA 0). assert (A := A_low 0 ltac:(lra) ltac:(lra)). lra.
    - change (0 < peval pB 0). assert (B := B_low 0 ltac:(lra) ltac:(lra)). lra. }
  assert (F0 : f 0 = 0) by (unfold f; rewrite A0_B0; unfold Rdiv; rewrite Rmult_0_l; ring).
  assert (L : locally (f 0) (fun y => Rabs y < e / 2)).
  { exists (mkposreal (e / 2) ltac:(lra)). intros y Hy. change (Rabs (y - f 0) < e / 2) in Hy. rewrite F0, Rminus_0_r in Hy. exact Hy. }
  destruct (C _ L) as [d Hd]. assert (Dp := cond_pos d). assert (Tp : 0 < T) by (rewrite T_val; lra).
  exists (Rmin d (e / (22 * T))). assert (Ep : 0 < e / (22 * T)) by (apply Rdiv_lt_0_compat; lra). split; [apply Rmin_glb_lt; assumption|].
  intros w [H1 H2]. assert (H3 : w < d) by (apply Rlt_le_trans with (1 := H2), Rmin_l). assert (H4 : w < e / (22 * T)) by (apply Rlt_le_trans with (1 := H2), Rmin_r).
  assert (G : Rabs (f w) < e / 2).
  { apply (Hd w). change (Rabs (w - 0) < d). rewrite Rminus_0_r, Rabs_pos_eq; lra. }
  assert (Tw : 0 < T * w) by (apply Rmult_lt_0_compat; assumption).
  assert (LT := log_taylor 1 (T * w) ltac:(lra)). cbn [lser] in LT. rewrite Rmult_0_r in LT. replace (INR 2) with 2 in LT by (simpl; lra). replace (/ 1 - 0) with 1 in LT by field.
  rewrite Rmult_1_r in LT.
  assert (Tw2 : T * w < e / 22).
  { apply (Rmult_lt_compat_l T) in H4; [|exact Tp]. replace (T * (e / (22 * T))) with (e / 22) in H4 by (field; lra). exact H4. }
  unfold psi. fold (f w). set (u := T * w) in *.
  assert (LU : ln (1 + u) <= u).
  { apply Rle_trans with (ln (exp u)); [|rewrite ln_exp; lra]. apply ln_le; [lra|]. apply exp_ineq1_le. }
  assert (LP : 0 <= ln (1 + u)) by (rewrite <- ln_1; apply ln_le; lra).
  assert (K : Rabs ((/ u + (1 - gamma_g)) * ln (1 + u) - 1) <= 11 * u).
  { replace ((/ u + (1 - gamma_g)) * ln (1 + u) - 1) with (/ u * (ln (1 + u) - u) + (1 - gamma_g) * ln (1 + u)) by (field; lra).
    eapply Rle_trans; [apply Rabs_triang|]. rewrite !Rabs_mult, (Rabs_pos_eq (/ u)) by (left; apply Rinv_0_lt_compat; exact Tw).
    rewrite (Rabs_pos_eq (ln (1 + u))) by exact LP.
    replace (Rabs (1 - gamma_g)) with (gamma_g - 1) by (rewrite Rabs_left; unfold gamma_g; lra).
    assert (X1 : / u * Rabs (ln (1 + u) - u) <= / u * (u ^ 2 / 2)) by (apply Rmult_le_compat_l; [left; apply Rinv_0_lt_compat; exact Tw|exact LT]).
    replace (/ u * (u ^ 2 / 2)) with (u / 2) in X1 by (field; lra).
    assert (X2 : (gamma_g - 1) * ln (1 + u) <= (gamma_g - 1) * u) by (apply Rmult_le_compat_l; [unfold gamma_g; lra|exact LU]).
    unfold gamma_g in *. lra. }
  match goal with |- Rabs ?x < _ => replace x with (((/ u + (1 - gamma_g)) * ln (1 + u) - 1) + f w) by (unfold f; fold u; ring) end.
  eapply Rle_lt_trans; [apply Rabs_triang|]. lra.
Qed.
Lemma psi_bound : forall w, 0 < w <= wmax -> Rabs (psi w) <= 28 / 1000 * w ^ 2.
Proof.
  intros w [H1 H2]. apply Rnot_lt_le. intros N. set (e := Rabs (psi w) - 28 / 1000 * w ^ 2).
  destruct (psi_small e ltac:(unfold e; lra)) as (d & Hd & Sm).
  set (t := Rmin w d / 2). assert (Ht : 0 < t) by (unfold t; assert (0 < Rmin w d) by (apply Rmin_glb_lt; assumption); lra).
  assert (Htw : t <= w) by (unfold t; assert (Rmin w d <= w) by apply Rmin_l; lra).
  assert (Htd : t < d) by (unfold t; assert (Rmin w d <= d) by apply Rmin_r; lra).
  assert (St := Sm t (conj Ht Htd)).
  assert (Q : IZR gq * wmax <= 2) by (unfold gq, wmax; lra).
  assert (Dq : forall x : R, is_derive (fun x => 28 / 1000 * x ^ 2) x (56 / 1000 * x)) by (intros x; auto_derive; [trivial|]; simpl; field).
  assert (In : forall x, t <= x <= w -> 0 < x /\ IZR gq * x <= 2).
  { intros x Hx. split; [lra|]. apply Rle_trans with (2 := Q). apply Rmult_le_compat_l; [unfold gq; lra|lra]. }
  assert (AB : forall x, t <= x <= w -> - (56 / 1000 * x) <= dpsi x <= 56 / 1000 * x).
  { intros x Hx. assert (Y := dpsi_bound x ltac:(lra)). assert (Y1 := Rle_abs (dpsi x)). assert (Y2 := Rle_abs (- dpsi x)). rewrite Rabs_Ropp in Y2. lra. }
  assert (U := mono (fun x => 28 / 1000 * x ^ 2 - psi x) (fun x => 56 / 1000 * x - dpsi x) t w Htw).
  assert (V := mono (fun x => 28 / 1000 * x ^ 2 + psi x) (fun x => 56 / 1000 * x + dpsi x) t w Htw). cbv beta in U, V.
  assert (U1 : 28 / 1000 * t ^ 2 - psi t <= 28 / 1000 * w ^ 2 - psi w).
  { apply U. intros x Hx. destruct (In x Hx). split; [|specialize (AB x Hx); lra].
    apply (is_derive_minus (K := R_AbsRing) (V := R_NormedModule) (fun x => 28 / 1000 * x ^ 2) psi); [apply Dq|apply psi_der; assumption]. }
  assert (V1 : 28 / 1000 * t ^ 2 + psi t <= 28 / 1000 * w ^ 2 + psi w).
  { apply V. intros x Hx. destruct (In x Hx). split; [|specialize (AB x Hx); lra].
    apply (is_derive_plus (K := R_AbsRing) (V := R_NormedModule) (fun x => 28 / 1000 * x ^ 2) psi); [apply Dq|apply psi_der; assumption]. }
  assert (T2 : 0 < t ^ 2) by (apply pow_lt, Ht).
  assert (X1 := Rle_abs (psi t)). assert (X2 := Rle_abs (- psi t)). rewrite Rabs_Ropp in X2.
  assert (X3 : Rabs (psi w) <= 28 / 1000 * w ^ 2 - 28 / 1000 * t ^ 2 + Rabs (psi t)) by (apply Rabs_le; lra).
  unfold e in St. lra.
Qed.
