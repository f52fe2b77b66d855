(** Euler's reflection formula. *)
From Coq Require Import Reals Lra Lia List ZArith.
From Coquelicot Require Import Coquelicot.
From Verif Require Import Arith RInst RInstProof Gamma GammaProof WeightSpec GammaTrue GamRatio GamAcc.
Local Open Scope R_scope.

Definition lg (x : R) : R := ln (Gam x).
Lemma lg_S : forall x, 0 < x -> lg (x + 1) = lg x + ln x.
Proof. intros x Hx. unfold lg. rewrite Gam_S, ln_mult by (try apply Gam_pos; lra). ring. Qed.
Lemma lg_growth : forall u s, 0 < u -> 0 <= s <= 1 -> Rabs (lg (u + s) - lg u - s * ln u) <= / u.
Proof.
  intros u s Hu Hs. assert (G := Gam_growth u s Hu Hs). fold (lg (u + s)) (lg u) in G. assert (iu : 0 < / u) by (apply Rinv_0_lt_compat; lra).
  assert (A := ln_sub_bound u (u + s) ltac:(lra) ltac:(lra)). replace (u + s - u) with s in A by ring.
  assert (B : (1 - s) * (ln (u + s) - ln u) <= / u).
  { apply Rle_trans with (1 * (s / u)); [apply Rmult_le_compat; lra|]. rewrite Rmult_1_l. unfold Rdiv. rewrite <- (Rmult_1_l (/ u)) at 2. apply Rmult_le_compat_r; lra. }
  apply Rabs_le. lra.
Qed.

(** a function of period 1 that varies slowly at infinity is constant *)
Lemma const_of_slow : forall (f : R -> R) C, (forall x, 0 < x -> f (x + 1) = f x) ->
  (forall u s, 1 <= u -> 0 <= s <= 1 -> Rabs (f (u + s) - f u) <= C * / u) -> forall x x', 0 < x -> 0 < x' -> f x = f x'.
Proof.
  intros f C Per Sl x x' Hx Hx'.
  assert (Pn : forall n y, 0 < y -> f (y + INR n) = f y).
  { induction n as [|n IH]; intros y Hy; [simpl; rewrite Rplus_0_r; reflexivity|].
    rewrite S_INR, <- Rplus_assoc, Per, IH; auto. assert (X := pos_INR n). lra. }
  assert (HC : 0 <= C).
  { assert (Y := Sl 1 0 ltac:(lra) ltac:(lra)). rewrite Rinv_1, Rmult_1_r in Y. assert (Z := Rabs_pos (f (1 + 0) - f 1)). lra. }
  destruct (Req_dec (f x) (f x')) as [E|N]; [exact E|exfalso].
  assert (Ne : 0 < Rabs (f x - f x')) by (apply Rabs_pos_lt; lra).
  set (e := Rabs (f x - f x') / (C + 1)). assert (He : 0 < e) by (apply Rdiv_lt_0_compat; lra).
  destruct (inv_small e He) as (U & HU & I). destruct (big_nat (U + x)) as [n Hn].
  set (t := x' + INR n - x). assert (Ht : 0 <= t) by (unfold t; lra).
  destruct (archimed t) as [A1 A2]. assert (Pa : (0 <= up t)%Z) by (apply le_IZR; lra).
  set (a := Z.to_nat (up t)). assert (Ea : INR a = IZR (up t)) by (unfold a; rewrite INR_IZR_INZ, Z2Nat.id by exact Pa; reflexivity).
  assert (S1 := Sl (x' + INR n) (INR a - t) ltac:(lra) ltac:(lra)).
  replace (x' + INR n + (INR a - t)) with (x + INR a) in S1 by (unfold t; ring). rewrite !Pn in S1 by assumption.
  specialize (I (x' + INR n) ltac:(lra)).
  assert (X : C * / (x' + INR n) <= C * e) by (apply Rmult_le_compat_l; lra).
  assert (Y : Rabs (f x - f x') = (C + 1) * e) by (unfold e; field; lra). lra.
Qed.

(** ** Duplication *)
Definition dup (x : R) : R := lg (x / 2) + lg ((x + 1) / 2) + x * ln 2 - lg x.
Lemma dup_const : forall x x', 0 < x -> 0 < x' -> dup x = dup x'.
Proof.
  apply (const_of_slow dup 6).
  - intros x Hx. unfold dup. replace ((x + 1 + 1) / 2) with (x / 2 + 1) by field. rewrite !lg_S by lra. rewrite ln_div by lra. ring.
  - intros u s Hu Hs. assert (iu : 0 < / u) by (apply Rinv_0_lt_compat; lra).
    assert (G1 := lg_growth (u / 2) (s / 2) ltac:(lra) ltac:(lra)). assert (G2 := lg_growth ((u + 1) / 2) (s / 2) ltac:(lra) ltac:(lra)).
    assert (G3 := lg_growth u s ltac:(lra) Hs).
    assert (E1 : / (u / 2) = 2 * / u) by (field; lra). rewrite E1 in G1.
    assert (E2 : / ((u + 1) / 2) <= 2 * / u) by (replace (2 * / u) with (/ (u / 2)) by (field; lra); apply Rinv_le_contravar; lra).
    rewrite !ln_div in G1, G2 by lra. rewrite <- Rmult_plus_distr_r in G1 || idtac.
    assert (A := ln_sub_bound u (u + 1) ltac:(lra) ltac:(lra)). replace ((u + 1 - u) / u) with (/ u) in A by (field; lra).
    apply abs_bet in G1, G2, G3.
    unfold dup. replace ((u + s) / 2) with (u / 2 + s / 2) by field. replace ((u + s + 1) / 2) with ((u + 1) / 2 + s / 2) by field.
    apply Rabs_le. assert (H : 0 <= s / 2 * (ln (u + 1) - ln u) <= / u).
    { split; [apply Rmult_le_pos; lra|]. apply Rle_trans with (1 * / u); [apply Rmult_le_compat; lra|lra]. }
    lra.
Qed.

(** ** Second differences *)
Definition d2 (f : R -> R) (x h : R) : R := f (x + h) + f (x - h) - 2 * f x.
Lemma d2_ln : forall v h, 1 <= v -> 0 <= h <= / 2 -> Rabs (d2 ln v h) <= 2 * h ^ 2 * / v ^ 2.
Proof.
  intros v h Hv Hh. set (t := h ^ 2 * / v ^ 2).
  assert (V2 : 1 <= v ^ 2) by (apply pow_R1_Rle; lra).
  assert (Ht : 0 <= t <= / 4).
  { unfold t. split; [apply Rmult_le_pos; [apply pow_le; lra|left; apply Rinv_0_lt_compat; lra]|].
    apply Rle_trans with (/ 4 * 1); [|lra]. apply Rmult_le_compat; [apply pow_le; lra|left; apply Rinv_0_lt_compat; lra| |].
    - simpl pow. nra.
    - rewrite <- Rinv_1. apply Rinv_le_contravar; lra. }
  assert (E : d2 ln v h = ln (1 - t) - ln 1).
  { unfold d2. replace (2 * ln v) with (ln v + ln v) by ring. rewrite <- !ln_mult by lra. rewrite ln_1, Rminus_0_r.
    rewrite <- ln_div by (try (apply Rmult_lt_0_compat); lra). f_equal. unfold t. field. lra. }
  assert (L := ln_sub_bound (1 - t) 1 ltac:(lra) ltac:(lra)).
  assert (B : (1 - (1 - t)) / (1 - t) <= 2 * t).
  { apply (Rmult_le_reg_r (1 - t)); [lra|]. unfold Rdiv. rewrite Rmult_assoc, Rinv_l by lra. nra. }
  rewrite E. replace (2 * h ^ 2 * / v ^ 2) with (2 * t) by (unfold t; ring). apply Rabs_le. lra.
Qed.
Lemma d2_lg_S : forall v h, 1 <= v -> 0 <= h <= / 2 -> d2 lg (v + 1) h = d2 lg v h + d2 ln v h.
Proof.
  intros v h Hv Hh. unfold d2. replace (v + 1 + h) with (v + h + 1) by ring. replace (v + 1 - h) with (v - h + 1) by ring.
  rewrite !lg_S by lra. ring.
Qed.
Lemma d2_lg_n : forall n v h, 1 <= v -> 0 <= h <= / 2 -> Rabs (d2 lg (v + INR n) h - d2 lg v h) <= 2 * h ^ 2 * (/ (v - / 2) - / (v + INR n - / 2)).
Proof.
  induction n as [|n IH]; intros v h Hv Hh.
  - simpl INR. rewrite !Rplus_0_r, Rminus_diag_eq, Rabs_R0, Rminus_diag_eq by reflexivity. lra.
  - rewrite S_INR, <- Rplus_assoc. assert (Pn := pos_INR n). rewrite d2_lg_S by lra.
    specialize (IH v h Hv Hh). assert (A := d2_ln (v + INR n) h ltac:(lra) Hh). set (u := v + INR n) in *.
    assert (Hu : 1 <= u) by (unfold u; lra). 
    assert (B : / u ^ 2 <= / (u - / 2) - / (u + 1 - / 2)).
    { replace (/ (u - / 2) - / (u + 1 - / 2)) with (/ ((u - / 2) * (u + / 2))) by (field; lra). apply Rinv_le_contravar; [apply Rmult_lt_0_compat; lra|]. simpl pow. nra. }
    assert (H2 : 0 <= 2 * h ^ 2) by (assert (0 <= h ^ 2) by (apply pow_le; lra); lra).
    assert (C := Rmult_le_compat_l _ _ _ H2 B).
    replace (d2 lg u h + d2 ln u h - d2 lg v h) with ((d2 lg u h - d2 lg v h) + d2 ln u h) by ring.
    eapply Rle_trans; [apply Rabs_triang|]. lra.
Qed.
Lemma d2_lg_far : forall v h, 2 <= v -> 0 <= h <= / 2 -> Rabs (d2 lg v h) <= 3 * / (v - 1).
Proof.
  intros v h Hv Hh. assert (G1 := lg_growth v h ltac:(lra) ltac:(lra)). assert (G2 := lg_growth (v - h) h ltac:(lra) ltac:(lra)).
  replace (v - h + h) with v in G2 by ring. 
  assert (I1 : / v <= / (v - 1)) by (apply Rinv_le_contravar; lra). assert (I2 : / (v - h) <= / (v - 1)) by (apply Rinv_le_contravar; lra).
  assert (L := ln_sub_bound (v - h) v ltac:(lra) ltac:(lra)). replace (v - (v - h)) with h in L by ring.
  assert (P : 0 < / (v - h)) by (apply Rinv_0_lt_compat; lra).
  assert (H : 0 <= h * (ln v - ln (v - h)) <= / (v - 1)).
  { split; [apply Rmult_le_pos; lra|]. apply Rle_trans with (1 * (h / (v - h))); [apply Rmult_le_compat; lra|]. unfold Rdiv. nra. }
  apply abs_bet in G1, G2. unfold d2. apply Rabs_le. lra.
Qed.
Lemma d2_lg : forall v h, 1 <= v -> 0 <= h <= / 2 -> Rabs (d2 lg v h) <= 4 * h ^ 2.
Proof.
  intros v h Hv Hh. apply Rnot_lt_le. intros N. set (e := Rabs (d2 lg v h) - 4 * h ^ 2).
  destruct (inv_small (e / 6) ltac:(unfold e; lra)) as (U & HU & I). destruct (big_nat (U + 2)) as [n Hn].
  assert (F := d2_lg_far (v + INR n) h ltac:(lra) Hh). assert (G := d2_lg_n n v h Hv Hh). specialize (I (v + INR n - 1) ltac:(lra)).
  assert (H2 : 0 <= 2 * h ^ 2) by (assert (0 <= h ^ 2) by (apply pow_le; lra); lra).
  assert (B : 2 * h ^ 2 * (/ (v - / 2) - / (v + INR n - / 2)) <= 2 * h ^ 2 * 2).
  { apply Rmult_le_compat_l; [exact H2|]. assert (0 < / (v + INR n - / 2)) by (apply Rinv_0_lt_compat; lra).
    assert (/ (v - / 2) <= / / 2) by (apply Rinv_le_contravar; lra). rewrite Rinv_inv in H0. lra. }
  assert (T := Rabs_triang_inv (d2 lg v h) (d2 lg (v + INR n) h)). rewrite Rabs_minus_sym in G. unfold e in *. lra.
Qed.
(** a bounded second derivative bounds the second difference *)
Lemma d2_der : forall f f1 f2 C x h, 0 <= h -> 0 <= C ->
  (forall t, x - h <= t <= x + h -> is_derive f t (f1 t) /\ is_derive f1 t (f2 t) /\ Rabs (f2 t) <= C) -> Rabs (d2 f x h) <= C * h ^ 2.
Proof.
  intros f f1 f2 C x h Hh HC H.
  (* first derivative *)
  assert (A : forall t, 0 <= t <= h -> - (2 * C * t) <= f1 (x + t) - f1 (x - t) <= 2 * C * t).
  { intros t Ht. 
    assert (U := mono (fun s => C * s - f1 s) (fun s => C - f2 s) (x - t) (x + t) ltac:(lra)).
    assert (V := mono (fun s => C * s + f1 s) (fun s => C + f2 s) (x - t) (x + t) ltac:(lra)). cbv beta in U, V.
    assert (DC : forall s : R, is_derive (fun s => C * s) s C) by (intros s; auto_derive; [trivial|ring]).
    assert (U1 : C * (x - t) - f1 (x - t) <= C * (x + t) - f1 (x + t)).
    { apply U. intros s Hs. destruct (H s ltac:(lra)) as (_ & D & B). apply abs_bet in B. split; [|lra].
      apply (is_derive_minus (K := R_AbsRing) (V := R_NormedModule) (fun s => C * s) f1); [apply DC|exact D]. }
    assert (V1 : C * (x - t) + f1 (x - t) <= C * (x + t) + f1 (x + t)).
    { apply V. intros s Hs. destruct (H s ltac:(lra)) as (_ & D & B). apply abs_bet in B. split; [|lra].
      apply (is_derive_plus (K := R_AbsRing) (V := R_NormedModule) (fun s => C * s) f1); [apply DC|exact D]. }
    lra. }
  assert (D : forall t, 0 <= t <= h -> is_derive (fun t => d2 f x t) t (f1 (x + t) - f1 (x - t))).
  { intros t Ht. unfold d2. destruct (H (x + t) ltac:(lra)) as (D1 & _ & _). destruct (H (x - t) ltac:(lra)) as (D2 & _ & _).
    replace (f1 (x + t) - f1 (x - t)) with ((1 * f1 (x + t) + -1 * f1 (x - t)) - 0) by ring.
    apply (is_derive_minus (K := R_AbsRing) (V := R_NormedModule) (fun t => f (x + t) + f (x - t)) (fun _ => 2 * f x)); [|apply (is_derive_const (V := R_NormedModule))].
    apply (is_derive_plus (K := R_AbsRing) (V := R_NormedModule) (fun t => f (x + t)) (fun t => f (x - t))).
    - apply (is_derive_comp f (fun t => x + t)); [exact D1|]. auto_derive; [trivial|ring].
    - apply (is_derive_comp f (fun t => x - t)); [exact D2|]. auto_derive; [trivial|ring]. }
  assert (DQ : forall s : R, is_derive (fun s => C * s ^ 2) s (2 * C * s)) by (intros s; auto_derive; [trivial|]; simpl; ring).
  assert (Z : d2 f x 0 = 0) by (unfold d2; rewrite Rplus_0_r, Rminus_0_r; ring).
  assert (U := mono (fun t => C * t ^ 2 - d2 f x t) (fun t => 2 * C * t - (f1 (x + t) - f1 (x - t))) 0 h Hh).
  assert (V := mono (fun t => C * t ^ 2 + d2 f x t) (fun t => 2 * C * t + (f1 (x + t) - f1 (x - t))) 0 h Hh). cbv beta in U, V. rewrite Z in U, V.
  assert (U1 : C * 0 ^ 2 - 0 <= C * h ^ 2 - d2 f x h).
  { apply U. intros s Hs. split; [|specialize (A s Hs); lra].
    apply (is_derive_minus (K := R_AbsRing) (V := R_NormedModule) (fun s => C * s ^ 2) (fun t => d2 f x t)); [apply DQ|apply D, Hs]. }
  assert (V1 : C * 0 ^ 2 + 0 <= C * h ^ 2 + d2 f x h).
  { apply V. intros s Hs. split; [|specialize (A s Hs); lra].
    apply (is_derive_plus (K := R_AbsRing) (V := R_NormedModule) (fun s => C * s ^ 2) (fun t => d2 f x t)); [apply DQ|apply D, Hs]. }
  apply Rabs_le. lra.
Qed.

(** ** The sine *)
Lemma sin_cubic : forall t, 0 <= t -> t - t ^ 3 / 6 <= sin t.
Proof.
  assert (C : forall t, 0 <= t -> 0 <= cos t - 1 + t ^ 2 / 2).
  { intros t Ht. assert (M := mono (fun s => cos s - 1 + s ^ 2 / 2) (fun s => s - sin s) 0 t Ht). cbv beta in M. rewrite cos_0 in M.
    assert (Q : 1 - 1 + 0 ^ 2 / 2 <= cos t - 1 + t ^ 2 / 2); [|lra]. apply M. intros s Hs. split.
    - auto_derive; [trivial|]. simpl. field.
    - destruct (Req_dec s 0) as [->|Ne]; [rewrite sin_0; lra|]. assert (X := sin_lt_x s ltac:(lra)). lra. }
  intros t Ht. assert (M := mono (fun s => sin s - s + s ^ 3 / 6) (fun s => cos s - 1 + s ^ 2 / 2) 0 t Ht). cbv beta in M. rewrite sin_0 in M.
  assert (Q : 0 - 0 + 0 ^ 3 / 6 <= sin t - t + t ^ 3 / 6); [|lra]. apply M. intros s Hs. split; [|apply C; lra].
  auto_derive; [trivial|]. simpl. field.
Qed.
Lemma PI_le_4 : PI <= 4. Proof. apply PI_4. Qed.
Lemma csc_bound : forall x, 0 < x <= / 2 -> 0 <= PI ^ 2 / sin (PI * x) ^ 2 - / x ^ 2 <= 48.
Proof.
  intros x Hx. assert (P := PI_RGT_0). assert (P4 := PI_le_4). set (t := PI * x).
  assert (Ht : 0 < t <= 2) by (unfold t; split; nra).
  assert (S1 := sin_cubic t ltac:(lra)). assert (S2 := sin_lt_x t ltac:(lra)).
  assert (T2 : t ^ 2 <= 4) by (simpl; nra). 
  assert (S3 : t / 3 <= sin t). { apply Rle_trans with (2 := S1). replace (t - t ^ 3 / 6) with (t * (1 - t ^ 2 / 6)) by field. unfold Rdiv at 1. apply Rmult_le_compat_l; lra. }
  assert (Sp : 0 < sin t) by lra.
  replace (PI ^ 2 / sin t ^ 2 - / x ^ 2) with (PI ^ 2 * ((t - sin t) * (t + sin t) / (t ^ 2 * sin t ^ 2))).
  2:{ unfold t. field. fold t. split; [lra|split; lra]. }
  assert (D : 0 < t ^ 2 * sin t ^ 2) by (apply Rmult_lt_0_compat; apply pow_lt; lra).
  split.
  - apply Rmult_le_pos; [apply pow_le; lra|]. apply Rmult_le_pos; [apply Rmult_le_pos; lra|left; apply Rinv_0_lt_compat, D].
  - replace 48 with (16 * 3) by ring. apply Rmult_le_compat; [apply pow_le; lra|apply Rmult_le_pos; [apply Rmult_le_pos; lra|left; apply Rinv_0_lt_compat, D]|simpl; nra|].
    apply (Rmult_le_reg_r (t ^ 2 * sin t ^ 2)); [exact D|]. unfold Rdiv. rewrite Rmult_assoc, Rinv_l, Rmult_1_r by lra.
    apply Rle_trans with (t ^ 3 / 6 * (2 * t)); [apply Rmult_le_compat; lra|].
    assert (Q : (t / 3) ^ 2 <= sin t ^ 2) by (apply pow_incr; lra).
    apply Rle_trans with (3 * (t ^ 2 * (t / 3) ^ 2)); [right; field|]. apply Rmult_le_compat_l; [lra|]. apply Rmult_le_compat_l; [apply pow_le; lra|exact Q].
Qed.
Definition qs (x : R) : R := ln (sin (PI * x)) - ln x - ln (1 - x).
Definition qs1 (x : R) : R := PI * (cos (PI * x) / sin (PI * x)) - / x + / (1 - x).
Definition qs2 (x : R) : R := - (PI ^ 2 / sin (PI * x) ^ 2) + / x ^ 2 + / (1 - x) ^ 2.
Lemma qs_der : forall x, 0 < x < 1 -> is_derive qs x (qs1 x) /\ is_derive qs1 x (qs2 x) /\ Rabs (qs2 x) <= 52.
Proof.
  intros x Hx. assert (Sp := sin_PI_pos x Hx). split; [|split].
  - unfold qs, qs1. auto_derive; [repeat split; lra|]. field. repeat split; lra.
  - unfold qs1, qs2. auto_derive; [repeat split; lra|]. 
    assert (E := sin2_cos2 (PI * x)). unfold Rsqr in E. set (s := sin (PI * x)) in *. set (c := cos (PI * x)) in *. clearbody s c.
    apply (Rmult_eq_reg_r (s ^ 2)); [|apply pow_nonzero; lra]. 
    assert (E2 : c * c = 1 - s * s) by lra.
    match goal with |- ?l = ?r => replace l with ((PI * (- (PI * (s * s)) - PI * (c * c))) * 1 + (/ x ^ 2 + / (1 - x) ^ 2) * s ^ 2) by (field; repeat split; lra) end.
    rewrite E2. field. repeat split; lra.
  - assert (Hs : forall y, 0 < y <= / 2 -> 0 <= / (1 - y) ^ 2 <= 4).
    { intros y Hy. split; [left; apply Rinv_0_lt_compat, pow_lt; lra|]. replace 4 with (/ (/ 2) ^ 2) by field. apply Rinv_le_contravar; [apply pow_lt; lra|]. apply pow_incr. lra. }
    unfold qs2. destruct (Rle_or_lt x (/ 2)) as [L|L].
    + assert (B := csc_bound x ltac:(lra)). assert (H := Hs x ltac:(lra)). apply Rabs_le. lra.
    + assert (B := csc_bound (1 - x) ltac:(lra)). assert (H := Hs (1 - x) ltac:(lra)).
      replace (PI * (1 - x)) with (PI - PI * x) in B by ring. rewrite sin_PI_x in B. replace (1 - (1 - x)) with x in H by ring. apply Rabs_le. lra.
Qed.

(** ** The reflection formula *)
Definition refl (x : R) : R := lg x + lg (1 - x) + ln (sin (PI * x)) - ln PI.
Lemma refl_alt : forall x, 0 < x < 1 -> refl x = lg (1 + x) + lg (2 - x) + qs x - ln PI.
Proof.
  intros x Hx. unfold refl, qs. replace (1 + x) with (x + 1) by ring. replace (2 - x) with (1 - x + 1) by ring. rewrite !lg_S by lra. ring.
Qed.
Lemma refl_d2 : forall x h, 0 <= h -> 0 < x - h -> x + h < 1 -> Rabs (d2 refl x h) <= 60 * h ^ 2.
Proof.
  intros x h Hh H1 H2. 
  assert (E : d2 refl x h = d2 lg (1 + x) h + d2 lg (2 - x) h + d2 qs x h).
  { unfold d2. rewrite !refl_alt by lra. replace (1 + (x + h)) with (1 + x + h) by ring. replace (1 + (x - h)) with (1 + x - h) by ring.
    replace (2 - (x + h)) with (2 - x - h) by ring. replace (2 - (x - h)) with (2 - x + h) by ring. ring. }
  rewrite E. assert (A := d2_lg (1 + x) h ltac:(lra) ltac:(lra)). assert (B := d2_lg (2 - x) h ltac:(lra) ltac:(lra)).
  assert (C := d2_der qs qs1 qs2 52 x h Hh ltac:(lra) ltac:(intros t Ht; apply qs_der; lra)).
  eapply Rle_trans; [apply Rabs_triang|]. eapply Rle_trans; [apply Rplus_le_compat_r, Rabs_triang|]. lra.
Qed.
Lemma refl_dup : exists k, forall x, 0 < x < 1 -> refl (x / 2) + refl ((x + 1) / 2) = refl x + k.
Proof.
  exists (2 * dup 1 - 2 * ln 2 - ln PI). intros x Hx. assert (P := PI_RGT_0).
  assert (D1 := dup_const x 1 ltac:(lra) ltac:(lra)). assert (D2 := dup_const (1 - x) 1 ltac:(lra) ltac:(lra)).
  assert (S : ln (sin (PI * (x / 2))) + ln (sin (PI * ((x + 1) / 2))) = ln (sin (PI * x)) - ln 2).
  { assert (S1 := sin_PI_pos (x / 2) ltac:(lra)). assert (S2 := sin_PI_pos ((x + 1) / 2) ltac:(lra)). assert (S3 := sin_PI_pos x Hx).
    rewrite <- ln_mult, <- ln_div by lra. f_equal.
    replace (PI * ((x + 1) / 2)) with (PI / 2 + PI * (x / 2)) by field. rewrite sin_cos_PI2 || idtac.
    rewrite <- (sin_shift (- (PI * (x / 2)))) || idtac. 
    replace (PI * x) with (2 * (PI * (x / 2))) by field. rewrite sin_2a. rewrite <- (cos_sin (PI * (x / 2))). field. }
  unfold refl. rewrite <- D1 at 1. unfold dup in D1, D2 |- *.
  replace (1 - x / 2) with ((1 - x + 1) / 2) by field. replace (1 - (x + 1) / 2) with ((1 - x) / 2) by field. lra.
Qed.
Lemma refl_iter : forall n x h, 0 <= h -> 0 < x - h -> x + h < 1 -> Rabs (d2 refl x h) <= 60 * h ^ 2 / 2 ^ n.
Proof.
  destruct refl_dup as [k Hk].
  induction n as [|n IH]; intros x h Hh H1 H2.
  - simpl pow at 2. rewrite Rdiv_1. apply refl_d2; assumption.
  - assert (A := IH (x / 2) (h / 2) ltac:(lra) ltac:(lra) ltac:(lra)). assert (B := IH ((x + 1) / 2) (h / 2) ltac:(lra) ltac:(lra) ltac:(lra)).
    assert (E : d2 refl x h = d2 refl (x / 2) (h / 2) + d2 refl ((x + 1) / 2) (h / 2)).
    { unfold d2. assert (K1 := Hk (x + h) ltac:(lra)). assert (K2 := Hk (x - h) ltac:(lra)). assert (K3 := Hk x ltac:(lra)).
      replace (x / 2 + h / 2) with ((x + h) / 2) by field. replace (x / 2 - h / 2) with ((x - h) / 2) by field.
      replace ((x + 1) / 2 + h / 2) with ((x + h + 1) / 2) by field. replace ((x + 1) / 2 - h / 2) with ((x - h + 1) / 2) by field. lra. }
    rewrite E. eapply Rle_trans; [apply Rabs_triang|]. assert (P2 : 0 < 2 ^ n) by (apply pow_lt; lra).
    replace (60 * h ^ 2 / 2 ^ S n) with (60 * (h / 2) ^ 2 / 2 ^ n + 60 * (h / 2) ^ 2 / 2 ^ n) by (simpl pow; field; lra). lra.
Qed.
Lemma refl_zero : forall x h, 0 <= h -> 0 < x - h -> x + h < 1 -> d2 refl x h = 0.
Proof.
  intros x h Hh H1 H2. destruct (Req_dec (d2 refl x h) 0) as [E|N]; [exact E|exfalso].
  assert (P := Rabs_pos_lt _ N). set (e := Rabs (d2 refl x h)) in *.
  destruct (big_nat (60 * h ^ 2 / e)) as [n Hn]. assert (I := refl_iter n x h Hh H1 H2). fold e in I.
  assert (L : INR n < 2 ^ n). { clear. induction n as [|n IH]; [simpl; lra|]. rewrite S_INR. simpl pow. assert (1 <= 2 ^ n) by (apply pow_R1_Rle; lra). lra. }
  assert (P2 : 0 < 2 ^ n) by (apply pow_lt; lra).
  apply (Rmult_le_compat_r (2 ^ n)) in I; [|lra]. unfold Rdiv in I. rewrite Rmult_assoc, Rinv_l, Rmult_1_r in I by lra.
  assert (60 * h ^ 2 / e < 2 ^ n) by lra. apply (Rmult_lt_compat_r e) in H; [|exact P]. unfold Rdiv in H. rewrite Rmult_assoc, Rinv_l in H by lra. lra.
Qed.
Lemma refl_sym : forall x, refl (1 - x) = refl x.
Proof. intros x. unfold refl. replace (1 - (1 - x)) with x by ring. replace (PI * (1 - x)) with (PI - PI * x) by ring. rewrite sin_PI_x. ring. Qed.
Lemma refl_half : forall x, 0 < x < 1 -> refl x = refl (/ 2).
Proof.
  assert (H : forall x, 0 < x <= / 2 -> refl x = refl (/ 2)).
  { intros x Hx. assert (Z := refl_zero (/ 2) (/ 2 - x) ltac:(lra) ltac:(lra) ltac:(lra)). unfold d2 in Z.
    replace (/ 2 + (/ 2 - x)) with (1 - x) in Z by lra. replace (/ 2 - (/ 2 - x)) with x in Z by ring. rewrite refl_sym in Z. lra. }
  intros x Hx. destruct (Rle_or_lt x (/ 2)) as [L|L]; [apply H; lra|]. rewrite <- refl_sym. apply H. lra.
Qed.
Lemma refl_near0 : forall x, 0 < x <= / 8 -> Rabs (refl x) <= 20 * x.
Proof.
  intros x Hx. unfold refl. assert (P := PI_RGT_0). assert (P4 := PI_le_4).
  replace (lg x) with (lg (x + 1) - ln x) by (rewrite lg_S by lra; ring).
  assert (G1 := Gam_growth 1 x ltac:(lra) ltac:(lra)). rewrite Gam_1, ln_1 in G1. replace (1 + x) with (x + 1) in G1 by ring. fold (lg (x + 1)) in G1.
  assert (L1 := ln_sub_bound 1 (x + 1) ltac:(lra) ltac:(lra)). rewrite ln_1 in L1.
  assert (G2 := Gam_growth (1 - x) x ltac:(lra) ltac:(lra)). replace (1 - x + x) with 1 in G2 by ring. rewrite Gam_1, ln_1 in G2. fold (lg (1 - x)) in G2.
  assert (L2 := ln_sub_bound (1 - x) 1 ltac:(lra) ltac:(lra)). rewrite ln_1 in L2.
  assert (B2 : (1 - (1 - x)) / (1 - x) <= 2 * x) by (apply (Rmult_le_reg_r (1 - x)); [lra|]; unfold Rdiv; rewrite Rmult_assoc, Rinv_l by lra; nra).
  set (t := PI * x) in *. assert (Ht : 0 < t <= / 2) by (unfold t; split; nra).
  assert (S1 := sin_cubic t ltac:(lra)). assert (S2 := sin_lt_x t ltac:(lra)).
  assert (T3 : t ^ 3 / 6 <= t * t / 12) by (simpl; nra).
  assert (L3 := ln_sub_bound (sin t) t ltac:(nra) ltac:(lra)).
  assert (B3 : (t - sin t) / sin t <= t).
  { apply (Rmult_le_reg_r (sin t)); [nra|]. unfold Rdiv. rewrite Rmult_assoc, Rinv_l by nra. nra. }
  assert (Lt : ln t = ln PI + ln x) by (unfold t; apply ln_mult; lra).
  assert (Tx : t <= 4 * x) by (unfold t; nra).
  assert (N1 : 0 <= - (x * ln (1 - x)) <= x * (2 * x)) by (split; [|]; nra).
  apply Rabs_le. unfold Rdiv in L1. rewrite Rinv_1 in L1. nra.
Qed.
Lemma refl_0 : forall x, 0 < x < 1 -> refl x = 0.
Proof.
  intros x Hx. rewrite refl_half by exact Hx. destruct (Req_dec (refl (/ 2)) 0) as [E|N]; [exact E|exfalso].
  assert (P := Rabs_pos_lt _ N). set (y := Rmin (/ 8) (Rabs (refl (/ 2)) / 40)).
  assert (Hy : 0 < y <= / 8) by (unfold y; split; [apply Rmin_glb_lt; lra|apply Rmin_l]).
  assert (Hy2 : y <= Rabs (refl (/ 2)) / 40) by apply Rmin_r.
  assert (B := refl_near0 y Hy). rewrite refl_half in B by lra. lra.
Qed.
Theorem Gam_reflect : forall x, 0 < x < 1 -> Gam x * Gam (1 - x) = PI / sin (PI * x).
Proof.
  intros x Hx. assert (R := refl_0 x Hx). unfold refl, lg in R. assert (P := PI_RGT_0). assert (S := sin_PI_pos x Hx).
  assert (G1 := Gam_pos x ltac:(lra)). assert (G2 := Gam_pos (1 - x) ltac:(lra)).
  apply ln_inv; [apply Rmult_lt_0_compat; assumption|apply Rdiv_lt_0_compat; assumption|].
  rewrite ln_mult, ln_div by assumption. lra.
Qed.
