(** The entries of the Jacobi matrix in double arithmetic. *)
From Coq Require Import Reals List Lia Lra Arith ZArith Psatz.
From Flocq Require Import Core IEEE754.Binary.
From Verif Require Import Arith F64 F64Spec F64Proof RInst RInstProof Machine Param Rules RoundSpec RoundProof GolubWelsch Jacobi GammaProof GaussExact AccF64 InexactF64 InexactF64Rules.
Import ListNotations.
Local Open Scope R_scope.

Definition rng (D : Z) (v : R) : Prop := bpow radix2 (- D) <= Rabs v <= bpow radix2 D.
Lemma rng_mul : forall D E v w, rng D v -> rng E w -> rng (D + E) (v * w).
Proof.
  intros D E v w [V1 V2] [W1 W2]. unfold rng. rewrite Rabs_mult. replace (- (D + E))%Z with (- D + - E)%Z by lia. rewrite !bpow_plus.
  assert (P1 := bpow_gt_0 radix2 (- D)). assert (P2 := bpow_gt_0 radix2 (- E)). split; apply Rmult_le_compat; lra.
Qed.
Lemma rng_inv : forall D v, rng D v -> v <> 0 /\ rng D (/ v).
Proof.
  intros D v [V1 V2]. assert (P1 := bpow_gt_0 radix2 (- D)). assert (N : v <> 0) by (intros ->; rewrite Rabs_R0 in V1; lra). split; [exact N|].
  unfold rng. rewrite Rabs_Rinv by exact N. split.
  - rewrite bpow_opp. apply Rinv_le_contravar; [lra|exact V2].
  - replace D with (- - D)%Z at 1 by lia. rewrite (bpow_opp radix2 (- D)). apply Rinv_le_contravar; [lra|exact V1].
Qed.
Lemma rng_div : forall D E v w, rng D v -> rng E w -> rng (D + E) (v / w).
Proof. intros. apply rng_mul; [assumption|]. apply rng_inv. assumption. Qed.
Lemma rng_sqrt : forall D v, (0 <= D)%Z -> 0 < v -> rng D v -> rng D (sqrt v).
Proof.
  intros D v HD Hv [V1 V2]. unfold rng. rewrite (Rabs_pos_eq v) in V1, V2 by lra. rewrite (Rabs_pos_eq (sqrt v)) by apply sqrt_pos.
  assert (B1 : 1 <= bpow radix2 D) by (change 1 with (bpow radix2 0); apply bpow_le; lia).
  assert (B2 : bpow radix2 (- D) <= 1) by (change 1 with (bpow radix2 0); apply bpow_le; lia). assert (P1 := bpow_gt_0 radix2 (- D)).
  split.
  - rewrite <- (sqrt_square (bpow radix2 (- D))) by lra. apply sqrt_le_1_alt. nra.
  - rewrite <- (sqrt_square (bpow radix2 D)) by lra. apply sqrt_le_1_alt. nra.
Qed.
Lemma rng_mid : forall D v, (D <= 400)%Z -> rng D v -> mid v.
Proof. intros D v HD [V1 V2]. split; [eapply Rle_trans; [|exact V1]; apply bpow_le; lia|eapply Rle_trans; [exact V2|]; apply bpow_le; lia]. Qed.
Lemma rng_of : forall v, 1 / 10 ^ 10 <= Rabs v <= 3 * 10 ^ 16 -> rng 55 v.
Proof.
  intros v [H1 H2]. assert (E : bpow radix2 55 = 36028797018963968) by reflexivity. split.
  - rewrite bpow_opp, E. lra.
  - rewrite E. lra.
Qed.

Section U.
Variable be : Backend.
Notation A := (F64 be).
Variable U : R.
Hypothesis HU : uro <= U <= 2 / 10 ^ 6.
Lemma U0 : 0 < U. Proof. assert (X := uro_num). lra. Qed.
Lemma UU : forall c, 0 <= c <= 2000 -> c * (U * U) <= / 250 * U.
Proof. intros c Hc. assert (X := U0). rewrite <- Rmult_assoc. apply Rmult_le_compat_r; [lra|]. apply Rle_trans with (2000 * (2 / 10 ^ 6)); [apply Rmult_le_compat; lra|lra]. Qed.
Lemma relm : forall (x y : A) v w a b, rel x v (a * U) -> rel y w (b * U) -> mid v -> mid w -> 0 <= a <= 30 -> 0 <= b <= 30 ->
  rel (nmul x y : A) (v * w) ((a + b + 101 / 100) * U).
Proof.
  intros x y v w a b X Y Mv Mw Ha Hb. assert (P := U0). assert (P2 := uro_num).
  assert (Q1 : 0 <= a * U <= 60 / 10 ^ 6) by (split; [apply Rmult_le_pos; lra|apply Rle_trans with (30 * (2 / 10 ^ 6)); [apply Rmult_le_compat; lra|lra]]).
  assert (Q2 : 0 <= b * U <= 60 / 10 ^ 6) by (split; [apply Rmult_le_pos; lra|apply Rle_trans with (30 * (2 / 10 ^ 6)); [apply Rmult_le_compat; lra|lra]]).
  eapply rel_weaken; [apply (rel_mul be x y v w _ _ X Y Mv Mw); lra|].
  assert (R1 : a * U * (b * U) <= 60 / 10 ^ 6 * (30 * U)) by (apply Rmult_le_compat; try lra; apply Rmult_le_compat_r; lra).
  assert (R2 : uro * ((1 + a * U) * (1 + b * U)) <= U * (1 + 1 / 1000)). { apply Rmult_le_compat; try lra; nra. }
  nra.
Qed.
Lemma reld : forall (x y : A) v w a b, rel x v (a * U) -> rel y w (b * U) -> mid v -> mid w -> 0 <= a <= 30 -> 0 <= b <= 30 ->
  rel (ndiv x y : A) (v / w) ((a + b + 101 / 100) * U).
Proof.
  intros x y v w a b X Y Mv Mw Ha Hb. assert (P := U0). assert (P2 := uro_num).
  assert (Q1 : 0 <= a * U <= 60 / 10 ^ 6) by (split; [apply Rmult_le_pos; lra|apply Rle_trans with (30 * (2 / 10 ^ 6)); [apply Rmult_le_compat; lra|lra]]).
  assert (Q2 : 0 <= b * U <= 60 / 10 ^ 6) by (split; [apply Rmult_le_pos; lra|apply Rle_trans with (30 * (2 / 10 ^ 6)); [apply Rmult_le_compat; lra|lra]]).
  eapply rel_weaken; [apply (rel_div be x y v w _ _ X Y Mv Mw); lra|].
  set (p := a * U) in *. set (q := b * U) in *.
  assert (I : (1 + p) / (1 - q) = 1 + p + q + (p + q) * q / (1 - q)) by (field; lra). rewrite I.
  assert (J : (p + q) * q / (1 - q) <= 2 * ((p + q) * q)).
  { unfold Rdiv. rewrite (Rmult_comm 2). apply Rmult_le_compat_l; [apply Rmult_le_pos; lra|]. replace 2 with (/ / 2) by field. apply Rinv_le_contravar; lra. }
  assert (J0 : 0 <= (p + q) * q / (1 - q)) by (apply Rmult_le_pos; [apply Rmult_le_pos; lra|left; apply Rinv_0_lt_compat; lra]).
  assert (K : (p + q) * q <= 120 / 10 ^ 6 * (30 * U)). { apply Rmult_le_compat; try lra. unfold q. apply Rmult_le_compat_r; lra. }
  set (z := (p + q) * q / (1 - q)) in *. clearbody z.
  assert (R2 : uro * (1 + p + q + z) <= U * (1 + 1 / 1000)) by (apply Rmult_le_compat; lra).
  assert (p + q = (a + b) * U) by (unfold p, q; ring). lra.
Qed.
Lemma rels : forall (x : A) v a, rel x v (a * U) -> 0 < v -> mid v -> 0 <= a <= 30 -> rel (nsqrt x : A) (sqrt v) ((51 / 100 * a + 101 / 100) * U).
Proof.
  intros x v a [Fx Hx] Hv Mv Ha. assert (P := U0). assert (P2 := uro_num). rewrite (Rabs_pos_eq v) in Hx by lra.
  assert (Q1 : 0 <= a * U <= 60 / 10 ^ 6) by (split; [apply Rmult_le_pos; lra|apply Rle_trans with (30 * (2 / 10 ^ 6)); [apply Rmult_le_compat; lra|lra]]).
  set (p := a * U) in *.
  assert (Hlo : (1 - p) * v <= fval x). { assert (X := Rle_abs (- (fval x - v))). rewrite Rabs_Ropp in X. lra. }
  assert (Hx0 : 99 / 100 * v <= fval x) by (eapply Rle_trans; [|exact Hlo]; apply Rmult_le_compat_r; lra).
  destruct (sqrt_val (be := be) x Fx ltac:(lra)) as [F E]. split; [exact F|]. rewrite E.
  assert (Sv := sqrt_lt_R0 v Hv). assert (S1 : 98 / 100 * sqrt v <= sqrt (fval x)).
  { rewrite <- (sqrt_square (98 / 100)) by lra. rewrite <- sqrt_mult_alt by lra. apply sqrt_le_1_alt. lra. }
  assert (D : Rabs (sqrt (fval x) - sqrt v) <= 5051 / 10000 * p * sqrt v).
  { apply Rmult_le_reg_r with (198 / 100 * sqrt v); [lra|]. apply Rle_trans with (Rabs (sqrt (fval x) - sqrt v) * (sqrt (fval x) + sqrt v)).
    - apply Rmult_le_compat_l; [apply Rabs_pos|lra].
    - assert (G : Rabs (sqrt (fval x) - sqrt v) * (sqrt (fval x) + sqrt v) = Rabs (fval x - v)).
      { rewrite <- (Rabs_pos_eq (sqrt (fval x) + sqrt v)) by lra. rewrite <- Rabs_mult. f_equal.
        replace ((sqrt (fval x) - sqrt v) * (sqrt (fval x) + sqrt v)) with (sqrt (fval x) * sqrt (fval x) - sqrt v * sqrt v) by ring. rewrite !sqrt_sqrt by lra. reflexivity. }
      rewrite G. eapply Rle_trans; [exact Hx|]. replace (5051 / 10000 * p * sqrt v * (198 / 100 * sqrt v)) with (5051 / 10000 * (198 / 100) * p * (sqrt v * sqrt v)) by ring.
      rewrite sqrt_sqrt by lra. assert (0 <= p * v) by (apply Rmult_le_pos; lra). lra. }
  rewrite (Rabs_pos_eq (sqrt v)) by lra.
  assert (M' : mid (sqrt v)). { apply (rng_mid 400); [lia|]. apply rng_sqrt; [lia|exact Hv|exact Mv]. }
  destruct (round_perturbed (sqrt (fval x)) (sqrt v) (5051 / 10000 * p)) as [_ R].
  { destruct M'. split; [eapply Rle_trans; [|eassumption]; apply bpow_le; lia|eapply Rle_trans; [eassumption|apply bpow_le; lia]]. }
  { lra. } { rewrite (Rabs_pos_eq (sqrt v)) by lra. exact D. }
  rewrite (Rabs_pos_eq (sqrt v)) in R by lra. eapply Rle_trans; [exact R|]. apply Rmult_le_compat_r; [lra|].
  assert (uro * (1 + 5051 / 10000 * p) <= U * (1 + 1 / 1000)) by (apply Rmult_le_compat; lra). unfold p in *. lra.
Qed.
(** a sum that may cancel, with the error of the first summand relative to the result *)
Lemma rela : forall (x y : A) v y' e c, ffin x -> rel y y' 0 -> Rabs (fval x - v) <= e -> e <= c * U * Rabs (v + y') -> mid (v + y') -> 0 <= c <= 30 ->
  rel (nadd x y : A) (v + y') ((c + 101 / 100) * U).
Proof.
  intros x y v y' e c Fx [Fy Hy] He Hc M Hc'. assert (P := U0). assert (P2 := uro_num).
  assert (Q1 : 0 <= c * U <= 60 / 10 ^ 6) by (split; [apply Rmult_le_pos; lra|apply Rle_trans with (30 * (2 / 10 ^ 6)); [apply Rmult_le_compat; lra|lra]]).
  assert (Ey : fval y = y'). { apply Rminus_diag_uniq. rewrite Rmult_0_l in Hy. assert (X := Rabs_pos (fval y - y')). destruct (Req_dec (fval y - y') 0) as [E|E]; [exact E|]. assert (Y := Rabs_pos_lt _ E). lra. }
  destruct (round_perturbed (fval x + fval y) (v + y') (c * U)) as [O E].
  { destruct M. split; [eapply Rle_trans; [|eassumption]; apply bpow_le; lia|eapply Rle_trans; [eassumption|apply bpow_le; lia]]. }
  { lra. } { rewrite Ey. replace (fval x + y' - (v + y')) with (fval x - v) by ring. lra. }
  destruct (add_finite be x y Fx Fy O) as [F1 E1]. split; [exact F1|]. rewrite E1. eapply Rle_trans; [exact E|]. apply Rmult_le_compat_r; [apply Rabs_pos|].
  assert (uro * (1 + c * U) <= U * (1 + 1 / 1000)) by (apply Rmult_le_compat; lra). lra.
Qed.
End U.

Section Entries.
Variable be : Backend.
Notation A := (F64 be).
Variable dl : R.
Hypothesis Hd : 1 / 10 ^ 10 <= dl <= 1.
Let U := uro / dl.
Lemma jU : uro <= U <= 2 / 10 ^ 6.
Proof.
  assert (X := uro_num). unfold U, Rdiv. split.
  - rewrite <- (Rmult_1_r uro) at 1. apply Rmult_le_compat_l; [lra|]. rewrite <- Rinv_1. apply Rinv_le_contravar; lra.
  - apply Rle_trans with (1111 / 10 ^ 19 * / (1 / 10 ^ 10)); [|lra]. apply Rmult_le_compat; try lra; [left; apply Rinv_0_lt_compat; lra|]. apply Rinv_le_contravar; lra.
Qed.
Lemma jdU : uro = dl * U. Proof. unfold U. field. lra. Qed.
Definition par (x : R) : Prop := dl <= 1 + x /\ x <= 10 ^ 15.

Lemma sum3 : forall (mf x y : A) m, rel mf m 0 -> ffin x -> ffin y -> par (fval x) -> par (fval y) -> 1 <= m <= IZR (2 ^ 53) -> dl <= Rabs (m + fval x + fval y) ->
  rel (nadd (nadd mf x) y : A) (m + fval x + fval y) (302 / 100 * U) /\
  Rabs (fval (nadd (nadd mf x) y : A) - (m + fval x + fval y)) <= uro * (1001 / 1000 * (m + fval x) + Rabs (m + fval x + fval y)).
Proof.
  intros mf x y m [Fm Hm] Fx Fy [X1 X2] [Y1 Y2] Hm2 Hs. assert (P2 := uro_num). assert (JU := jU). assert (JD := jdU).
  assert (Em : fval mf = m). { apply Rminus_diag_uniq. rewrite Rmult_0_l in Hm. destruct (Req_dec (fval mf - m) 0) as [E|E]; [exact E|]. assert (Y := Rabs_pos_lt _ E). lra. }
  assert (P53 : IZR (2 ^ 53) = 9007199254740992) by reflexivity. rewrite P53 in Hm2.
  set (t := m + fval x + fval y) in *. assert (Tt : m + fval x <= Rabs t + 1) by (assert (Z := Rle_abs t); unfold t in *; lra).
  assert (Tb : Rabs t <= 3 * 10 ^ 16) by (apply Rabs_le; unfold t; lra).
  assert (Mm : 0 <= m + fval x <= 3 * 10 ^ 16) by lra.
  destruct (add_finite be mf x Fm Fx) as [F1 E1].
  { rewrite Em. apply no_overflow_small. rewrite Rabs_pos_eq by lra. eapply Rle_trans; [apply Mm|]. apply Rle_trans with (bpow radix2 55); [simpl; lra|apply bpow_le; lia]. }
  assert (R1 := rnd_add_err (fval mf) (fval x) (ffin_format _) (ffin_format _)). rewrite <- E1, Em, (Rabs_pos_eq (m + fval x)) in R1 by lra.
  assert (M : mid t) by (apply (rng_mid 55); [lia|]; apply rng_of; lra).
  assert (C : uro * (m + fval x) <= 2 * U * Rabs t).
  { rewrite JD. apply Rle_trans with (U * (dl * (Rabs t + 1))); [|].
    - replace (dl * U * (m + fval x)) with (U * (dl * (m + fval x))) by ring. apply Rmult_le_compat_l; [lra|]. apply Rmult_le_compat_l; lra.
    - replace (2 * U * Rabs t) with (U * (2 * Rabs t)) by ring. apply Rmult_le_compat_l; [lra|]. assert (dl * Rabs t <= 1 * Rabs t) by (apply Rmult_le_compat_r; lra). lra. }
  split.
  - eapply rel_weaken; [exact (rela be U JU (nadd mf x) y (m + fval x) (fval y) _ 2 F1 (rel_exact y Fy) R1 C M ltac:(lra))|lra].
  - destruct (add_finite be (nadd mf x) y F1 Fy) as [F2 E2].
    { apply no_overflow_small. apply Rle_trans with (10 ^ 18); [|apply Rle_trans with (bpow radix2 60); [simpl; lra|apply bpow_le; lia]].
      replace (fval (nadd mf x : A) + fval y) with ((fval (nadd mf x : A) - (m + fval x)) + t) by (unfold t; ring). eapply Rle_trans; [apply Rabs_triang|].
      assert (uro * (m + fval x) <= 1 * (m + fval x)) by (apply Rmult_le_compat_r; lra). lra. }
    assert (R2 := rnd_add_err (fval (nadd mf x : A)) (fval y) (ffin_format _) (ffin_format _)). rewrite <- E2 in R2.
    set (z := fval (nadd (nadd mf x) y : A)) in *. set (q := fval (nadd mf x : A)) in *.
    replace (z - t) with ((z - (q + fval y)) + (q - (m + fval x))) by (unfold t; ring). eapply Rle_trans; [apply Rabs_triang|].
    assert (S : Rabs (q + fval y) <= Rabs t + uro * (m + fval x)).
    { replace (q + fval y) with ((q - (m + fval x)) + t) by (unfold t; ring). eapply Rle_trans; [apply Rabs_triang|]. lra. }
    assert (uro * Rabs (q + fval y) <= uro * (Rabs t + uro * (m + fval x))) by (apply Rmult_le_compat_l; lra).
    assert (uro * (uro * (m + fval x)) <= uro * (1 / 1000 * (m + fval x))) by (apply Rmult_le_compat_l; [lra|]; apply Rmult_le_compat_r; lra). lra.
Qed.
Lemma int_rel : forall z, (1 <= z <= 2 ^ 53)%Z -> rel (f64_of_Z z) (IZR z) 0 /\ 1 <= IZR z <= IZR (2 ^ 53).
Proof. intros z Hz. split; [apply rel_ofZ; lia|split; apply IZR_le; lia]. Qed.

Variables al bt : A.
Hypothesis Fa : ffin al.
Hypothesis Fb : ffin bt.
Notation a := (fval al).
Notation b := (fval bt).
Hypothesis Ha : par a.
Hypothesis Hb : par b.
Hypothesis Hab : dl <= Rabs (1 + a + b).

Lemma shift_ok : forall m, 1 <= m -> m = 1 \/ 2 <= m -> dl <= Rabs (m + a + b).
Proof.
  intros m H1 [->|H2]; [exact Hab|]. destruct Ha as [A1 _], Hb as [B1 _]. rewrite Rabs_pos_eq by lra. lra.
Qed.
Lemma idx_val : forall i, (Z.of_nat i + 1 <= 2 ^ 52)%Z -> rel (nadd (nofZ (Z.of_nat i)) lit1 : A) (INR (S i)) 0.
Proof.
  intros i Hi. destruct (ofZ_exact (Z.of_nat i) ltac:(lia)) as [F1 E1]. destruct (lit_int_exact 1 ltac:(vm_compute; discriminate)) as [F2 E2].
  change (@nofZ A) with f64_of_Z. change (@lit1 A) with (f64_lit 1 0).
  destruct (add_finite be _ _ F1 F2) as [F3 E3]; [rewrite E1, E2, <- plus_IZR; apply no_overflow_small, abs_IZR_bound; lia|].
  rewrite E1, E2, <- plus_IZR, rnd_IZR in E3 by lia. assert (Q : INR (S i) = IZR (Z.of_nat i + 1)) by (rewrite INR_IZR_INZ; f_equal; lia). rewrite Q, <- E3. apply rel_exact. exact F3.
Qed.
Lemma dbl_val : forall (x : A) z, rel x (IZR z) 0 -> (0 <= 2 * z <= 2 ^ 53)%Z -> rel (nmul lit2 x : A) (IZR (2 * z)) 0.
Proof.
  intros x z [F1 E1] Hz. destruct (lit_int_exact 2 ltac:(vm_compute; discriminate)) as [F2 E2]. change (@lit2 A) with (f64_lit 2 0).
  assert (Ex : fval x = IZR z). { apply Rminus_diag_uniq. rewrite Rmult_0_l in E1. destruct (Req_dec (fval x - IZR z) 0) as [E|E]; [exact E|]. assert (Y := Rabs_pos_lt _ E). lra. }
  destruct (mul_finite be _ _ F2 F1) as [F3 E3]; [rewrite Ex, E2, <- mult_IZR; apply no_overflow_small, abs_IZR_bound; lia|].
  rewrite Ex, E2, <- mult_IZR, rnd_IZR in E3 by lia. rewrite <- E3. apply rel_exact. exact F3.
Qed.
Lemma real_off : forall x y i, @jacobi_off_diag RA x y i = 2 / (2 * INR (S i) + x + y) *
     sqrt (INR (S i) * (INR (S i) + x) * (INR (S i) + y) * (INR (S i) + x + y) / ((2 * INR (S i) + x + y + 1) * (2 * INR (S i) + x + y - 1))).
Proof. intros. unfold jacobi_off_diag. ra_simpl. ra_lits. rewrite IZR_INR, S_INR. reflexivity. Qed.
Lemma off_arg_pos : forall x y k, -1 < x -> -1 < y -> 1 + x + y <> 0 -> k = 1 \/ 2 <= k -> 0 < k * (k + x) * (k + y) * (k + x + y) / ((2 * k + x + y + 1) * (2 * k + x + y - 1)).
Proof.
  intros x y k Hx Hy Hs [->|Hk].
  - replace (1 * (1 + x) * (1 + y) * (1 + x + y) / ((2 * 1 + x + y + 1) * (2 * 1 + x + y - 1))) with ((1 + x) * (1 + y) / (3 + x + y)) by (field; lra).
    apply Rdiv_lt_0_compat; [apply Rmult_lt_0_compat; lra|lra].
  - apply Rdiv_lt_0_compat; repeat apply Rmult_lt_0_compat; lra.
Qed.
Lemma add1 : forall (x : A) m, rel x m 0 -> 1 <= m <= IZR (2 ^ 53) -> forall y : A, ffin y -> par (fval y) -> rel (nadd x y : A) (m + fval y) (1 * U) /\ rng 55 (m + fval y).
Proof.
  intros x m [Fx Hx] Hm y Fy [Y1 Y2]. assert (JU := jU). assert (P53 : IZR (2 ^ 53) = 9007199254740992) by reflexivity. rewrite P53 in Hm.
  assert (Ex : fval x = m). { apply Rminus_diag_uniq. rewrite Rmult_0_l in Hx. destruct (Req_dec (fval x - m) 0) as [E|E]; [exact E|]. assert (Y := Rabs_pos_lt _ E). lra. }
  assert (Rg : rng 55 (m + fval y)) by (apply rng_of; rewrite Rabs_pos_eq by lra; lra). split; [|exact Rg].
  destruct (add_finite be x y Fx Fy) as [F1 E1].
  { rewrite Ex. apply no_overflow_small. eapply Rle_trans; [apply Rg|]. apply bpow_le. lia. }
  split; [exact F1|]. rewrite E1. assert (R1 := rnd_add_err (fval x) (fval y) (ffin_format _) (ffin_format _)). rewrite Ex in *. eapply Rle_trans; [exact R1|].
  apply Rmult_le_compat_r; [apply Rabs_pos|lra].
Qed.
Lemma off_rel : forall i, (Z.of_nat i + 1 <= 2 ^ 52)%Z -> rel (@jacobi_off_diag A al bt i) (@jacobi_off_diag RA a b i) (18 * U).
Proof.
  intros i Hi. assert (JU := jU). assert (P0 := U0 U JU). assert (P2 := uro_num). rewrite real_off. unfold jacobi_off_diag.
  assert (K := idx_val i Hi). set (kf := nadd (nofZ (Z.of_nat i)) lit1 : A) in *. clearbody kf.
  assert (Ek : INR (S i) = IZR (Z.of_nat (S i))) by apply INR_IZR_INZ.
  assert (Kb : 1 <= INR (S i) <= IZR (2 ^ 52)) by (rewrite Ek; split; apply IZR_le; lia).
  assert (D0 := dbl_val kf (Z.of_nat (S i)) ltac:(rewrite <- Ek; exact K) ltac:(lia)). rewrite mult_IZR, <- Ek in D0.
  assert (Kc : INR (S i) = 1 \/ 2 <= INR (S i)). { destruct i; [left; reflexivity|right]. rewrite Ek. apply IZR_le. lia. }
  set (k := INR (S i)) in *. clearbody k. clear Ek.
  assert (P52 : IZR (2 ^ 52) = 4503599627370496) by reflexivity. assert (P53 : IZR (2 ^ 53) = 9007199254740992) by reflexivity. rewrite P52 in Kb.
  destruct Ha as [A1 A2] eqn:Ea, Hb as [B1 B2] eqn:Eb. clear Ea Eb.
  assert (Hk : 1 <= k <= IZR (2 ^ 53)) by (rewrite P53; lra).
  destruct (add1 kf k K Hk al Fa Ha) as [Ta Ra]. destruct (add1 kf k K Hk bt Fb Hb) as [Tb Rb].
  assert (Sh : dl <= Rabs (k + a + b)) by (apply shift_ok; [lra|exact Kc]).
  destruct (sum3 kf al bt k K Fa Fb Ha Hb Hk Sh) as [Ts _].
  assert (Rs : rng 55 (k + a + b)) by (apply rng_of; split; [lra|]; apply Rabs_le; lra).
  assert (Rk : rng 55 k) by (apply rng_of; rewrite Rabs_pos_eq by lra; lra).
  destruct (sum3 (nmul lit2 kf) al bt (2 * k) D0 Fa Fb Ha Hb ltac:(rewrite P53; lra) ltac:(apply shift_ok; lra)) as [TD TD'].
  set (D := nadd (nadd (nmul lit2 kf) al) bt : A) in *. 
  set (t := 2 * k + a + b) in *. assert (t0 : 2 * dl <= t <= 3 * 10 ^ 16) by (unfold t; lra).
  assert (RD : rng 55 t) by (apply rng_of; rewrite Rabs_pos_eq by lra; lra).
  assert (D1 : rel (nadd D lit1 : A) (t + 1) (404 / 100 * U)).
  { eapply rel_weaken; [apply (rel_add be D lit1 t 1 (302 / 100 * U) TD)|].
    - eapply rel_weaken; [exact (rel_int 1 ltac:(vm_compute; discriminate))|lra].
    - lra.
    - lra.
    - apply (rng_mid 55); [lia|]. apply rng_of. rewrite Rabs_pos_eq by lra. unfold t. lra.
    - lra.
    - assert (uro * (1 + 302 / 100 * U) <= U * (1 + 1 / 1000)) by (apply Rmult_le_compat; lra). lra. }
  assert (R1 : rng 55 (t + 1)) by (apply rng_of; rewrite Rabs_pos_eq by lra; unfold t; lra).
  assert (Sw : dl <= Rabs (t - 1)). { replace (t - 1) with ((2 * k - 1) + a + b) by (unfold t; ring). apply shift_ok; [lra|]. destruct Kc; [left|right]; lra. }
  assert (Rw : rng 55 (t - 1)) by (apply rng_of; split; [lra|]; apply Rabs_le; unfold t; lra).
  assert (D2 : rel (nsub D lit1 : A) (t - 1) (603 / 100 * U)).
  { destruct (lit_int_exact 1 ltac:(vm_compute; discriminate)) as [F2 E2]. change (f64_lit 1 0) with (@lit1 A) in F2, E2. assert (E2' : fval (@lit1 A) = 1) by exact E2. clear E2.
    destruct TD as [FD _].
    assert (C : uro * (1001 / 1000 * (2 * k + a) + Rabs t) <= 501 / 100 * U * Rabs (t - 1)).
    { rewrite jdU. replace (dl * U * (1001 / 1000 * (2 * k + a) + Rabs t)) with (U * (dl * (1001 / 1000 * (2 * k + a) + Rabs t))) by ring.
      replace (501 / 100 * U * Rabs (t - 1)) with (U * (501 / 100 * Rabs (t - 1))) by ring. apply Rmult_le_compat_l; [lra|].
      assert (Z := Rle_abs (t - 1)). rewrite (Rabs_pos_eq t) by lra.
      assert (Q1 : 2 * k + a <= Rabs (t - 1) + 2) by (unfold t in *; lra). assert (Q2 : t <= Rabs (t - 1) + 1) by lra.
      apply Rle_trans with (dl * (2001 / 1000 * Rabs (t - 1) + 3002 / 1000)); [apply Rmult_le_compat_l; lra|].
      assert (dl * Rabs (t - 1) <= 1 * Rabs (t - 1)) by (apply Rmult_le_compat_r; [apply Rabs_pos|lra]). lra. }
    destruct (round_perturbed (fval D - fval (@lit1 A)) (t - 1) (501 / 100 * U)) as [O E].
    { destruct Rw. split; [eapply Rle_trans; [|eassumption]; apply bpow_le; lia|eapply Rle_trans; [eassumption|apply bpow_le; lia]]. }
    { lra. } { rewrite E2'. replace (fval D - 1 - (t - 1)) with (fval D - t) by ring. eapply Rle_trans; [exact TD'|exact C]. }
    destruct (sub_finite be D lit1 FD F2 O) as [F3 E3]. split; [exact F3|]. rewrite E3. eapply Rle_trans; [exact E|]. apply Rmult_le_compat_r; [apply Rabs_pos|].
    assert (uro * (1 + 501 / 100 * U) <= U * (1 + 1 / 1000)) by (apply Rmult_le_compat; lra). lra. }
  assert (K' : rel kf k (0 * U)) by (rewrite Rmult_0_l; exact K).
  assert (M1 := relm be U JU _ _ _ _ 0 1 K' Ta (rng_mid 55 _ ltac:(lia) Rk) (rng_mid 55 _ ltac:(lia) Ra) ltac:(lra) ltac:(lra)).
  assert (G1 := rng_mul _ _ _ _ Rk Ra). change (55 + 55)%Z with 110%Z in G1.
  assert (M2 := relm be U JU _ _ _ _ _ 1 M1 Tb (rng_mid 110 _ ltac:(lia) G1) (rng_mid 55 _ ltac:(lia) Rb) ltac:(lra) ltac:(lra)).
  assert (G2 := rng_mul _ _ _ _ G1 Rb). change (110 + 55)%Z with 165%Z in G2.
  assert (M3 := relm be U JU _ _ _ _ _ _ M2 Ts (rng_mid 165 _ ltac:(lia) G2) (rng_mid 55 _ ltac:(lia) Rs) ltac:(lra) ltac:(lra)).
  assert (G3 := rng_mul _ _ _ _ G2 Rs). change (165 + 55)%Z with 220%Z in G3.
  assert (M4 := relm be U JU _ _ _ _ _ _ D1 D2 (rng_mid 55 _ ltac:(lia) R1) (rng_mid 55 _ ltac:(lia) Rw) ltac:(lra) ltac:(lra)).
  assert (G4 := rng_mul _ _ _ _ R1 Rw). change (55 + 55)%Z with 110%Z in G4.
  assert (M5 := reld be U JU _ _ _ _ _ _ M3 M4 (rng_mid 220 _ ltac:(lia) G3) (rng_mid 110 _ ltac:(lia) G4) ltac:(lra) ltac:(lra)).
  assert (G5 := rng_div _ _ _ _ G3 G4). change (220 + 110)%Z with 330%Z in G5.
  assert (Nz : 1 + a + b <> 0) by (intros E; rewrite E, Rabs_R0 in Hab; lra).
  assert (Pp := off_arg_pos a b k ltac:(lra) ltac:(lra) Nz Kc). fold t in Pp.
  assert (M6 := rels be U JU _ _ _ M5 Pp (rng_mid 330 _ ltac:(lia) G5) ltac:(lra)).
  assert (G6 := rng_sqrt 330 _ ltac:(lia) Pp G5).
  assert (L2 : rel (@lit2 A) 2 (0 * U)) by (rewrite Rmult_0_l; exact (rel_int 2 ltac:(vm_compute; discriminate))).
  assert (R2 : rng 55 2) by (apply rng_of; rewrite Rabs_pos_eq by lra; lra).
  assert (M7 := reld be U JU _ _ _ _ 0 _ L2 TD (rng_mid 55 _ ltac:(lia) R2) (rng_mid 55 _ ltac:(lia) RD) ltac:(lra) ltac:(lra)).
  assert (G7 := rng_div _ _ _ _ R2 RD). change (55 + 55)%Z with 110%Z in G7.
  assert (M8 := relm be U JU _ _ _ _ _ _ M7 M6 (rng_mid 110 _ ltac:(lia) G7) (rng_mid 330 _ ltac:(lia) G6) ltac:(lra) ltac:(lra)).
  eapply rel_weaken; [exact M8|]. apply Rmult_le_compat_r; lra.
Qed.

(** a quotient of at most 1 with an absolute error of the numerator *)
Lemma quot : forall (x y : A) N Q e q, ffin x -> ffin y -> Rabs (fval x - N) <= e * Q -> Rabs N <= Q -> 0 < Q -> Rabs (fval y - Q) <= q * Q ->
  0 <= e <= 1 / 10 ^ 4 -> 0 <= q <= 1 / 10 ^ 4 -> ffin (ndiv x y : A) /\ Rabs (fval (ndiv x y : A) - N / Q) <= 1001 / 1000 * (e + q) + 1001 / 1000 * uro + eta.
Proof.
  intros x y N Q e q Fx Fy Hx HN HQ Hy He Hq. assert (P2 := uro_num).
  assert (Ylo : (1 - q) * Q <= fval y) by (assert (X := Rle_abs (- (fval y - Q))); rewrite Rabs_Ropp in X; lra).
  assert (Yp : 0 < fval y). { eapply Rlt_le_trans; [|exact Ylo]. apply Rmult_lt_0_compat; lra. }
  assert (D : Rabs (fval x / fval y - N / Q) <= 10002 / 10000 * (e + q)).
  { replace (fval x / fval y - N / Q) with (((fval x - N) * Q + N * (Q - fval y)) * / (fval y * Q)) by (field; lra).
    rewrite Rabs_mult, Rabs_Rinv by (apply Rmult_integral_contrapositive_currified; lra). rewrite (Rabs_pos_eq (fval y * Q)) by (apply Rmult_le_pos; lra).
    apply Rmult_le_reg_r with (fval y * Q); [apply Rmult_lt_0_compat; lra|]. rewrite Rmult_assoc, Rinv_l by (apply Rgt_not_eq, Rmult_lt_0_compat; lra). rewrite Rmult_1_r.
    apply Rle_trans with ((e + q) * (Q * Q)).
    - eapply Rle_trans; [apply Rabs_triang|]. rewrite !Rabs_mult, (Rabs_pos_eq Q) by lra. rewrite <- (Rabs_Ropp (Q - fval y)). replace (- (Q - fval y)) with (fval y - Q) by ring.
      assert (Rabs (fval x - N) * Q <= e * Q * Q) by (apply Rmult_le_compat_r; lra).
      assert (Rabs N * Rabs (fval y - Q) <= Q * (q * Q)) by (apply Rmult_le_compat; try apply Rabs_pos; lra). lra.
    - apply Rle_trans with (10002 / 10000 * (e + q) * ((1 - q) * Q * Q)).
      + replace (10002 / 10000 * (e + q) * ((1 - q) * Q * Q)) with ((e + q) * (10002 / 10000 * (1 - q) * (Q * Q))) by ring. apply Rmult_le_compat_l; [lra|].
        assert (0 < Q * Q) by (apply Rmult_lt_0_compat; lra). assert (1 * (Q * Q) <= 10002 / 10000 * (1 - q) * (Q * Q)) by (apply Rmult_le_compat_r; lra). lra.
      + apply Rmult_le_compat_l; [lra|]. apply Rmult_le_compat_r; lra. }
  assert (B1 : Rabs (N / Q) <= 1). { unfold Rdiv. rewrite Rabs_mult, (Rabs_pos_eq (/ Q)) by (left; apply Rinv_0_lt_compat; lra). apply Rmult_le_reg_r with Q; [lra|]. rewrite Rmult_assoc, Rinv_l by lra. lra. }
  assert (B2 : Rabs (fval x / fval y) <= 1 + 1 / 1000). { replace (fval x / fval y) with ((fval x / fval y - N / Q) + N / Q) by ring. eapply Rle_trans; [apply Rabs_triang|]. lra. }
  destruct (div_finite be x y Fx ltac:(lra)) as [F E].
  { apply no_overflow_small. eapply Rle_trans; [exact B2|]. apply Rle_trans with (bpow radix2 1); [simpl; lra|apply bpow_le; lia]. }
  split; [exact F|]. rewrite E. assert (R := rnd_err (fval x / fval y)).
  replace (rnd (fval x / fval y) - N / Q) with ((rnd (fval x / fval y) - fval x / fval y) + (fval x / fval y - N / Q)) by ring. eapply Rle_trans; [apply Rabs_triang|].
  assert (uro * Rabs (fval x / fval y) <= uro * (1 + 1 / 1000)) by (apply Rmult_le_compat_l; lra). lra.
Qed.
Lemma real_diag0 : forall x y, @jacobi_diag RA x y 0 = (y - x) / (2 + y + x).
Proof. intros. unfold jacobi_diag. ra_simpl. ra_lits. reflexivity. Qed.
Lemma real_diagS : forall x y i, @jacobi_diag RA x y (S i) = (y * y - x * x) / ((2 * INR (S i) + x + y) * ((2 * INR (S i) + x + y) + 2)).
Proof. intros. unfold jacobi_diag. ra_simpl. ra_lits. rewrite INR_IZR_INZ. reflexivity. Qed.
Lemma eta_U : eta <= 1 / 1000 * U.
Proof. assert (X := eta_val). assert (Y := jU). assert (Z := uro_eq). apply Rle_trans with (1 / 10 ^ 300); [exact X|].
  apply Rle_trans with (1 / 10 ^ 30); [|lra]. unfold Rdiv. rewrite !Rmult_1_l. apply Rinv_le_contravar; [apply pow_lt; lra|]. apply Rle_pow; [lra|lia]. Qed.
Lemma diag0_close : ffin (@jacobi_diag A al bt 0) /\ Rabs (fval (@jacobi_diag A al bt 0) - @jacobi_diag RA a b 0) <= 18 * U.
Proof.
  assert (JU := jU). assert (P0 := U0 U JU). assert (P2 := uro_num). rewrite real_diag0. unfold jacobi_diag.
  destruct Ha as [A1 A2] eqn:Ea, Hb as [B1 B2] eqn:Eb. clear Ea Eb.
  destruct (sum3 lit2 bt al 2 (rel_int 2 ltac:(vm_compute; discriminate)) Fb Fa Hb Ha) as [[TF TD] _].
  { split; [lra|]. apply IZR_le. lia. } { rewrite Rabs_pos_eq by lra. lra. }
  assert (Qp : 0 < 2 + b + a) by lra. rewrite (Rabs_pos_eq (2 + b + a)) in TD by lra.
  destruct (sub_finite be bt al Fb Fa) as [F E].
  { apply no_overflow_small. apply Rle_trans with (bpow radix2 55); [|apply bpow_le; lia]. apply Rabs_le. simpl. lra. }
  assert (R := rnd_add_err b (- a) (ffin_format _) (generic_format_opp _ _ _ (ffin_format _))). change (b + - a) with (b - a) in R. rewrite <- E in R.
  assert (BN : Rabs (b - a) <= 2 + b + a) by (apply Rabs_le; lra).
  destruct (quot _ _ (b - a) (2 + b + a) uro (302 / 100 * U) F TF) as [G1 G2]; try lra.
  { eapply Rle_trans; [exact R|]. apply Rmult_le_compat_l; lra. }
  split; [exact G1|]. eapply Rle_trans; [exact G2|]. assert (X := eta_U). lra.
Qed.
Lemma diagS_close : forall i, (Z.of_nat (S i) <= 2 ^ 52)%Z -> ffin (@jacobi_diag A al bt (S i)) /\ Rabs (fval (@jacobi_diag A al bt (S i)) - @jacobi_diag RA a b (S i)) <= 18 * U.
Proof.
  intros i Hi. assert (JU := jU). assert (P0 := U0 U JU). assert (P2 := uro_num). rewrite real_diagS. cbn [jacobi_diag]. cbv zeta.
  destruct Ha as [A1 A2] eqn:Ea, Hb as [B1 B2] eqn:Eb. clear Ea Eb.
  assert (Ek : INR (S i) = IZR (Z.of_nat (S i))) by apply INR_IZR_INZ.
  assert (Kb : 1 <= INR (S i) <= IZR (2 ^ 52)) by (rewrite Ek; split; apply IZR_le; lia).
  assert (D0 := dbl_val (nofZ (Z.of_nat (S i))) (Z.of_nat (S i)) (rel_ofZ (Z.of_nat (S i)) ltac:(lia)) ltac:(lia)). rewrite mult_IZR, <- Ek in D0.
  set (k := INR (S i)) in *. clearbody k. clear Ek.
  assert (P52 : IZR (2 ^ 52) = 4503599627370496) by reflexivity. assert (P53 : IZR (2 ^ 53) = 9007199254740992) by reflexivity. rewrite P52 in Kb.
  destruct (sum3 _ al bt (2 * k) D0 Fa Fb Ha Hb ltac:(rewrite P53; lra) ltac:(apply shift_ok; lra)) as [TD _].
  set (D := nadd (nadd (nmul lit2 (nofZ (Z.of_nat (S i)))) al) bt : A) in *. clearbody D.
  set (t := 2 * k + a + b) in *. assert (t0 : 2 + a + b <= t <= 3 * 10 ^ 16) by (unfold t; lra).
  assert (RD : rng 55 t) by (apply rng_of; rewrite Rabs_pos_eq by lra; lra).
  assert (R2 : rng 55 (t + 2)) by (apply rng_of; rewrite Rabs_pos_eq by lra; unfold t; lra).
  assert (D1 : rel (nadd D lit2 : A) (t + 2) (404 / 100 * U)).
  { eapply rel_weaken; [apply (rel_add be D lit2 t 2 (302 / 100 * U) TD)|].
    - eapply rel_weaken; [exact (rel_int 2 ltac:(vm_compute; discriminate))|lra].
    - lra.
    - lra.
    - apply (rng_mid 55); [lia|exact R2].
    - lra.
    - assert (uro * (1 + 302 / 100 * U) <= U * (1 + 1 / 1000)) by (apply Rmult_le_compat; lra). lra. }
  destruct (relm be U JU _ _ _ _ _ _ TD D1 (rng_mid 55 _ ltac:(lia) RD) (rng_mid 55 _ ltac:(lia) R2) ltac:(lra) ltac:(lra)) as [FQ HQ].
  assert (Qp : 0 < t * (t + 2)) by (apply Rmult_lt_0_compat; lra). rewrite (Rabs_pos_eq (t * (t + 2))) in HQ by lra.
  assert (Sq : forall x : A, ffin x -> par (fval x) -> ffin (nmul x x : A) /\ Rabs (fval (nmul x x : A) - fval x * fval x) <= uro * (fval x * fval x) + eta /\ fval x * fval x <= 10 ^ 30).
  { intros x Fx [X1 X2]. assert (Q0 : 0 <= fval x * fval x) by apply Rle_0_sqr. assert (Q1 : fval x * fval x <= 10 ^ 30) by nra.
    destruct (mul_finite be x x Fx Fx) as [F E].
    { apply no_overflow_small. rewrite Rabs_pos_eq by exact Q0. apply Rle_trans with (bpow radix2 110); [simpl; lra|apply bpow_le; lia]. }
    split; [exact F|]. split; [|exact Q1]. rewrite E. assert (R := rnd_err (fval x * fval x)). rewrite (Rabs_pos_eq (fval x * fval x)) in R by exact Q0. exact R. }
  destruct (Sq al Fa Ha) as (Fa2 & Ea2 & Ba2). destruct (Sq bt Fb Hb) as (Fb2 & Eb2 & Bb2). clear Sq.
  assert (Qr : forall x, par x -> (forall y, dl <= 1 + y -> t = 2 * k + x + y -> x * x <= t * (t + 2) / dl)).
  { intros x [X1 X2] y Y1 Et. apply Rmult_le_reg_r with dl; [lra|]. replace (t * (t + 2) / dl * dl) with (t * (t + 2)) by (field; lra).
    destruct (Rle_dec 1 x).
    - apply Rle_trans with (x * x * 1); [apply Rmult_le_compat_l; [apply Rle_0_sqr|lra]|]. rewrite Rmult_1_r. apply Rmult_le_compat; lra.
    - assert (x * x <= 1) by (assert (X3 : 0 <= (1 - x) * (1 + x)) by (apply Rmult_le_pos; lra); lra). apply Rle_trans with (1 * dl); [apply Rmult_le_compat_r; lra|]. assert (2 * dl * 1 <= t * (t + 2)) by (apply Rmult_le_compat; lra). lra. }
  assert (Qa := Qr a Ha b B1 eq_refl). assert (Qb := Qr b Hb a A1 ltac:(unfold t; ring)). clear Qr.
  destruct (sub_finite be _ _ Fb2 Fa2) as [F E].
  { apply no_overflow_small. apply Rle_trans with (bpow radix2 110); [|apply bpow_le; lia].
    assert (X1 := Rabs_triang (fval (nmul bt bt : A) - b * b) (b * b)). replace (fval (nmul bt bt : A) - b * b + b * b) with (fval (nmul bt bt : A)) in X1 by ring.
    assert (X2 := Rabs_triang (fval (nmul al al : A) - a * a) (a * a)). replace (fval (nmul al al : A) - a * a + a * a) with (fval (nmul al al : A)) in X2 by ring.
    assert (X3 := Rabs_triang (fval (nmul bt bt : A)) (- fval (nmul al al : A))). rewrite Rabs_Ropp in X3. unfold Rminus. eapply Rle_trans; [exact X3|].
    assert (S1 : 0 <= b * b) by apply Rle_0_sqr. assert (S2 : 0 <= a * a) by apply Rle_0_sqr. rewrite (Rabs_pos_eq (b * b)) in X1 by exact S1. rewrite (Rabs_pos_eq (a * a)) in X2 by exact S2.
    assert (uro * (b * b) <= 1 * (b * b)) by (apply Rmult_le_compat_r; lra). assert (uro * (a * a) <= 1 * (a * a)) by (apply Rmult_le_compat_r; lra).
    assert (Y := eta_U). apply Rle_trans with (5 * 10 ^ 30); [lra|]. simpl. lra. }
  assert (R := rnd_add_err (fval (nmul bt bt : A)) (- fval (nmul al al : A)) (ffin_format _) (generic_format_opp _ _ _ (ffin_format _))).
  change (fval (nmul bt bt : A) + - fval (nmul al al : A)) with (fval (nmul bt bt : A) - fval (nmul al al : A)) in R. rewrite <- E in R.
  set (bb := fval (nmul bt bt : A)) in *. set (aa := fval (nmul al al : A)) in *. set (z := fval (nsub (nmul bt bt) (nmul al al) : A)) in *.
  set (Q := t * (t + 2)) in *.
  assert (BN : Rabs (b * b - a * a) <= Q).
  { replace (b * b - a * a) with ((b - a) * (b + a)) by ring. rewrite Rabs_mult. unfold Q. apply Rmult_le_compat; try apply Rabs_pos; apply Rabs_le; lra. }
  assert (Eu : eta <= uro * (1 / 10 ^ 20) * Q).
  { assert (X := eta_val). assert (Z := uro_eq). apply Rle_trans with (1 / 10 ^ 300); [exact X|]. apply Rle_trans with (1 / 10 ^ 60).
    - unfold Rdiv. rewrite !Rmult_1_l. apply Rinv_le_contravar; [apply pow_lt; lra|]. apply Rle_pow; [lra|lia].
    - assert (2 / 10 ^ 10 * 1 <= Q) by (apply Rmult_le_compat; lra). apply Rle_trans with (uro * (1 / 10 ^ 20) * (2 / 10 ^ 10 * 1)); [rewrite Z; lra|]. apply Rmult_le_compat_l; lra. }
  assert (Ua : uro * (a * a) <= U * Q).
  { replace (U * Q) with (uro * (Q / dl)) by (unfold U; field; lra). apply Rmult_le_compat_l; lra. }
  assert (Ub : uro * (b * b) <= U * Q).
  { replace (U * Q) with (uro * (Q / dl)) by (unfold U; field; lra). apply Rmult_le_compat_l; lra. }
  assert (d1 : Rabs (bb - aa - (b * b - a * a)) <= (2 * U + uro * (2 / 10 ^ 20)) * Q).
  { replace (bb - aa - (b * b - a * a)) with ((bb - b * b) + - (aa - a * a)) by ring. eapply Rle_trans; [apply Rabs_triang|]. rewrite Rabs_Ropp. lra. }
  assert (uQ : uro * Q <= U * Q) by (apply Rmult_le_compat_r; lra).
  assert (d2 : Rabs (z - (b * b - a * a)) <= 31 / 10 * U * Q).
  { replace (z - (b * b - a * a)) with ((z - (bb - aa)) + (bb - aa - (b * b - a * a))) by ring. eapply Rle_trans; [apply Rabs_triang|].
    assert (X : Rabs (bb - aa) <= Q + 1 / 1000 * Q).
    { replace (bb - aa) with ((bb - aa - (b * b - a * a)) + (b * b - a * a)) by ring. eapply Rle_trans; [apply Rabs_triang|].
      assert ((2 * U + uro * (2 / 10 ^ 20)) * Q <= 1 / 1000 * Q) by (apply Rmult_le_compat_r; lra). lra. }
    assert (uro * Rabs (bb - aa) <= uro * (Q + 1 / 1000 * Q)) by (apply Rmult_le_compat_l; lra). assert (0 <= U * Q) by (apply Rmult_le_pos; lra). lra. }
  destruct (quot _ _ (b * b - a * a) Q _ _ F FQ d2 BN Qp HQ) as [G1 G2]; try lra.
  split; [exact G1|]. eapply Rle_trans; [exact G2|]. assert (X := eta_U). lra.
Qed.
End Entries.
