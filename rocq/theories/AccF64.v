(** Relative errors of double arithmetic. *)
From Coq Require Import Reals ZArith List Lra Lia Psatz.
From Flocq Require Import Core Relative IEEE754.Binary.
From Verif Require Import Arith F64 F64Spec F64Proof RoundSpec RoundProof RoundRules GammaProof.
Local Open Scope R_scope.

Lemma uro_eq : uro = / 9007199254740992.
Proof. unfold uro. simpl. reflexivity. Qed.
Lemma uro_num : 0 < uro <= 1111 / 10 ^ 19. Proof. rewrite uro_eq. lra. Qed.

(** [x] is finite and within the relative error [d] of [v]. *)
Definition rel (x : f64) (v d : R) : Prop := ffin x /\ Rabs (fval x - v) <= d * Rabs v.
(** far from overflow and underflow *)
Definition mid (v : R) : Prop := bpow radix2 (-400) <= Rabs v <= bpow radix2 400.

Lemma pow400 : 0 < bpow radix2 (-400) /\ bpow radix2 (-400) * bpow radix2 400 = 1 /\ 1 <= bpow radix2 400.
Proof.
  split; [apply bpow_gt_0|]. split; [rewrite <- bpow_plus; reflexivity|]. change 1 with (bpow radix2 0). apply bpow_le. lia.
Qed.
Lemma rnd_rel : forall x, bpow radix2 (-1000) <= Rabs x <= bpow radix2 1000 -> Rabs (rnd x - x) <= uro * Rabs x /\ no_overflow x.
Proof.
  intros x [H1 H2]. split; [|apply no_overflow_small; eapply Rle_trans; [exact H2|apply bpow_le; lia]].
  unfold rnd. rewrite <- uro_u_ro. unfold u_ro.
  replace (/ 2 * bpow radix2 (- (53) + 1)) with (/ 2 * bpow radix2 (-53 + 1)) by reflexivity.
  apply (relative_error_N_FLT radix2 (-1074) 53). exact prec53. eapply Rle_trans; [|exact H1]. apply bpow_le. lia.
Qed.
Lemma mid_mul : forall v w, mid v -> mid w -> bpow radix2 (-800) <= Rabs (v * w) <= bpow radix2 800.
Proof.
  intros v w [V1 V2] [W1 W2]. rewrite Rabs_mult. replace (bpow radix2 (-800)) with (bpow radix2 (-400) * bpow radix2 (-400)) by (rewrite <- bpow_plus; reflexivity).
  replace (bpow radix2 800) with (bpow radix2 400 * bpow radix2 400) by (rewrite <- bpow_plus; reflexivity).
  pose proof (bpow_ge_0 radix2 (-400)). split; apply Rmult_le_compat; try assumption; try apply Rabs_pos.
Qed.
Lemma mid_inv : forall v, mid v -> v <> 0 /\ mid (/ v).
Proof.
  intros v [V1 V2]. destruct pow400 as (P1 & P2 & P3). assert (N : v <> 0) by (intros ->; rewrite Rabs_R0 in V1; lra). split; [exact N|].
  unfold mid. rewrite Rabs_Rinv by exact N. split.
  - replace (bpow radix2 (-400)) with (/ bpow radix2 400) by (rewrite <- bpow_opp; reflexivity). apply Rinv_le_contravar; [lra|exact V2].
  - replace (bpow radix2 400) with (/ bpow radix2 (-400)) by (rewrite <- bpow_opp; reflexivity). apply Rinv_le_contravar; [lra|exact V1].
Qed.
(** a number of moderate size stays so under perturbation *)
Lemma rel_size : forall v x d D, bpow radix2 (-D) <= Rabs v <= bpow radix2 D -> 0 <= d <= / 2 -> Rabs (x - v) <= d * Rabs v ->
  bpow radix2 (- (D + 1)) <= Rabs x <= bpow radix2 (D + 1).
Proof.
  intros v x d D [H1 H2] Hd H. pose proof (Rabs_triang_inv v (v - x)) as T1. replace (v - (v - x)) with x in T1 by ring. rewrite <- Rabs_Ropp in H. replace (- (x - v)) with (v - x) in H by ring.
  pose proof (Rabs_triang (x - v) v) as T2. replace (x - v + v) with x in T2 by ring. rewrite <- (Rabs_Ropp (x - v)) in T2. replace (- (x - v)) with (v - x) in T2 by ring.
  pose proof (Rabs_pos v) as P.
  replace (- (D + 1))%Z with (- D + -1)%Z by lia. rewrite !bpow_plus. change (bpow radix2 (-1)) with (/ 2). change (bpow radix2 1) with 2.
  assert (d * Rabs v <= / 2 * Rabs v) by (apply Rmult_le_compat_r; lra). lra.
Qed.
Lemma rel_weaken : forall x v d e, rel x v d -> d <= e -> rel x v e.
Proof. intros x v d e [F H] L. split; [exact F|]. eapply Rle_trans; [exact H|]. apply Rmult_le_compat_r; [apply Rabs_pos|exact L]. Qed.
Lemma rel_exact : forall x, ffin x -> rel x (fval x) 0.
Proof. intros x F. split; [exact F|]. rewrite Rminus_diag_eq, Rabs_R0 by reflexivity. lra. Qed.
(** rounding a perturbed number *)
Lemma round_perturbed : forall z v d, bpow radix2 (-900) <= Rabs v <= bpow radix2 900 -> 0 <= d <= / 2 -> Rabs (z - v) <= d * Rabs v ->
  no_overflow z /\ Rabs (rnd z - v) <= (d + uro * (1 + d)) * Rabs v.
Proof.
  intros z v d Hv Hd H. pose proof (rel_size v z d 900 Hv Hd H) as S. change (- (900 + 1))%Z with (-901)%Z in S. change (900 + 1)%Z with 901%Z in S.
  destruct (rnd_rel z) as [E O]. { split; [eapply Rle_trans; [|apply S]; apply bpow_le; lia|eapply Rle_trans; [apply S|apply bpow_le; lia]]. }
  split; [exact O|]. pose proof (Rabs_triang (rnd z - z) (z - v)) as T. replace (rnd z - z + (z - v)) with (rnd z - v) in T by ring.
  pose proof (Rabs_triang (z - v) v) as T2. replace (z - v + v) with z in T2 by ring. pose proof uro_num as U.
  assert (uro * Rabs z <= uro * (Rabs v + d * Rabs v)) by (apply Rmult_le_compat_l; lra). lra.
Qed.

Section F.
Variable be : Backend.
Notation A := (F64 be).
Lemma rel_mul : forall (x y : A) v w d e, rel x v d -> rel y w e -> mid v -> mid w -> 0 <= d <= / 10 -> 0 <= e <= / 10 ->
  rel (nmul x y : A) (v * w) ((1 + d) * (1 + e) * (1 + uro) - 1).
Proof.
  intros x y v w d e [Fx Hx] [Fy Hy] Mv Mw Hd He. pose proof (mid_mul v w Mv Mw) as M.
  assert (P : Rabs (fval x * fval y - v * w) <= (d + e + d * e) * Rabs (v * w)).
  { replace (fval x * fval y - v * w) with ((fval x - v) * (fval y - w) + (fval x - v) * w + v * (fval y - w)) by ring.
    eapply Rle_trans; [apply Rabs_triang|]. eapply Rle_trans; [apply Rplus_le_compat_r, Rabs_triang|]. rewrite !Rabs_mult.
    pose proof (Rabs_pos v) as Pv. pose proof (Rabs_pos w) as Pw. pose proof (Rabs_pos (fval x - v)) as P1. pose proof (Rabs_pos (fval y - w)) as P2.
    assert (Rabs (fval x - v) * Rabs (fval y - w) <= (d * Rabs v) * (e * Rabs w)) by (apply Rmult_le_compat; assumption).
    assert (Rabs (fval x - v) * Rabs w <= (d * Rabs v) * Rabs w) by (apply Rmult_le_compat_r; assumption).
    assert (Rabs v * Rabs (fval y - w) <= Rabs v * (e * Rabs w)) by (apply Rmult_le_compat_l; assumption). lra. }
  destruct (round_perturbed (fval x * fval y) (v * w) (d + e + d * e)) as [O E].
  { split; [eapply Rle_trans; [|apply M]; apply bpow_le; lia|eapply Rle_trans; [apply M|apply bpow_le; lia]]. }
  { nra. } { exact P. }
  destruct (mul_finite be x y Fx Fy O) as [F1 E1]. split; [exact F1|]. rewrite E1. eapply Rle_trans; [exact E|]. right. ring.
Qed.
Lemma rel_div : forall (x y : A) v w d e, rel x v d -> rel y w e -> mid v -> mid w -> 0 <= d <= / 10 -> 0 <= e <= / 10 ->
  rel (ndiv x y : A) (v / w) ((1 + d) / (1 - e) * (1 + uro) - 1).
Proof.
  intros x y v w d e [Fx Hx] [Fy Hy] Mv Mw Hd He. destruct (mid_inv w Mw) as [Nw Mi]. pose proof (mid_mul v (/ w) Mv Mi) as M. change (v * / w) with (v / w) in M.
  pose proof (Rabs_triang_inv w (w - fval y)) as T1. replace (w - (w - fval y)) with (fval y) in T1 by ring.
  rewrite <- Rabs_Ropp in Hy. replace (- (fval y - w)) with (w - fval y) in Hy by ring. assert (Pw : 0 < Rabs w) by (apply Rabs_pos_lt, Nw).
  assert (Y : (1 - e) * Rabs w <= Rabs (fval y)) by lra. assert (Ny : fval y <> 0). { intros E. rewrite E, Rabs_R0 in Y. assert (0 < (1 - e) * Rabs w) by (apply Rmult_lt_0_compat; lra). lra. }
  assert (P : Rabs (fval x / fval y - v / w) <= ((d + e) / (1 - e)) * Rabs (v / w)).
  { replace (fval x / fval y - v / w) with (((fval x - v) * w + v * (w - fval y)) * / (fval y * w)) by (field; split; assumption).
    rewrite Rabs_mult, Rabs_Rinv by (apply Rmult_integral_contrapositive_currified; assumption).
    assert (N : Rabs ((fval x - v) * w + v * (w - fval y)) <= (d + e) * (Rabs v * Rabs w)).
    { eapply Rle_trans; [apply Rabs_triang|]. rewrite !Rabs_mult. pose proof (Rabs_pos v).
      assert (Rabs (fval x - v) * Rabs w <= (d * Rabs v) * Rabs w) by (apply Rmult_le_compat_r; lra).
      assert (Rabs v * Rabs (w - fval y) <= Rabs v * (e * Rabs w)) by (apply Rmult_le_compat_l; assumption). lra. }
    rewrite Rabs_mult. unfold Rdiv at 2. rewrite Rabs_mult, (Rabs_Rinv w) by exact Nw.
    replace ((d + e) / (1 - e) * (Rabs v * / Rabs w)) with ((d + e) * (Rabs v * Rabs w) * / ((1 - e) * Rabs w * Rabs w)) by (field; lra).
    apply Rmult_le_compat; [apply Rabs_pos|left; apply Rinv_0_lt_compat, Rmult_lt_0_compat; [apply Rabs_pos_lt, Ny|exact Pw]|exact N|].
    apply Rinv_le_contravar; [apply Rmult_lt_0_compat; [apply Rmult_lt_0_compat; lra|exact Pw]|]. apply Rmult_le_compat_r; lra. }
  assert (Q : 0 <= (d + e) / (1 - e) <= / 2).
  { split; [apply Rmult_le_pos; [lra|left; apply Rinv_0_lt_compat; lra]|]. apply (Rmult_le_reg_r (1 - e)); [lra|]. unfold Rdiv. rewrite Rmult_assoc, Rinv_l by lra. lra. }
  destruct (round_perturbed (fval x / fval y) (v / w) ((d + e) / (1 - e))) as [O E]; [|exact Q|exact P|].
  { split; [eapply Rle_trans; [|apply M]; apply bpow_le; lia|eapply Rle_trans; [apply M|apply bpow_le; lia]]. }
  destruct (div_finite be x y Fx Ny O) as [F1 E1]. split; [exact F1|]. rewrite E1. eapply Rle_trans; [exact E|]. right. field. lra.
Qed.
(** sums of numbers of the same sign *)
Lemma rel_add : forall (x y : A) v w d, rel x v d -> rel y w d -> 0 <= v -> 0 <= w -> mid (v + w) -> 0 <= d <= / 10 ->
  rel (nadd x y : A) (v + w) ((1 + d) * (1 + uro) - 1).
Proof.
  intros x y v w d [Fx Hx] [Fy Hy] V W M Hd.
  destruct (round_perturbed (fval x + fval y) (v + w) d) as [O E]; [|lra| |].
  { destruct M. split; [eapply Rle_trans; [|eassumption]; apply bpow_le; lia|eapply Rle_trans; [eassumption|apply bpow_le; lia]]. }
  { replace (fval x + fval y - (v + w)) with ((fval x - v) + (fval y - w)) by ring. eapply Rle_trans; [apply Rabs_triang|].
    rewrite (Rabs_pos_eq (v + w)) by lra. rewrite (Rabs_pos_eq v) in Hx by lra. rewrite (Rabs_pos_eq w) in Hy by lra. lra. }
  destruct (add_finite be x y Fx Fy O) as [F1 E1]. split; [exact F1|]. rewrite E1. eapply Rle_trans; [exact E|]. right. ring.
Qed.
End F.

(** integers and decimal literals *)
Lemma rel_ofZ : forall z, (Z.abs z <= 2 ^ 53)%Z -> rel (f64_of_Z z) (IZR z) 0.
Proof. intros z H. destruct (ofZ_exact z H) as [F E]. rewrite <- E. apply rel_exact, F. Qed.
Lemma rel_int : forall m, (Z.abs m <= 2 ^ 53)%Z -> rel (f64_lit m 0) (IZR m) 0.
Proof. intros m H. destruct (lit_int_exact m H) as [F E]. rewrite <- E. apply rel_exact, F. Qed.
Lemma mid_range : forall v, / 2 ^ 100 <= Rabs v <= 2 ^ 100 -> mid v.
Proof.
  intros v [H1 H2]. unfold mid. assert (E1 : bpow radix2 (-100) = / 2 ^ 100) by (refine (eq_trans (bpow_opp radix2 100) _); f_equal; simpl; lra).
  assert (E2 : bpow radix2 100 = 2 ^ 100) by (simpl; lra). split; [eapply Rle_trans; [|exact H1]; rewrite <- E1; apply bpow_le; lia|].
  eapply Rle_trans; [exact H2|]. rewrite <- E2. apply bpow_le. lia.
Qed.
Lemma rel_lit : forall m e, (e < 0)%Z -> mid (IZR m / IZR (10 ^ (- e))) -> rel (f64_lit m e) (IZR m / IZR (10 ^ (- e))) uro.
Proof.
  intros m e He [H1 H2]. destruct (rnd_rel (IZR m / IZR (10 ^ (- e)))) as [E O].
  { split; [eapply Rle_trans; [|exact H1]; apply bpow_le; lia|eapply Rle_trans; [exact H2|apply bpow_le; lia]]. }
  destruct (lit_neg_correct m e He O) as [F1 E1]. split; [exact F1|]. rewrite E1. exact E.
Qed.

(** the constant PI of the library *)
Lemma PI_lo30 : 3141592653589793238 / 10 ^ 18 < PI.
Proof. assert (H := proj1 (PI_2_3_7_ineq 10)). unfold tg_alt, PI_2_3_7_tg, Ratan_seq in H. simpl in H. lra. Qed.
Lemma PI_hi30 : PI < 3141592653589793239 / 10 ^ 18.
Proof. assert (H := proj2 (PI_2_3_7_ineq 10)). unfold tg_alt, PI_2_3_7_tg, Ratan_seq in H. simpl in H. lra. Qed.
Lemma npi_value : ffin (f64_lit 314159265358979323846264338327950288 (-35)) /\ fval (f64_lit 314159265358979323846264338327950288 (-35)) = 884279719003555 / 281474976710656.
Proof.
  split; [vm_compute; reflexivity|]. set (x := f64_lit 314159265358979323846264338327950288 (-35)).
  assert (E : B2SF 53 1024 x = SpecFloat.S754_finite false 7074237752028440 (-51)) by (vm_compute; reflexivity).
  unfold fval. destruct x as [|?|?|s m ex h]; try discriminate E. cbn in E. injection E as -> -> ->. unfold B2R, F2R. cbn [Fnum Fexp SpecFloat.cond_Zopp].
  change (bpow radix2 (-51)) with (/ IZR (2 ^ 51)). rewrite <- (Rmult_1_l (/ _)). change (2 ^ 51)%Z with 2251799813685248%Z. lra.
Qed.
Lemma rel_pi : rel (f64_lit 314159265358979323846264338327950288 (-35)) PI (4 / 10 ^ 17).
Proof.
  destruct npi_value as [F E]. split; [exact F|]. rewrite E. pose proof PI_lo30. pose proof PI_hi30. rewrite (Rabs_pos_eq PI) by lra. apply Rabs_le. lra.
Qed.
