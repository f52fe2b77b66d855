(** Counting roundings: absolute errors of double arithmetic measured against a
    bound on the size of the exact value. *)
From Coq Require Import Reals ZArith List Lra Lia Psatz.
From Flocq Require Import Core Relative IEEE754.Binary.
From Verif Require Import Arith RInst F64 F64Spec F64Proof RoundSpec RoundProof RoundRules GammaProof AccF64.
Local Open Scope R_scope.

(** the error of [c] roundings *)
Definition ex (c : R) : R := exp (c * uro) - 1.
Definition cnt (c : R) : Prop := 0 <= c <= 10 ^ 12.
Definition rng (Q : R) : Prop := / 10 ^ 60 <= Q <= 10 ^ 60.
(** [x] is finite, [Q] bounds [v], and [x] differs from [v] by at most [c] roundings of numbers of size [Q]. *)
Definition apx (x : f64) (v Q c : R) : Prop :=
  ffin x /\ Rabs v <= Q /\ Rabs (fval x - v) <= ex c * Q /\ rng Q /\ cnt c.

Lemma ex_lo : forall c, 0 <= c -> c * uro <= ex c.
Proof. intros c H. unfold ex. pose proof (exp_ineq1_le (c * uro)). lra. Qed.
Lemma cnt_small : forall c, cnt c -> 0 <= c * uro <= 12 / 10 ^ 5.
Proof. intros c [H1 H2]. pose proof uro_num as [U1 U2]. split; [apply Rmult_le_pos; lra|]. apply Rle_trans with (10 ^ 12 * (1111 / 10 ^ 19)); [apply Rmult_le_compat; lra|lra]. Qed.
Lemma exp_hi : forall t, 0 <= t <= 1 / 100 -> exp t <= 1 + t * (1 + 2 * t).
Proof.
  intros t H. pose proof (exp_ineq1_le (- t)) as E. rewrite exp_Ropp in E. pose proof (exp_pos t) as P.
  assert (exp t * (1 - t) <= 1). { apply (Rmult_le_compat_l (exp t)) in E; [|lra]. rewrite Rinv_r in E by lra. lra. }
  nra.
Qed.
Lemma ex_hi : forall c, cnt c -> ex c <= 1001 / 1000 * (c * uro).
Proof. intros c H. apply cnt_small in H. unfold ex. pose proof (exp_hi (c * uro)). nra. Qed.
Lemma ex_small : forall c, cnt c -> 0 <= ex c <= 13 / 10 ^ 5.
Proof. intros c H. pose proof (ex_hi c H). pose proof (ex_lo c (proj1 H)). apply cnt_small in H. lra. Qed.
Lemma ex_mono : forall c d, c <= d -> ex c <= ex d.
Proof. intros c d H. unfold ex. apply Rplus_le_compat_r. pose proof uro_num. destruct (Req_dec c d) as [->|N]; [lra|]. left. apply exp_increasing. apply Rmult_lt_compat_r; lra. Qed.
Lemma ex_plus : forall c d, ex (c + d) = (1 + ex c) * (1 + ex d) - 1.
Proof. intros. unfold ex. rewrite Rmult_plus_distr_r, exp_plus. ring. Qed.
Lemma ex_0 : ex 0 = 0. Proof. unfold ex. rewrite Rmult_0_l, exp_0. ring. Qed.
Lemma rng_pos : forall Q, rng Q -> 0 < Q. Proof. intros Q [H _]. lra. Qed.
Lemma ten_bpow : bpow radix2 (-900) <= / 10 ^ 60 * / 10 ^ 60 /\ 10 ^ 60 * 10 ^ 60 <= bpow radix2 900.
Proof.
  assert (E : 10 ^ 60 * 10 ^ 60 <= bpow radix2 900).
  { rewrite <- pow_add. change (60 + 60)%nat with 120%nat. apply Rle_trans with (bpow radix2 400); [|apply bpow_le; lia].
    rewrite pow_IZR. rewrite <- IZR_Zpower by lia. apply IZR_le. vm_compute. discriminate. }
  split; [|exact E]. rewrite <- Rinv_mult by lra. replace (bpow radix2 (-900)) with (/ bpow radix2 900) by (rewrite <- bpow_opp; reflexivity).
  apply Rinv_le_contravar; [lra|exact E].
Qed.
(** a rounding, with underflow, costs at most 1.01 *)
Lemma round_apx : forall z v Q c e, Rabs v <= Q -> Rabs (z - v) <= ex c * Q -> rng Q -> cnt e -> 0 <= c -> c + 101 / 100 <= e ->
  no_overflow z /\ Rabs (rnd z - v) <= ex e * Q.
Proof.
  intros z v Q c e Hv Hz HQ He Hc Hce. pose proof (rng_pos Q HQ) as Qp. pose proof uro_num as U.
  assert (Cc : cnt c) by (destruct He; split; lra). pose proof (ex_small c Cc) as Sc.
  pose proof (Rabs_triang (z - v) v) as T. replace (z - v + v) with z in T by ring.
  assert (Zb : Rabs z <= (1 + ex c) * Q) by lra.
  assert (Zs : Rabs z <= 2 * Q) by nra.
  destruct HQ as [Q1 Q2]. pose proof ten_bpow as [B1 B2].
  split. { apply no_overflow_small. eapply Rle_trans; [exact Zs|]. apply Rle_trans with (bpow radix2 900); [|apply bpow_le; lia]. lra. }
  assert (R : Rabs (rnd z - z) <= uro * Rabs z + uro * (Q / 100)).
  { eapply Rle_trans; [apply rnd_err|]. apply Rplus_le_compat_l. unfold eta. apply Rle_trans with (bpow radix2 (-53) * bpow radix2 (-900)).
    - rewrite <- !bpow_plus. apply bpow_le. lia.
    - apply Rmult_le_compat; try apply bpow_ge_0; [rewrite uro_eq; right; reflexivity|]. eapply Rle_trans; [exact B1|]. lra. }
  pose proof (Rabs_triang (rnd z - z) (z - v)) as T2. replace (rnd z - z + (z - v)) with (rnd z - v) in T2 by ring.
  assert (G : (1 + ex c) * (1 + 101 / 100 * uro) - 1 <= ex e).
  { apply Rle_trans with (ex (c + 101 / 100)); [|apply ex_mono; exact Hce]. rewrite ex_plus.
    pose proof (ex_lo (101 / 100) ltac:(lra)) as L. nra. }
  assert (uro * Rabs z <= uro * ((1 + ex c) * Q)) by (apply Rmult_le_compat_l; lra).
  apply Rle_trans with (((1 + ex c) * (1 + 101 / 100 * uro) - 1) * Q); [|apply Rmult_le_compat_r; lra].
  assert (0 <= ex c * uro * Q) by (apply Rmult_le_pos; [apply Rmult_le_pos|]; lra). lra.
Qed.
Lemma apx_weaken : forall x v Q c R d, apx x v Q c -> Q <= R -> c <= d -> rng R -> cnt d -> apx x v R d.
Proof.
  intros x v Q c R d (F & B & E & HQ & Hc) HR Hd Rr Cd. split; [exact F|]. split; [lra|]. split; [|auto]. eapply Rle_trans; [exact E|].
  pose proof (rng_pos Q HQ). pose proof (ex_small c Hc). apply Rmult_le_compat; try lra. apply ex_mono, Hd.
Qed.
Lemma apx_rescale : forall x v Q c R d, apx x v Q c -> Rabs v <= R -> 1001 / 1000 * c * Q <= d * R -> rng R -> cnt d -> apx x v R d.
Proof.
  intros x v Q c R d (F & B & E & HQ & Hc) HR Hd Rr Cd. split; [exact F|]. split; [lra|]. split; [|auto]. eapply Rle_trans; [exact E|].
  pose proof (rng_pos Q HQ). pose proof (rng_pos R Rr). pose proof (ex_hi c Hc). pose proof (ex_lo d (proj1 Cd)). pose proof uro_num.
  apply Rle_trans with (1001 / 1000 * (c * uro) * Q); [apply Rmult_le_compat_r; lra|]. apply Rle_trans with (d * uro * R); [|apply Rmult_le_compat_r; lra].
  replace (1001 / 1000 * (c * uro) * Q) with (uro * (1001 / 1000 * c * Q)) by ring. replace (d * uro * R) with (uro * (d * R)) by ring. apply Rmult_le_compat_l; lra.
Qed.
Lemma apx_exact : forall x v, ffin x -> fval x = v -> rng (Rabs v) -> apx x v (Rabs v) 0.
Proof. intros x v F E R. split; [exact F|]. split; [lra|]. rewrite E, ex_0, Rminus_diag_eq, Rabs_R0 by reflexivity. split; [lra|]. split; [exact R|]. split; lra. Qed.

Section F.
Variable be : Backend.
Notation A := (F64 be).
Lemma apx_mul : forall (x y : A) (v w : RA) Q P R c d e, apx x v Q c -> apx y w P d -> Q * P <= R -> c + d + 101 / 100 <= e -> rng R -> cnt e ->
  apx (nmul x y : A) (nmul v w : RA) R e.
Proof.
  intros x y v w Q P R c d e (Fx & Bx & Ex & Rx & Cx) (Fy & By & Ey & Ry & Cy) HR He Hr Hc. cbn [nmul RA].
  pose proof (rng_pos Q Rx) as Qp. pose proof (rng_pos P Ry) as Pp. pose proof (ex_small c Cx). pose proof (ex_small d Cy).
  assert (M : Rabs (v * w) <= Q * P) by (rewrite Rabs_mult; apply Rmult_le_compat; try apply Rabs_pos; assumption).
  assert (Z : Rabs (fval x * fval y - v * w) <= ex (c + d) * R).
  { apply Rle_trans with (ex (c + d) * (Q * P)).
    2:{ apply Rmult_le_compat_l; [|exact HR]. rewrite ex_plus. nra. }
    replace (fval x * fval y - v * w) with ((fval x - v) * (fval y - w) + (fval x - v) * w + v * (fval y - w)) by ring.
    eapply Rle_trans; [apply Rabs_triang|]. eapply Rle_trans; [apply Rplus_le_compat_r, Rabs_triang|]. rewrite !Rabs_mult.
    assert (Rabs (fval x - v) * Rabs (fval y - w) <= (ex c * Q) * (ex d * P)) by (apply Rmult_le_compat; try apply Rabs_pos; assumption).
    assert (Rabs (fval x - v) * Rabs w <= (ex c * Q) * P) by (apply Rmult_le_compat; try apply Rabs_pos; assumption).
    assert (Rabs v * Rabs (fval y - w) <= Q * (ex d * P)) by (apply Rmult_le_compat; try apply Rabs_pos; assumption). rewrite ex_plus. lra. }
  destruct Cx, Cy. destruct (round_apx (fval x * fval y) (v * w) R (c + d) e) as [O E]; try lra; try assumption.
  destruct (mul_finite be x y Fx Fy O) as [F1 E1]. split; [exact F1|]. split; [lra|]. rewrite E1. auto.
Qed.
Lemma apx_add : forall (x y : A) (v w : RA) Q P R c d e, apx x v Q c -> apx y w P d -> Q + P <= R -> c + 101 / 100 <= e -> d + 101 / 100 <= e -> rng R -> cnt e ->
  apx (nadd x y : A) (nadd v w : RA) R e.
Proof.
  intros x y v w Q P R c d e (Fx & Bx & Ex & Rx & Cx) (Fy & By & Ey & Ry & Cy) HR He1 He2 Hr Hc. cbn [nadd RA].
  pose proof (rng_pos Q Rx) as Qp. pose proof (rng_pos P Ry) as Pp. pose proof (ex_small c Cx). pose proof (ex_small d Cy). destruct Cx as [c0 c1], Cy as [d0 d1].
  assert (M : Rabs (v + w) <= Q + P) by (eapply Rle_trans; [apply Rabs_triang|lra]).
  assert (Z : Rabs (fval x + fval y - (v + w)) <= ex (e - 101 / 100) * R).
  { pose proof (ex_mono c (e - 101 / 100) ltac:(lra)). pose proof (ex_mono d (e - 101 / 100) ltac:(lra)).
    replace (fval x + fval y - (v + w)) with ((fval x - v) + (fval y - w)) by ring. eapply Rle_trans; [apply Rabs_triang|].
    apply Rle_trans with (ex (e - 101 / 100) * Q + ex (e - 101 / 100) * P).
    - apply Rplus_le_compat; (eapply Rle_trans; [eassumption|apply Rmult_le_compat_r; lra]).
    - rewrite <- Rmult_plus_distr_l. apply Rmult_le_compat_l; lra. }
  destruct (round_apx (fval x + fval y) (v + w) R (e - 101 / 100) e) as [O E]; try lra; try assumption.
  destruct (add_finite be x y Fx Fy O) as [F1 E1]. split; [exact F1|]. split; [lra|]. rewrite E1. auto.
Qed.
Lemma apx_sub : forall (x y : A) (v w : RA) Q P R c d e, apx x v Q c -> apx y w P d -> Q + P <= R -> c + 101 / 100 <= e -> d + 101 / 100 <= e -> rng R -> cnt e ->
  apx (nsub x y : A) (nsub v w : RA) R e.
Proof.
  intros x y v w Q P R c d e (Fx & Bx & Ex & Rx & Cx) (Fy & By & Ey & Ry & Cy) HR He1 He2 Hr Hc. cbn [nsub RA].
  pose proof (rng_pos Q Rx) as Qp. pose proof (rng_pos P Ry) as Pp. pose proof (ex_small c Cx). pose proof (ex_small d Cy). destruct Cx as [c0 c1], Cy as [d0 d1].
  assert (M : Rabs (v - w) <= Q + P) by (unfold Rminus; eapply Rle_trans; [apply Rabs_triang|rewrite Rabs_Ropp; lra]).
  assert (Z : Rabs (fval x - fval y - (v - w)) <= ex (e - 101 / 100) * R).
  { pose proof (ex_mono c (e - 101 / 100) ltac:(lra)). pose proof (ex_mono d (e - 101 / 100) ltac:(lra)).
    replace (fval x - fval y - (v - w)) with ((fval x - v) + - (fval y - w)) by ring. eapply Rle_trans; [apply Rabs_triang|]. rewrite Rabs_Ropp.
    apply Rle_trans with (ex (e - 101 / 100) * Q + ex (e - 101 / 100) * P).
    - apply Rplus_le_compat; (eapply Rle_trans; [eassumption|apply Rmult_le_compat_r; lra]).
    - rewrite <- Rmult_plus_distr_l. apply Rmult_le_compat_l; lra. }
  destruct (round_apx (fval x - fval y) (v - w) R (e - 101 / 100) e) as [O E]; try lra; try assumption.
  destruct (sub_finite be x y Fx Fy O) as [F1 E1]. split; [exact F1|]. split; [lra|]. rewrite E1. auto.
Qed.
(** sums whose result is measured against its own size *)
Lemma apx_sum : forall (x y : A) (v w : RA) Q P R c d e, apx x v Q c -> apx y w P d -> Rabs (v + w) <= R ->
  1001 / 1000 * (c * Q + d * P) + 101 / 100 * R <= e * R -> rng R -> cnt e -> apx (nadd x y : A) (nadd v w : RA) R e.
Proof.
  intros x y v w Q P R c d e (Fx & Bx & Ex & Rx & Cx) (Fy & By & Ey & Ry & Cy) M He Hr Hc. cbn [nadd RA].
  pose proof (rng_pos Q Rx) as Qp. pose proof (rng_pos P Ry) as Pp. pose proof (rng_pos R Hr) as Rp. pose proof (ex_hi c Cx). pose proof (ex_hi d Cy). pose proof uro_num.
  assert (e2 : 101 / 100 <= e). { apply (Rmult_le_reg_r R); [exact Rp|]. destruct Cx, Cy. assert (0 <= c * Q) by (apply Rmult_le_pos; lra). assert (0 <= d * P) by (apply Rmult_le_pos; lra). lra. }
  assert (Z : Rabs (fval x + fval y - (v + w)) <= ex (e - 101 / 100) * R).
  { replace (fval x + fval y - (v + w)) with ((fval x - v) + (fval y - w)) by ring. eapply Rle_trans; [apply Rabs_triang|].
    apply Rle_trans with (1001 / 1000 * (c * uro) * Q + 1001 / 1000 * (d * uro) * P).
    - apply Rplus_le_compat; (eapply Rle_trans; [eassumption|apply Rmult_le_compat_r; lra]).
    - apply Rle_trans with ((e - 101 / 100) * uro * R); [|apply Rmult_le_compat_r; [lra|apply ex_lo; lra]].
      replace (1001 / 1000 * (c * uro) * Q + 1001 / 1000 * (d * uro) * P) with (uro * (1001 / 1000 * (c * Q + d * P))) by ring.
      replace ((e - 101 / 100) * uro * R) with (uro * (e * R - 101 / 100 * R)) by ring. apply Rmult_le_compat_l; lra. }
  destruct (round_apx (fval x + fval y) (v + w) R (e - 101 / 100) e) as [O E]; try lra; try assumption.
  destruct (add_finite be x y Fx Fy O) as [F1 E1]. split; [exact F1|]. split; [lra|]. rewrite E1. auto.
Qed.
Lemma inv_ex : forall d, cnt d -> (1 + ex (101 / 100 * d)) * (1 - ex d) >= 1.
Proof.
  intros d Cd. pose proof (cnt_small d Cd) as S. destruct Cd as [d0 d1]. pose proof (ex_lo (101 / 100 * d) ltac:(lra)) as L.
  assert (U : ex d <= d * uro * (1 + 2 * (d * uro))) by (unfold ex; pose proof (exp_hi (d * uro)); lra).
  set (s := d * uro) in *. replace (101 / 100 * d * uro) with (101 / 100 * s) in L by (unfold s; ring).
  apply Rle_ge. apply Rle_trans with ((1 + 101 / 100 * s) * (1 - s * (1 + 2 * s))); [nra|]. apply Rmult_le_compat; nra.
Qed.
Lemma apx_div : forall (x y : A) (v w : RA) Q P R c d e, apx x v Q c -> apx y w P d -> P = Rabs w -> Q / P <= R -> c + 101 / 100 * d + 101 / 100 <= e -> rng R -> cnt e ->
  apx (ndiv x y : A) (ndiv v w : RA) R e.
Proof.
  intros x y v w Q P R c d e (Fx & Bx & Ex & Rx & Cx) (Fy & By & Ey & Ry & Cy) HP HR He Hr Hc. cbn [ndiv RA].
  pose proof (rng_pos Q Rx) as Qp. pose proof (rng_pos P Ry) as Pp. pose proof (rng_pos R Hr) as Rp. pose proof (ex_small c Cx) as Sc. pose proof (ex_small d Cy) as Sd.
  assert (Nw : w <> 0) by (intros ->; rewrite Rabs_R0 in HP; lra).
  pose proof (Rabs_triang_inv w (w - fval y)) as T1. replace (w - (w - fval y)) with (fval y) in T1 by ring.
  rewrite <- Rabs_Ropp in Ey. replace (- (fval y - w)) with (w - fval y) in Ey by ring.
  assert (Y : (1 - ex d) * P <= Rabs (fval y)) by lra.
  assert (Yp : 0 < (1 - ex d) * P) by (apply Rmult_lt_0_compat; lra).
  assert (Ny : fval y <> 0) by (intros E; rewrite E, Rabs_R0 in Y; lra).
  assert (M : Rabs (v / w) <= Q / P) by (unfold Rdiv; rewrite Rabs_mult, Rabs_Rinv, <- HP by exact Nw; apply Rmult_le_compat_r; [left; apply Rinv_0_lt_compat, Pp|exact Bx]).
  assert (Z : Rabs (fval x / fval y - v / w) <= ex (c + 101 / 100 * d) * R).
  { assert (G : (ex c + ex d) / (1 - ex d) <= ex (c + 101 / 100 * d)).
    { apply (Rmult_le_reg_r (1 - ex d)); [lra|]. unfold Rdiv at 1. rewrite Rmult_assoc, Rinv_l by lra. rewrite ex_plus.
      pose proof (inv_ex d Cy) as I. set (g := (1 + ex (101 / 100 * d))) in *. clearbody g.
      replace (((1 + ex c) * g - 1) * (1 - ex d)) with ((1 + ex c) * (g * (1 - ex d)) - (1 - ex d)) by ring.
      assert ((1 + ex c) * 1 <= (1 + ex c) * (g * (1 - ex d))) by (apply Rmult_le_compat_l; [lra|apply Rge_le; exact I]). lra. }
    assert (G0 : 0 <= (ex c + ex d) / (1 - ex d)) by (apply Rmult_le_pos; [lra|left; apply Rinv_0_lt_compat; lra]).
    assert (QP : 0 < Q / P) by (apply Rdiv_lt_0_compat; assumption).
    apply Rle_trans with ((ex c + ex d) / (1 - ex d) * (Q / P)); [|apply Rmult_le_compat; lra].
    replace (fval x / fval y - v / w) with (((fval x - v) * w + v * (w - fval y)) * / (fval y * w)) by (field; split; assumption).
    rewrite Rabs_mult, Rabs_Rinv by (apply Rmult_integral_contrapositive_currified; assumption).
    assert (N : Rabs ((fval x - v) * w + v * (w - fval y)) <= (ex c + ex d) * (Q * P)).
    { eapply Rle_trans; [apply Rabs_triang|]. rewrite !Rabs_mult, <- HP.
      assert (Rabs (fval x - v) * P <= (ex c * Q) * P) by (apply Rmult_le_compat_r; lra).
      assert (Rabs v * Rabs (w - fval y) <= Q * (ex d * P)) by (apply Rmult_le_compat; try apply Rabs_pos; assumption). lra. }
    rewrite Rabs_mult, <- HP.
    replace ((ex c + ex d) / (1 - ex d) * (Q / P)) with ((ex c + ex d) * (Q * P) * / ((1 - ex d) * P * P)) by (field; lra).
    apply Rmult_le_compat; [apply Rabs_pos|left; apply Rinv_0_lt_compat, Rmult_lt_0_compat; [apply Rabs_pos_lt, Ny|exact Pp]|exact N|].
    apply Rinv_le_contravar; [apply Rmult_lt_0_compat; lra|]. apply Rmult_le_compat_r; lra. }
  destruct Cx, Cy. destruct (round_apx (fval x / fval y) (v / w) R (c + 101 / 100 * d) e) as [O E]; try lra; try assumption.
  destruct (div_finite be x y Fx Ny O) as [F1 E1]. split; [exact F1|]. split; [lra|]. rewrite E1. auto.
Qed.
Lemma apx_lit : forall m e C, (e < 0)%Z -> Rabs (R_lit m e) <= C -> rng C -> apx (nlit m e : A) (nlit m e : RA) C (101 / 100).
Proof.
  intros m e C He HC HR. cbn [nlit RA]. assert (E0 : R_lit m e = IZR m / IZR (10 ^ (- e))).
  { unfold R_lit. destruct (Z.ltb_spec e 0); [reflexivity|lia]. }
  destruct (round_apx (R_lit m e) (R_lit m e) C 0 (101 / 100)) as [O E]; try lra; try assumption.
  { rewrite ex_0, Rminus_diag_eq, Rabs_R0 by reflexivity. lra. } { split; lra. }
  rewrite E0 in O. destruct (lit_neg_correct m e He O) as [F1 E1]. rewrite <- E0 in E1. split; [exact F1|]. split; [exact HC|]. change (@nlit (F64 be) m e) with (f64_lit m e). rewrite E1. split; [exact E|]. split; [exact HR|]. split; lra.
Qed.
Lemma apx_pi : apx (npi : A) (npi : RA) PI 1.
Proof.
  destruct rel_pi as [F E]. cbn [npi RA]. change (@npi (F64 be)) with (f64_lit 314159265358979323846264338327950288 (-35)). pose proof PI_lo30. pose proof PI_hi30.
  rewrite (Rabs_pos_eq PI) in E by lra. split; [exact F|]. split; [rewrite Rabs_pos_eq; lra|]. split; [|split; split; lra].
  eapply Rle_trans; [exact E|]. apply Rmult_le_compat_r; [lra|]. pose proof (ex_lo 1 ltac:(lra)). rewrite uro_eq in H1. lra.
Qed.
(** Horner steps *)
Lemma hpA : forall (p x l : A) (v y w : RA) P X C Q c d f e, apx p v P c -> apx x y X d -> apx l w C f -> P * X + C <= Q -> c + d + 202 / 100 <= e -> f + 101 / 100 <= e -> rng (P * X) -> rng Q -> cnt e ->
  apx (nadd (nmul p x) l : A) (nadd (nmul v y) w : RA) Q e.
Proof.
  intros p x l v y w P X C Q c d f e Hp Hx Hl HQ He Hf R1 Rq Ce. pose proof Hp as (_ & _ & _ & _ & [c0 _]). pose proof Hx as (_ & _ & _ & _ & [d0 _]). destruct Ce as [e0 e1].
  apply (apx_add _ _ _ _ (P * X) C Q (c + d + 101 / 100) f e); try lra; try assumption; [|split; assumption].
  apply (apx_mul _ _ _ _ P X _ c d); try lra; try assumption. split; lra.
Qed.
Lemma hmA : forall (p x l : A) (v y w : RA) P X C Q c d f e, apx p v P c -> apx x y X d -> apx l w C f -> P * X + C <= Q -> c + d + 202 / 100 <= e -> f + 101 / 100 <= e -> rng (P * X) -> rng Q -> cnt e ->
  apx (nsub (nmul p x) l : A) (nsub (nmul v y) w : RA) Q e.
Proof.
  intros p x l v y w P X C Q c d f e Hp Hx Hl HQ He Hf R1 Rq Ce. pose proof Hp as (_ & _ & _ & _ & [c0 _]). pose proof Hx as (_ & _ & _ & _ & [d0 _]). destruct Ce as [e0 e1].
  apply (apx_sub _ _ _ _ (P * X) C Q (c + d + 101 / 100) f e); try lra; try assumption; [|split; assumption].
  apply (apx_mul _ _ _ _ P X _ c d); try lra; try assumption. split; lra.
Qed.
Lemma hrA : forall (p x l : A) (v y w : RA) P X C Q c d f e, apx p v P c -> apx x y X d -> apx l w C f -> P * X + C <= Q -> c + d + 202 / 100 <= e -> f + 101 / 100 <= e -> rng (P * X) -> rng Q -> cnt e ->
  apx (nadd l (nmul x p) : A) (nadd w (nmul y v) : RA) Q e.
Proof.
  intros p x l v y w P X C Q c d f e Hp Hx Hl HQ He Hf R1 Rq Ce. pose proof Hp as (_ & _ & _ & _ & [c0 _]). pose proof Hx as (_ & _ & _ & _ & [d0 _]). destruct Ce as [e0 e1].
  apply (apx_add _ _ _ _ C (P * X) Q f (c + d + 101 / 100) e); try lra; try assumption; [|split; assumption].
  apply (apx_mul _ _ _ _ X P _ d c); try lra; try assumption. split; lra.
Qed.
Lemma hqA : forall (p x l : A) (v y w : RA) P X C Q c d f e, apx p v P c -> apx x y X d -> apx l w C f -> P * X + C <= Q -> c + d + 202 / 100 <= e -> f + 101 / 100 <= e -> rng (P * X) -> rng Q -> cnt e ->
  apx (nadd l (nmul p x) : A) (nadd w (nmul v y) : RA) Q e.
Proof.
  intros p x l v y w P X C Q c d f e Hp Hx Hl HQ He Hf R1 Rq Ce. pose proof Hp as (_ & _ & _ & _ & [c0 _]). pose proof Hx as (_ & _ & _ & _ & [d0 _]). destruct Ce as [e0 e1].
  apply (apx_add _ _ _ _ C (P * X) Q f (c + d + 101 / 100) e); try lra; try assumption; [|split; assumption].
  apply (apx_mul _ _ _ _ P X _ c d); try lra; try assumption. split; lra.
Qed.
End F.
