(** Interval rules in double arithmetic: distance of the result to the rule in exact arithmetic. *)
From Coq Require Import Reals ZArith List Lra Lia Psatz.
From Flocq Require Import Core IEEE754.Binary.
From Verif Require Import Arith F64 F64Spec F64Proof RSum RInst RInstProof Machine Iter Rules Par Chebyshev Legendre Jacobi
  IntegrateSpec IntegrateProof GaussSpec GaussProof RuleSpec RoundSpec RoundProof RoundRules RoundNC RoundExamples InsideProof LegMom AccF64 TrigSpec ChebFloat LegFloat.
Import ListNotations.
Local Open Scope R_scope.

Lemma abs_le2 : forall x y d, Rabs (x - y) <= d -> y - d <= x <= y + d.
Proof. intros x y d H. assert (X1 := Rle_abs (x - y)). assert (X2 := Rle_abs (- (x - y))). rewrite Rabs_Ropp in X2. lra. Qed.
(** the computed point, over real numbers *)
Lemma point_core : forall a b x xh dx, fmt a -> fmt b -> Rabs x <= 1 -> Rabs (xh - x) <= dx -> 0 <= dx <= 1 / 1000 ->
  Rabs (rnd (/ 2 * rnd (rnd (rnd (b - a) * xh) + rnd (b + a))) - ((b - a) / 2 * x + (a + b) / 2)) <= reach a b dx /\
  Rabs (rnd (rnd (b - a) * xh) + rnd (b + a)) <= 3 * (Rabs a + Rabs b) + 1 /\ Rabs (rnd (b - a) * xh) <= 2 * (Rabs a + Rabs b).
Proof.
  intros a b x xh dx Fa Fb Hx Hxh Hd. pose proof uro_num as U. pose proof eta_num as Et. set (M := Rabs a + Rabs b).
  assert (PM : 0 <= M) by (unfold M; pose proof (Rabs_pos a); pose proof (Rabs_pos b); lra).
  assert (BD : Rabs (b - a) <= M) by (unfold M, Rminus; eapply Rle_trans; [apply Rabs_triang|]; rewrite Rabs_Ropp; lra).
  assert (BS : Rabs (b + a) <= M) by (unfold M; eapply Rle_trans; [apply Rabs_triang|]; lra).
  assert (E1 : Rabs (rnd (b - a) - (b - a)) <= uro * M).
  { eapply Rle_trans; [apply (rnd_add_err b (- a)); [exact Fb|apply generic_format_opp, Fa]|]. apply Rmult_le_compat_l; [lra|exact BD]. }
  assert (E2 : Rabs (rnd (b + a) - (b + a)) <= uro * M).
  { eapply Rle_trans; [apply (rnd_add_err b a); assumption|]. apply Rmult_le_compat_l; [lra|exact BS]. }
  set (dh := rnd (b - a)) in *. set (D := b - a) in *. set (sh := rnd (b + a)) in *. set (S := b + a) in *.
  assert (Xh : Rabs xh <= 1001 / 1000). { replace xh with ((xh - x) + x) by ring. eapply Rle_trans; [apply Rabs_triang|]. lra. }
  assert (Dh : Rabs dh <= (1 + uro) * M). { replace dh with ((dh - D) + D) by ring. eapply Rle_trans; [apply Rabs_triang|]. lra. }
  pose proof (Rabs_pos xh) as Px. pose proof (Rabs_pos dh) as Pd.
  assert (P0 : Rabs (dh * xh) <= 1002 / 1000 * M). { rewrite Rabs_mult. apply Rle_trans with ((1 + uro) * M * (1001 / 1000)); [apply Rmult_le_compat; lra|]. nra. }
  pose proof (rnd_err (dh * xh)) as R1. assert (U1 : uro * Rabs (dh * xh) <= uro * (1002 / 1000 * M)) by (apply Rmult_le_compat_l; lra).
  set (p := rnd (dh * xh)) in *.
  assert (P1 : Rabs (dh * xh - D * x) <= uro * (1001 / 1000 * M) + Rabs D * dx).
  { replace (dh * xh - D * x) with ((dh - D) * xh + D * (xh - x)) by ring. eapply Rle_trans; [apply Rabs_triang|]. rewrite !Rabs_mult. apply Rplus_le_compat.
    - apply Rle_trans with (uro * M * (1001 / 1000)); [apply Rmult_le_compat; try lra; apply Rabs_pos|lra].
    - apply Rmult_le_compat_l; [apply Rabs_pos|exact Hxh]. }
  assert (P2 : Rabs (p - D * x) <= uro * (2003 / 1000 * M) + eta + Rabs D * dx).
  { replace (p - D * x) with ((p - dh * xh) + (dh * xh - D * x)) by ring. eapply Rle_trans; [apply Rabs_triang|]. lra. }
  assert (Q0 : Rabs (p + sh) <= 2003 / 1000 * M + eta).
  { replace (p + sh) with ((p - dh * xh) + dh * xh + ((sh - S) + S)) by ring. eapply Rle_trans; [apply Rabs_triang|]. pose proof (Rabs_triang (p - dh * xh) (dh * xh)). pose proof (Rabs_triang (sh - S) S). nra. }
  assert (R2 : Rabs (rnd (p + sh) - (p + sh)) <= uro * (2003 / 1000 * M + eta)).
  { eapply Rle_trans; [apply rnd_add_err; apply rnd_format|]. apply Rmult_le_compat_l; [lra|exact Q0]. }
  pose proof (half_err (rnd (p + sh)) (rnd_format _)) as R3. split; [|split; lra].
  set (z := rnd (p + sh)) in *.
  replace (rnd (/ 2 * z) - (D / 2 * x + (a + b) / 2)) with ((rnd (/ 2 * z) - / 2 * z) + / 2 * ((z - (p + sh)) + (p - D * x) + (sh - S))) by (unfold S; field).
  eapply Rle_trans; [apply Rabs_triang|]. rewrite (Rabs_mult (/ 2)), (Rabs_pos_eq (/ 2)) by lra.
  pose proof (Rabs_triang (z - (p + sh) + (p - D * x)) (sh - S)). pose proof (Rabs_triang (z - (p + sh)) (p - D * x)).
  unfold reach. fold D. fold M. replace (bpow radix2 (-51)) with (4 * uro) by (rewrite uro_eq; simpl; lra). replace (bpow radix2 (-1074)) with (2 * eta) by (rewrite <- eta_half; field).
  assert (uro * eta <= eta) by nra. assert (0 <= uro * M) by (apply Rmult_le_pos; lra). lra.
Qed.
(** the last step, over real numbers *)
Lemma gauss_finish : forall (n : nat) r h D S S0 Sa T P, INR n <= 2 ^ 40 -> Rabs (h - D / 2) <= uro * (Rabs D / 2) + 2 * eta -> Rabs S <= Sa -> 0 <= P -> Sa <= P -> Rabs (S - S0) <= T ->
  Rabs (r - h * S) <= scaled_bound n h Sa ->
  Rabs (r - D / 2 * S0) <= Rabs D / 2 * T + (INR n + 4) * bpow radix2 (-52) * (Rabs D / 2 * P) + (1 + INR n * Rabs D + P) * bpow radix2 (-1073).
Proof.
  intros n r h D S S0 Sa T P Hn Hh HS HP HSP HT HR. pose proof uro_num as U. pose proof eta_num as Et. pose proof (pos_INR n) as Pn.
  set (C := Rabs D / 2) in *. assert (PC : 0 <= C) by (unfold C; pose proof (Rabs_pos D); lra). pose proof (Rabs_pos S) as PS. pose proof (Rabs_pos h) as Ph.
  assert (Hc : Rabs h <= (1 + uro) * C + 2 * eta). { replace h with ((h - D / 2) + D / 2) by ring. eapply Rle_trans; [apply Rabs_triang|]. unfold Rdiv at 2. rewrite (Rabs_mult D), (Rabs_pos_eq (/ 2)) by lra. unfold C, Rdiv in *. lra. }
  assert (G : (1 + uro) ^ (n + 1) - 1 <= 102 / 100 * ((INR n + 1) * uro)).
  { replace (INR n + 1) with (INR (n + 1)) by (rewrite plus_INR; simpl; lra). apply bound_size. rewrite plus_INR. simpl INR. nra. }
  assert (G0 : 0 <= (1 + uro) ^ (n + 1) - 1) by (pose proof (pow_R1_Rle (1 + uro) (n + 1) ltac:(lra)); lra).
  assert (G1 : (INR n + 1) * uro <= 13 / 10 ^ 5) by nra.
  assert (F1 : Rabs h * Sa <= ((1 + uro) * C + 2 * eta) * P) by (apply Rmult_le_compat; lra).
  assert (F2 : scaled_bound n h Sa <= 102 / 100 * ((INR n + 1) * uro) * (((1 + uro) * C + 2 * eta) * P) + ((((1 + uro) * C + 2 * eta)) * INR n * (101 / 100) + 1) * eta).
  { unfold scaled_bound. apply Rplus_le_compat.
    - apply Rmult_le_compat; [exact G0|apply Rmult_le_pos; lra|exact G|exact F1].
    - apply Rmult_le_compat_r; [lra|]. apply Rplus_le_compat_r. assert (Rabs h * INR n <= ((1 + uro) * C + 2 * eta) * INR n) by (apply Rmult_le_compat_r; lra).
      apply Rmult_le_compat; [apply Rmult_le_pos; lra|lra|lra|lra]. }
  assert (F3 : Rabs (h * S - D / 2 * S0) <= (uro * C + 2 * eta) * P + C * T).
  { replace (h * S - D / 2 * S0) with ((h - D / 2) * S + D / 2 * (S - S0)) by ring. eapply Rle_trans; [apply Rabs_triang|]. rewrite !Rabs_mult. apply Rplus_le_compat.
    - apply Rmult_le_compat; try apply Rabs_pos; lra.
    - unfold Rdiv. rewrite (Rabs_mult D), (Rabs_pos_eq (/ 2)) by lra. unfold C, Rdiv in *. apply Rmult_le_compat_l; lra. }
  replace (r - D / 2 * S0) with ((r - h * S) + (h * S - D / 2 * S0)) by ring. eapply Rle_trans; [apply Rabs_triang|].
  replace (bpow radix2 (-1073)) with (4 * eta) by (rewrite <- eta_half; replace (bpow radix2 (-1074)) with (/ 2 * bpow radix2 (-1073)); [field|change (/ 2) with (bpow radix2 (-1)); rewrite <- bpow_plus; reflexivity]).
  replace (bpow radix2 (-52)) with (2 * uro) by (rewrite uro_eq; simpl; lra).
  replace (INR n * Rabs D) with (2 * (INR n * C)) by (unfold C; field).
  set (N := INR n) in *. assert (CP : 0 <= C * P) by (apply Rmult_le_pos; assumption). assert (NC : 0 <= N * C) by (apply Rmult_le_pos; assumption).
  assert (T1 : 102 / 100 * ((N + 1) * uro) * (((1 + uro) * C + 2 * eta) * P) <= 103 / 100 * ((N + 1) * uro) * (C * P) + eta * P).
  { replace (102 / 100 * ((N + 1) * uro) * (((1 + uro) * C + 2 * eta) * P)) with (102 / 100 * (1 + uro) * ((N + 1) * uro) * (C * P) + (102 / 100 * 2 * ((N + 1) * uro)) * (eta * P)) by ring.
    assert (EP : 0 <= eta * P) by (apply Rmult_le_pos; lra). apply Rplus_le_compat.
    - apply Rmult_le_compat_r; [exact CP|]. apply Rmult_le_compat_r; [apply Rmult_le_pos; lra|lra].
    - apply Rle_trans with (1 * (eta * P)); [apply Rmult_le_compat_r; lra|lra]. }
  assert (T2 : (((1 + uro) * C + 2 * eta) * N * (101 / 100) + 1) * eta <= (2 * (N * C) + 2) * eta).
  { apply Rmult_le_compat_r; [lra|]. assert (eta * N <= / 100) by nra. assert (uro * (N * C) <= / 100 * (N * C)) by (apply Rmult_le_compat_r; lra).
    replace (((1 + uro) * C + 2 * eta) * N * (101 / 100)) with (101 / 100 * (N * C) + 101 / 100 * (uro * (N * C)) + 202 / 100 * (eta * N)) by field. lra. }
  assert (T3 : 103 / 100 * ((N + 1) * uro) * (C * P) + uro * C * P <= (N + 4) * (2 * uro) * (C * P)).
  { replace (103 / 100 * ((N + 1) * uro) * (C * P) + uro * C * P) with ((103 / 100 * (N + 1) + 1) * (uro * (C * P))) by ring.
    replace ((N + 4) * (2 * uro) * (C * P)) with ((2 * (N + 4)) * (uro * (C * P))) by ring. apply Rmult_le_compat_r; [apply Rmult_le_pos; lra|lra]. }
  assert (0 <= eta * P) by (apply Rmult_le_pos; lra). assert (0 <= eta * (N * C)) by (apply Rmult_le_pos; lra). lra.
Qed.

Lemma sum_step : forall v w wh Gy s1 s2 s3 s4 E n d c dw, Rabs (s1 - s2) <= s3 * E + n * dw * c -> s4 <= (s3 + n * d) * c -> Rabs (v - Gy) <= E -> Rabs v <= c -> Rabs (wh - w) <= dw -> d = dw ->
  Rabs ((v * wh + s1) - (Gy * w + s2)) <= (Rabs w + s3) * E + (n + 1) * dw * c /\ Rabs (v * wh) + s4 <= (Rabs w + s3 + (n + 1) * dw) * c.
Proof.
  intros v w wh Gy s1 s2 s3 s4 E n d c dw I1 I2 V1 V2 H2 ->.
  assert (Wh : Rabs wh <= Rabs w + dw). { replace wh with ((wh - w) + w) by ring. eapply Rle_trans; [apply Rabs_triang|]. lra. }
  split.
  - replace (v * wh + s1 - (Gy * w + s2)) with ((s1 - s2) + ((v - Gy) * w + v * (wh - w))) by ring.
    eapply Rle_trans; [apply Rabs_triang|]. pose proof (Rabs_triang ((v - Gy) * w) (v * (wh - w))) as T. rewrite !Rabs_mult in T. pose proof (Rabs_pos w). pose proof (Rabs_pos v).
    assert (Rabs (v - Gy) * Rabs w <= E * Rabs w) by (apply Rmult_le_compat_r; assumption).
    assert (Rabs v * Rabs (wh - w) <= c * dw) by (apply Rmult_le_compat; try assumption; apply Rabs_pos). lra.
  - rewrite Rabs_mult. assert (Rabs v * Rabs wh <= c * (Rabs w + dw)) by (apply Rmult_le_compat; try assumption; apply Rabs_pos). lra.
Qed.

Section F.
Variable be : Backend.
Notation A := (F64 be).
Variables (a b : A) (g : A -> A) (G : R -> R) (e L B dx dw W : R) (ps : list (A * A)) (qs : list (R * R)).
Hypothesis Fa : ffin a.
Hypothesis Fb : ffin b.
Hypothesis Ba : Rabs (fval a) <= bpow radix2 1000.
Hypothesis Bb : Rabs (fval b) <= bpow radix2 1000.
Hypothesis Hdx : 0 <= dx <= 1 / 1000.
Hypothesis Hdw : 0 <= dw.
Hypothesis HG : computes_near g G (fval a) (fval b) dx e L B.
Hypothesis HC : close_pairs dx dw ps qs.
Hypothesis HU : Forall (fun q => Rabs (fst q) <= 1) qs.
Hypothesis HW : lsum (map (fun q => Rabs (snd q)) qs) <= W.
Hypothesis Hn : INR (length ps) <= 2 ^ 40.
Local Notation D := (fval b - fval a).
Local Notation rho := (reach (fval a) (fval b) dx).
Local Notation y := (fun x => D / 2 * x + (fval a + fval b) / 2).

Lemma rho_pos : 0 <= rho.
Proof.
  unfold reach. pose proof (Rabs_pos D). pose proof (Rabs_pos (fval a)). pose proof (Rabs_pos (fval b)). pose proof (bpow_ge_0 radix2 (-51)). pose proof (bpow_ge_0 radix2 (-1074)).
  apply Rplus_le_le_0_compat; [apply Rplus_le_le_0_compat|assumption]; apply Rmult_le_pos; lra.
Qed.
Lemma y_between : forall x, Rabs x <= 1 -> Rmin (fval a) (fval b) <= y x <= Rmax (fval a) (fval b).
Proof.
  intros x Hx. assert (X1 := Rle_abs x). assert (X2 := Rle_abs (- x)). rewrite Rabs_Ropp in X2. unfold Rmin, Rmax. destruct (Rle_dec (fval a) (fval b)); nra.
Qed.
Lemma big : forall x, Rabs x <= 7 * bpow radix2 1000 + 1 -> no_overflow x.
Proof.
  intros x H. apply no_overflow_small. eapply Rle_trans; [exact H|]. assert (1 <= bpow radix2 1000) by (change 1 with (bpow radix2 0); apply bpow_le; lia).
  replace (bpow radix2 1023) with (bpow radix2 23 * bpow radix2 1000) by (rewrite <- bpow_plus; reflexivity). change (bpow radix2 23) with 8388608. lra.
Qed.
Lemma point_float : forall (xh : A) x, ffin xh -> Rabs x <= 1 -> Rabs (fval xh - x) <= dx -> ffin (to_interval a b xh) /\ Rabs (fval (to_interval a b xh) - y x) <= rho.
Proof.
  intros xh x Fx Hx Hxh. destruct (point_core (fval a) (fval b) x (fval xh) dx (fval_format _) (fval_format _) Hx Hxh Hdx) as (P1 & P2 & P3).
  unfold to_interval. pose proof (Rabs_pos (fval a)) as Pa. pose proof (Rabs_pos (fval b)) as Pb.
  assert (DB : Rabs D <= Rabs (fval a) + Rabs (fval b)) by (unfold Rminus; eapply Rle_trans; [apply Rabs_triang|]; rewrite Rabs_Ropp; lra).
  pose proof (Rabs_triang (fval b) (fval a)) as SB.
  destruct (sub_finite be b a Fb Fa) as [F1 E1]; [apply big; lra|].
  destruct (mul_finite be (nsub b a : A) xh F1 Fx) as [F2 E2]; [rewrite E1; apply big; lra|]. rewrite E1 in E2.
  destruct (add_finite be b a Fb Fa) as [F3 E3]; [apply big; lra|].
  destruct (add_finite be (nmul (nsub b a) xh : A) (nadd b a : A) F2 F3) as [F4 E4]; [rewrite E2, E3; apply big; lra|]. rewrite E2, E3 in E4.
  destruct half_exact as [Fh Eh].
  assert (NO : no_overflow (fval (lit_half : A) * fval (nadd (nmul (nsub b a) xh) (nadd b a) : A))).
  { assert (EH : fval (lit_half : A) = / 2) by exact Eh. rewrite EH. unfold no_overflow. apply Rle_lt_trans with (Rabs (fval (nadd (nmul (nsub b a) xh) (nadd b a) : A))); [|apply fval_bound].
    rewrite rnd_abs, <- (rnd_fmt (Rabs (fval (nadd (nmul (nsub b a) xh) (nadd b a) : A)))) by (apply generic_format_abs, fval_format). apply rnd_le.
    rewrite Rabs_mult, (Rabs_pos_eq (/ 2)) by lra. pose proof (Rabs_pos (fval (nadd (nmul (nsub b a) xh) (nadd b a) : A))). lra. }
  destruct (mul_finite be (lit_half : A) (nadd (nmul (nsub b a) xh) (nadd b a) : A) Fh F4 NO) as [F5 E5].
  split; [exact F5|]. assert (EH : fval (lit_half : A) = / 2) by exact Eh. rewrite EH, E4 in E5. rewrite E5. exact P1.
Qed.
Lemma value_float : forall (p : A * A) (q : R * R), (ffin (fst p) /\ Rabs (fval (fst p) - fst q) <= dx) -> Rabs (fst q) <= 1 ->
  Rabs (fval (g (to_interval a b (fst p))) - G (y (fst q))) <= e + L * rho /\ Rabs (fval (g (to_interval a b (fst p)))) <= B + e.
Proof.
  intros p q [F H] Hq. destruct (point_float (fst p) (fst q) F Hq H) as [F1 H1]. pose proof (y_between (fst q) Hq) as Y. pose proof rho_pos as R.
  pose proof (abs_le2 _ _ _ H1) as H2. set (x := to_interval a b (fst p)) in *. destruct HG as (G0 & G1 & G2 & G3).
  assert (X : Rmin (fval a) (fval b) - rho <= fval x <= Rmax (fval a) (fval b) + rho) by lra. specialize (G1 x F1 X). specialize (G3 _ X).
  assert (Y' : Rmin (fval a) (fval b) - rho <= y (fst q) <= Rmax (fval a) (fval b) + rho) by lra. specialize (G2 _ _ X Y'). split.
  - replace (fval (g x) - G (y (fst q))) with ((fval (g x) - G (fval x)) + (G (fval x) - G (y (fst q)))) by ring. eapply Rle_trans; [apply Rabs_triang|].
    assert (L * Rabs (fval x - y (fst q)) <= L * rho) by (apply Rmult_le_compat_l; assumption). lra.
  - replace (fval (g x)) with ((fval (g x) - G (fval x)) + G (fval x)) by ring. eapply Rle_trans; [apply Rabs_triang|]. lra.
Qed.
Lemma BE_pos : 0 <= B + e.
Proof.
  destruct HG as (G0 & G1 & G2 & G3). pose proof rho_pos as R. pose proof (Rmin_l (fval a) (fval b)). pose proof (Rmax_l (fval a) (fval b)).
  assert (X : Rmin (fval a) (fval b) - rho <= fval a <= Rmax (fval a) (fval b) + rho) by lra. specialize (G1 a Fa X). specialize (G3 _ X).
  pose proof (Rabs_pos (fval (g a) - G (fval a))). pose proof (Rabs_pos (G (fval a))). lra.
Qed.
Local Notation vs := (fun l : list (A * A) => map g (map (to_interval a b) (map fst l))).
Lemma sums_close :
  Rabs (exact_sum (vs ps) (map snd ps) - lsum (map (fun q => G (y (fst q)) * snd q) qs)) <= lsum (map (fun q => Rabs (snd q)) qs) * (e + L * rho) + INR (length ps) * dw * (B + e) /\
  abs_sum (vs ps) (map snd ps) <= (lsum (map (fun q => Rabs (snd q)) qs) + INR (length ps) * dw) * (B + e).
Proof.
  pose proof BE_pos as BE. clear Hn HW. revert HU. induction HC as [|p q l m [H1 [F2 H2]] Hl IH]; intros U.
  - unfold exact_sum, abs_sum. cbn [map combine lsum fold_right length INR]. simpl lsum. rewrite Rminus_0_r, Rabs_R0. lra.
  - inversion U as [|x l' U1 U2]; subst x l'. destruct (IH Hl U2) as [I1 I2]. destruct (value_float p q H1 U1) as [V1 V2].
    cbn [length]. rewrite S_INR.
    exact (sum_step _ _ _ _ _ _ _ _ _ _ _ _ _ I1 I2 V1 V2 H2 eq_refl).
Qed.
Lemma half_float : ffin (half_width a b).
Proof.
  unfold half_width. assert (DB : Rabs D <= Rabs (fval a) + Rabs (fval b)) by (unfold Rminus; eapply Rle_trans; [apply Rabs_triang|]; rewrite Rabs_Ropp; lra).
  pose proof (bpow_ge_0 radix2 1000). destruct (sub_finite be b a Fb Fa) as [F1 E1]; [apply big; lra|]. destruct half_exact as [Fh Eh]. assert (EH : fval (lit_half : A) = / 2) by exact Eh.
  destruct (mul_finite be (lit_half : A) (nsub b a : A) Fh F1) as [F5 E5]; [|exact F5]. rewrite EH. unfold no_overflow.
  apply Rle_lt_trans with (Rabs (fval (nsub b a : A))); [|apply fval_bound].
  rewrite rnd_abs, <- (rnd_fmt (Rabs (fval (nsub b a : A)))) by (apply generic_format_abs, fval_format). apply rnd_le.
  rewrite Rabs_mult, (Rabs_pos_eq (/ 2)) by lra. pose proof (Rabs_pos (fval (nsub b a : A))). lra.
Qed.
Lemma gauss_close : forall r, Rabs (r - fval (half_width a b) * exact_sum (vs ps) (map snd ps)) <= scaled_bound (length ps) (fval (half_width a b)) (abs_sum (vs ps) (map snd ps)) ->
  Rabs (r - gauss_on qs (fval a) (fval b) G) <= gauss_excess (INR (length ps)) (fval a) (fval b) W dx dw e L B.
Proof.
  intros r H. destruct sums_close as [S1 S2]. pose proof BE_pos as BE. pose proof rho_pos as R. unfold gauss_on, gauss_excess.
  pose proof (pos_INR (length ps)) as PN. assert (ND : 0 <= INR (length ps) * dw) by (apply Rmult_le_pos; assumption).
  assert (WP : 0 <= W). { eapply Rle_trans; [|exact HW]. clear. induction qs as [|q l IH]; [simpl; lra|]. unfold lsum in *. cbn [map fold_right]. pose proof (Rabs_pos (snd q)). lra. }
  assert (EL : 0 <= e + L * rho).
  { destruct HG as (G0 & G1 & G2 & G3). pose proof (Rmin_l (fval a) (fval b)). pose proof (Rmax_l (fval a) (fval b)).
    assert (X : Rmin (fval a) (fval b) - rho <= fval a <= Rmax (fval a) (fval b) + rho) by lra. specialize (G1 a Fa X). pose proof (Rabs_pos (fval (g a) - G (fval a))).
    assert (0 <= L * rho) by (apply Rmult_le_pos; assumption). lra. }
  apply (gauss_finish (length ps) r (fval (half_width a b)) D (exact_sum (vs ps) (map snd ps)) _ (abs_sum (vs ps) (map snd ps))).
  - exact Hn.
  - apply half_width_err, half_float.
  - apply exact_abs.
  - apply Rmult_le_pos; lra.
  - eapply Rle_trans; [exact S2|]. apply Rmult_le_compat_r; lra.
  - eapply Rle_trans; [exact S1|]. apply Rplus_le_compat_r. apply Rmult_le_compat_r; lra.
  - exact H.
Qed.
End F.
