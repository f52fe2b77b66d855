(** Rounding errors of integrate and par_integrate of the Newton-Cotes rules. *)
From Coq Require Import Reals ZArith List Lra Lia Psatz.
From Flocq Require Import Core Mult_error IEEE754.Binary.
From Verif Require Import Arith F64 F64Spec F64Proof RSum Machine Iter Rules Par NewtonCotes
  IntegrateSpec IntegrateProof RInstProof RoundSpec RoundProof RoundRules.
Import ListNotations.
Local Open Scope R_scope.
Notation fmt := (generic_format radix2 (FLT_exp (-1074) 53)).

Lemma add_err2 : forall x y ex ey ax ay dx k, fmt x -> fmt y ->
  Rabs ex <= ax -> Rabs ey <= ay -> Rabs (x - ex) <= (g k - 1) * ax + dx -> Rabs (y - ey) <= (g k - 1) * ay ->
  Rabs (rnd (x + y) - (ex + ey)) <= (g (S k) - 1) * (ax + ay) + (1 + uro) * dx.
Proof.
  intros x y ex ey ax ay dx k Fx Fy Hx Hy Ex Ey. pose proof uro_pos as U. pose proof (g_ge1 k) as G.
  assert (X : Rabs x <= g k * ax + dx). { replace x with ((x - ex) + ex) by ring. eapply Rle_trans; [apply Rabs_triang|]. lra. }
  assert (Y : Rabs y <= g k * ay). { replace y with ((y - ey) + ey) by ring. eapply Rle_trans; [apply Rabs_triang|]. lra. }
  replace (rnd (x + y) - (ex + ey)) with ((rnd (x + y) - (x + y)) + ((x - ex) + (y - ey))) by ring.
  eapply Rle_trans; [apply Rabs_triang|]. pose proof (rnd_add_err x y Fx Fy) as R.
  assert (T : Rabs (x + y) <= g k * (ax + ay) + dx) by (eapply Rle_trans; [apply Rabs_triang|]; lra).
  assert (Q : Rabs ((x - ex) + (y - ey)) <= (g k - 1) * (ax + ay) + dx) by (eapply Rle_trans; [apply Rabs_triang|]; lra).
  rewrite g_S. assert (uro * Rabs (x + y) <= uro * (g k * (ax + ay) + dx)) by (apply Rmult_le_compat_l; lra). lra.
Qed.
(** the last multiplication *)
Lemma mul_err : forall h s e a k d, Rabs e <= a -> Rabs (s - e) <= (g k - 1) * a + d * eta ->
  Rabs (rnd (h * s) - h * e) <= rule_bound (S k) ((1 + uro) * d) h a.
Proof.
  intros x y e a k d He B. unfold rule_bound. fold (g (S k)). rewrite g_S.
  pose proof uro_pos as U. pose proof eta_pos as T. pose proof (g_ge1 k) as G. pose proof (rnd_err (x * y)) as R.
  pose proof (Rabs_pos x) as Px.
  assert (Y : Rabs y <= g k * a + d * eta). { replace y with (e + (y - e)) by ring. eapply Rle_trans; [apply Rabs_triang|]. lra. }
  replace (rnd (x * y) - x * e) with ((rnd (x * y) - x * y) + x * (y - e)) by ring. eapply Rle_trans; [apply Rabs_triang|]. rewrite Rabs_mult in *.
  assert (M1 : uro * (Rabs x * Rabs y) <= uro * (Rabs x * (g k * a + d * eta))) by (apply Rmult_le_compat_l; [lra|apply Rmult_le_compat_l; lra]).
  assert (M2 : Rabs x * Rabs (y - e) <= Rabs x * ((g k - 1) * a + d * eta)) by (apply Rmult_le_compat_l; lra).
  eapply Rle_trans; [apply Rplus_le_compat; [eapply Rle_trans; [exact R|apply Rplus_le_compat_r; exact M1]|exact M2]|]. right. ring.
Qed.
Lemma double_fmt : forall k x, (0 <= k)%Z -> fmt x -> fmt (bpow radix2 k * x).
Proof. intros k x Hk F. rewrite Rmult_comm. apply mult_bpow_pos_exact_FLT; assumption. Qed.
Lemma rnd_fmt : forall x, fmt x -> rnd x = x. Proof. intros x F. unfold rnd. apply round_generic; [apply valid_rnd_N|exact F]. Qed.

Section F.
Variable be : Backend.
Notation A := (F64 be).
Lemma lit_val : forall z, (Z.abs z <= 2 ^ 53)%Z -> fval (@nlit A z 0) = IZR z.
Proof. intros z H. apply lit_int_exact. exact H. Qed.
Lemma midpoint_shape : forall (s h : A) (vs : list A) n, sum_ok be s vs -> length vs = n -> (1 <= n)%nat -> ffin (nmul s h) ->
  Rabs (fval (nmul s h) - fval h * total vs) <= rule_bound n 0 (fval h) (abs_total vs).
Proof.
  intros s h vs n [S1 S2] L Hn H. apply mul_finite_inv in H. destruct H as (Hs & _ & _ & E). specialize (S2 Hs). rewrite L in S2.
  refine (eq_ind_r (fun z => Rabs (z - _) <= _) _ E). rewrite (Rmult_comm (fval s)).
  pose proof (mul_err (fval h) (fval s) (total vs) (abs_total vs) (n - 1) 0 (vsum_abs vs)) as M.
  rewrite Rmult_0_r in M. replace (S (n - 1)) with n in M by lia. apply M. rewrite Rmult_0_l, Rplus_0_r. exact S2.
Qed.
Lemma trapezoid_shape : forall (s h fa fb : A) (vs : list A), sum_ok be s vs ->
  ffin (nmul (nadd (ndiv (nadd fa fb) lit2) s) h) ->
  Rabs (fval (nmul (nadd (ndiv (nadd fa fb) lit2) s) h) - fval h * ((fval fa + fval fb) / 2 + total vs)) <=
  rule_bound (length vs + 3) ((1 + uro) ^ 2) (fval h) ((Rabs (fval fa) + Rabs (fval fb)) / 2 + abs_total vs).
Proof.
  intros s h fa fb vs [S1 S2] H. apply mul_finite_inv in H. destruct H as (H1 & _ & _ & E).
  apply add_finite_inv in H1. destruct H1 as (H2 & H3 & _ & E2). specialize (S2 H3). pose proof eta_pos as T. pose proof uro_pos as U.
  assert (L2 : fval (@lit2 A) = 2) by (apply lit_val; lia).
  assert (EX : Rabs (fval (ndiv (nadd fa fb) (@lit2 A)) - (fval fa + fval fb) / 2) <= (g 1 - 1) * ((Rabs (fval fa) + Rabs (fval fb)) / 2) + eta).
  { apply div_finite_inv in H2. destruct H2 as (H4 & [(_ & _ & _ & E4)|(_ & B & _)]); [|exfalso; apply B; apply lit_int_exact; lia].
    apply add_finite_inv in H4. destruct H4 as (_ & _ & _ & E5).
    refine (eq_ind_r (fun z => Rabs (z - _) <= _) _ E4). refine (eq_ind_r (fun z => Rabs (rnd (_ / z) - _) <= _) _ L2).
    refine (eq_ind_r (fun z => Rabs (rnd (z / _) - _) <= _) _ E5).
    pose proof (half_err (rnd (fval fa + fval fb)) (rnd_format _)) as H5.
    pose proof (rnd_add_err (fval fa) (fval fb) (fval_format _) (fval_format _)) as H6.
    set (x := rnd (fval fa + fval fb)) in *. pose proof (Rabs_triang (fval fa) (fval fb)) as H7. set (y := fval fa + fval fb) in *.
    replace (rnd (x / 2) - y / 2) with ((rnd (/ 2 * x) - / 2 * x) + / 2 * (x - y)) by (replace (/ 2 * x) with (x / 2) by field; field).
    eapply Rle_trans; [apply Rabs_triang|]. rewrite (Rabs_mult (/ 2)), (Rabs_pos_eq (/ 2)) by lra. unfold g. cbn [pow]. nra. }
  assert (AX : Rabs ((fval fa + fval fb) / 2) <= (Rabs (fval fa) + Rabs (fval fb)) / 2).
  { unfold Rdiv. rewrite Rabs_mult, (Rabs_pos_eq (/ 2)) by lra. pose proof (Rabs_triang (fval fa) (fval fb)). lra. }
  refine (eq_ind_r (fun z => Rabs (z - _) <= _) _ E). rewrite (Rmult_comm _ (fval h)).
  refine (eq_ind_r (fun z => Rabs (rnd (_ * z) - _) <= _) _ E2).
  set (x := fval (ndiv (nadd fa fb) (@lit2 A))) in *. set (ex := (fval fa + fval fb) / 2) in *. set (ax := (Rabs (fval fa) + Rabs (fval fb)) / 2) in *.
  assert (PA : 0 <= ax) by (eapply Rle_trans; [apply Rabs_pos|exact AX]).
  assert (B : Rabs (rnd (x + fval s) - (ex + total vs)) <= (g (S (length vs + 1)) - 1) * (ax + abs_total vs) + (1 + uro) * eta).
  { apply add_err2; try apply fval_format; try assumption; try apply vsum_abs.
    - eapply Rle_trans; [exact EX|]. apply Rplus_le_compat_r, Rmult_le_compat_r; [exact PA|]. apply Rplus_le_compat_r, g_mono. lia.
    - eapply Rle_trans; [exact S2|]. apply Rmult_le_compat_r; [apply asum_pos|]. apply Rplus_le_compat_r, g_mono. lia. }
  replace (length vs + 3)%nat with (S (S (length vs + 1))) by lia. replace ((1 + uro) ^ 2) with ((1 + uro) * (1 + uro)) by ring.
  apply mul_err; [|exact B]. eapply Rle_trans; [apply Rabs_triang|]. pose proof (vsum_abs vs). lra.
Qed.
(** an exactly scaled sum *)
Lemma pow_mul : forall (k : Z) (z : Z) (s : A), (0 <= k)%Z -> (Z.abs z <= 2 ^ 53)%Z -> IZR z = bpow radix2 k -> ffin (nmul (nlit z 0) s) ->
  ffin s /\ fval (nmul (nlit z 0) s) = IZR z * fval s.
Proof.
  intros k z s Hk Hz Ez H. apply mul_finite_inv in H. destruct H as (_ & Hs & _ & E). split; [exact Hs|].
  refine (eq_trans E _). refine (eq_trans (f_equal (fun v => rnd (v * _)) (lit_val z Hz)) _). apply rnd_fmt. rewrite Ez. apply double_fmt; [exact Hk|apply fval_format].
Qed.
Lemma scaled_sum : forall z (s : A) vs k, 0 < IZR z -> sum_ok be s vs -> ffin s -> (length vs - 1 <= k)%nat ->
  Rabs (IZR z * fval s - IZR z * total vs) <= (g k - 1) * (IZR z * abs_total vs) /\ Rabs (IZR z * total vs) <= IZR z * abs_total vs.
Proof.
  intros z s vs k Hz [_ S2] Hs Hk. specialize (S2 Hs). rewrite <- Rmult_minus_distr_l, !Rabs_mult, (Rabs_pos_eq (IZR z)) by lra. split.
  - assert ((g (length vs - 1) - 1) * abs_total vs <= (g k - 1) * abs_total vs).
    { apply Rmult_le_compat_r; [apply asum_pos|]. apply Rplus_le_compat_r, g_mono. exact Hk. }
    replace ((g k - 1) * (IZR z * abs_total vs)) with (IZR z * ((g k - 1) * abs_total vs)) by ring. apply Rmult_le_compat_l; lra.
  - apply Rmult_le_compat_l; [lra|apply vsum_abs].
Qed.
Lemma exact_err : forall x k, Rabs (x - x) <= (g k - 1) * Rabs x.
Proof. intros x k. rewrite Rminus_diag_eq, Rabs_R0 by reflexivity. pose proof (g_ge1 k). apply Rmult_le_pos; [lra|apply Rabs_pos]. Qed.
Lemma simpson_shape : forall (h s1 s2 fl fa fb : A) (v1 v2 : list A) n, sum_ok be s1 v1 -> sum_ok be s2 v2 -> (length v1 <= n)%nat -> (length v2 <= n)%nat ->
  let r := nmul h (nadd (nadd (nadd (nadd (nmul lit2 s1) (nmul (nlit 4 0) s2)) (nmul (nlit 4 0) fl)) fa) fb) in ffin r ->
  Rabs (fval r - fval h * (2 * total v1 + 4 * total v2 + 4 * fval fl + fval fa + fval fb)) <=
  rule_bound (n + 5) 0 (fval h) (2 * abs_total v1 + 4 * abs_total v2 + 4 * Rabs (fval fl) + Rabs (fval fa) + Rabs (fval fb)).
Proof.
  intros h s1 s2 fl fa fb v1 v2 n O1 O2 L1 L2 r H. unfold r in *. apply mul_finite_inv in H. destruct H as (_ & H1 & _ & E0).
  apply add_finite_inv in H1. destruct H1 as (H1 & _ & _ & E1). apply add_finite_inv in H1. destruct H1 as (H1 & _ & _ & E2).
  apply add_finite_inv in H1. destruct H1 as (H1 & H3 & _ & E3). apply add_finite_inv in H1. destruct H1 as (H1 & H2 & _ & E4).
  destruct (pow_mul 1 2 s1 ltac:(lia) ltac:(lia) eq_refl H1) as [F1 M1].
  destruct (pow_mul 2 4 s2 ltac:(lia) ltac:(lia) eq_refl H2) as [F2 M2].
  destruct (pow_mul 2 4 fl ltac:(lia) ltac:(lia) eq_refl H3) as [F3 M3].
  destruct (scaled_sum 2 s1 v1 n ltac:(lra) O1 F1 ltac:(lia)) as [Q1 P1].
  destruct (scaled_sum 4 s2 v2 n ltac:(lra) O2 F2 ltac:(lia)) as [Q2 P2].
  set (A1 := nmul lit2 s1) in *. set (A2 := nmul (nlit 4 0) s2) in *. set (A3 := nmul (nlit 4 0) fl) in *.
  set (B4 := nadd A1 A2) in *. set (B3 := nadd B4 A3) in *. set (B2 := nadd B3 fa) in *. set (B1 := nadd B2 fb) in *.
  assert (C4 : Rabs (fval B4 - (2 * total v1 + 4 * total v2)) <= (g (S n) - 1) * (2 * abs_total v1 + 4 * abs_total v2)).
  { refine (eq_ind_r (fun z => Rabs (z - _) <= _) _ E4). apply add_err; try apply fval_format; try assumption.
    - refine (eq_ind_r (fun z => Rabs (z - _) <= _) _ M1). exact Q1.
    - refine (eq_ind_r (fun z => Rabs (z - _) <= _) _ M2). exact Q2. }
  assert (D4 : Rabs (2 * total v1 + 4 * total v2) <= 2 * abs_total v1 + 4 * abs_total v2) by (eapply Rle_trans; [apply Rabs_triang|lra]).
  assert (M4 : 4 * Rabs (fval fl) = Rabs (4 * fval fl)) by (rewrite Rabs_mult, (Rabs_pos_eq 4) by lra; reflexivity). rewrite M4.
  assert (C3 : Rabs (fval B3 - (2 * total v1 + 4 * total v2 + 4 * fval fl)) <= (g (S (S n)) - 1) * (2 * abs_total v1 + 4 * abs_total v2 + Rabs (4 * fval fl))).
  { refine (eq_ind_r (fun z => Rabs (z - _) <= _) _ E3). apply add_err; try apply fval_format; try assumption; [apply Rle_refl|].
    refine (eq_ind_r (fun z => Rabs (z - _) <= _) _ M3). apply exact_err. }
  assert (D3 : Rabs (2 * total v1 + 4 * total v2 + 4 * fval fl) <= 2 * abs_total v1 + 4 * abs_total v2 + Rabs (4 * fval fl)) by (eapply Rle_trans; [apply Rabs_triang|lra]).
  assert (C2 : Rabs (fval B2 - (2 * total v1 + 4 * total v2 + 4 * fval fl + fval fa)) <= (g (S (S (S n))) - 1) * (2 * abs_total v1 + 4 * abs_total v2 + Rabs (4 * fval fl) + Rabs (fval fa))).
  { refine (eq_ind_r (fun z => Rabs (z - _) <= _) _ E2). apply add_err; try apply fval_format; try assumption; [apply Rle_refl|apply exact_err]. }
  assert (D2 : Rabs (2 * total v1 + 4 * total v2 + 4 * fval fl + fval fa) <= 2 * abs_total v1 + 4 * abs_total v2 + Rabs (4 * fval fl) + Rabs (fval fa)) by (eapply Rle_trans; [apply Rabs_triang|lra]).
  assert (C1 : Rabs (fval B1 - (2 * total v1 + 4 * total v2 + 4 * fval fl + fval fa + fval fb)) <= (g (S (S (S (S n)))) - 1) * (2 * abs_total v1 + 4 * abs_total v2 + Rabs (4 * fval fl) + Rabs (fval fa) + Rabs (fval fb))).
  { refine (eq_ind_r (fun z => Rabs (z - _) <= _) _ E1). apply add_err; try apply fval_format; try assumption; [apply Rle_refl|apply exact_err]. }
  assert (D1 : Rabs (2 * total v1 + 4 * total v2 + 4 * fval fl + fval fa + fval fb) <= 2 * abs_total v1 + 4 * abs_total v2 + Rabs (4 * fval fl) + Rabs (fval fa) + Rabs (fval fb)) by (eapply Rle_trans; [apply Rabs_triang|lra]).
  refine (eq_ind_r (fun z => Rabs (z - _) <= _) _ E0). replace (n + 5)%nat with (S (S (S (S (S n))))) by lia.
  pose proof (mul_err (fval h) (fval B1) _ _ (S (S (S (S n)))) 0 D1) as M. rewrite Rmult_0_r in M. apply M. rewrite Rmult_0_l, Rplus_0_r. exact C1.
Qed.

Lemma ints_length : forall lo n, length (ints lo n) = n. Proof. intros. unfold ints. rewrite map_length, seq_length. reflexivity. Qed.
Notation step a b n := (ndiv (nsub b a) (nofZ n)).
Lemma midpoint_round : forall S (f : S -> A -> A * S) n (a b : A) s, (1 <= n)%Z ->
  let h := step a b n in
  let vs := fst (call_all f (map (fun i => nadd a (nmul h (nadd lit_half (nofZ i)))) (ints 0 (Z.to_nat n))) s) in
  let result := fst (midpoint_integrate f (midpoint_new n) a b s) in
  ffin result -> Rabs (fval result - fval h * total vs) <= rule_bound (Z.to_nat n) 0 (fval h) (abs_total vs).
Proof.
  intros S f n a b s Hn h vs result. unfold result. rewrite midpoint_calls by exact Hn. fold h. unfold vs.
  assert (L := call_all_length be S f (map (fun i => nadd a (nmul h (nadd lit_half (nofZ i)))) (ints 0 (Z.to_nat n))) s). rewrite map_length, ints_length in L.
  destruct (call_all f _ s) as [v s']. cbn [fst] in *. apply midpoint_shape; [apply float_sum_ok|exact L|lia].
Qed.
Lemma trapezoid_round : forall S (f : S -> A -> A * S) n (a b : A) s, (1 <= n)%Z ->
  let h := step a b n in
  let ends := call_all f [a; b] s in
  let vs := fst (call_all f (map (fun i => nadd a (nmul (nofZ i) h)) (ints 1 (Z.to_nat (n - 1)))) (snd ends)) in
  let fa := nth 0 (fst ends) a in let fb := nth 1 (fst ends) a in
  let result := fst (trapezoid_integrate f (trapezoid_new n) a b s) in
  ffin result -> Rabs (fval result - fval h * ((fval fa + fval fb) / 2 + total vs)) <=
    rule_bound (Z.to_nat n + 2) ((1 + uro) ^ 2) (fval h) ((Rabs (fval fa) + Rabs (fval fb)) / 2 + abs_total vs).
Proof.
  intros S f n a b s Hn h ends vs fa fb result. unfold result. rewrite trapezoid_calls by exact Hn. fold h. fold ends. unfold vs, fa, fb. clearbody ends.
  destruct ends as [e s1]. cbn [fst snd].
  assert (L := call_all_length be S f (map (fun i => nadd a (nmul (nofZ i) h)) (ints 1 (Z.to_nat (n - 1)))) s1). rewrite map_length, ints_length in L.
  destruct (call_all f _ s1) as [v s']. cbn [fst] in *. replace (Z.to_nat n + 2)%nat with (length v + 3)%nat by lia. apply trapezoid_shape. apply float_sum_ok.
Qed.
Lemma simpson_round : forall S (f : S -> A -> A * S) n (a b : A) s, (1 <= n)%Z ->
  let h := step a b n in let c := ndiv h (nlit 6 0) in
  let c1 := call_all f (map (fun i => nadd a (nmul (nofZ i) h)) (ints 1 (Z.to_nat (n - 1)))) s in
  let c2 := call_all f (map (fun i => nadd a (ndiv (nmul (nsub (nmul lit2 (nofZ i)) lit1) h) lit2)) (ints 1 (Z.to_nat (n - 1)))) (snd c1) in
  let c3 := fst (call_all f [nadd a (ndiv (nmul (nsub (nmul lit2 (nofZ n)) lit1) h) lit2); a; b] (snd c2)) in
  let fl := nth 0 c3 a in let fa := nth 1 c3 a in let fb := nth 2 c3 a in
  let result := fst (simpson_integrate f (simpson_new n) a b s) in
  ffin result -> Rabs (fval result - fval c * (2 * total (fst c1) + 4 * total (fst c2) + 4 * fval fl + fval fa + fval fb)) <=
    rule_bound (Z.to_nat n + 4) 0 (fval c) (2 * abs_total (fst c1) + 4 * abs_total (fst c2) + 4 * Rabs (fval fl) + Rabs (fval fa) + Rabs (fval fb)).
Proof.
  intros S f n a b s Hn h c c1 c2 c3 fl fa fb result. unfold result. rewrite simpson_calls by exact Hn. fold h. fold c. fold c1.
  assert (L1 := call_all_length be S f (map (fun i => nadd a (nmul (nofZ i) h)) (ints 1 (Z.to_nat (n - 1)))) s). rewrite map_length, ints_length in L1. fold c1 in L1.
  unfold fl, fa, fb, c3, c2. clearbody c1. destruct c1 as [v1 s1]. cbn [fst snd] in *.
  assert (L2 := call_all_length be S f (map (fun i => nadd a (ndiv (nmul (nsub (nmul lit2 (nofZ i)) lit1) h) lit2)) (ints 1 (Z.to_nat (n - 1)))) s1). rewrite map_length, ints_length in L2.
  destruct (call_all f _ s1) as [v2 s2]. cbn [fst snd] in *. destruct (call_all f _ s2) as [v3 s3]. cbn [fst snd] in *.
  replace (Z.to_nat n + 4)%nat with (Z.to_nat (n - 1) + 5)%nat by lia.
  apply simpson_shape; try apply float_sum_ok; lia.
Qed.
Lemma zrange_ints : forall lo hi, zrange lo hi = ints lo (Z.to_nat (hi - lo)). Proof. reflexivity. Qed.
Lemma midpoint_par_round : forall t (f : A -> A) n (a b : A), (1 <= n)%Z ->
  let h := step a b n in
  let vs := map f (map (fun i => nadd a (nmul h (nadd lit_half (nofZ i)))) (ints 0 (Z.to_nat n))) in
  let result := midpoint_par_integrate f t (midpoint_new n) a b in
  ffin result -> Rabs (fval result - fval h * total vs) <= rule_bound (Z.to_nat n) 0 (fval h) (abs_total vs).
Proof.
  intros t f n a b Hn h vs result. unfold result, midpoint_par_integrate. cbn [midpoint_degree midpoint_new]. fold h.
  apply midpoint_shape; [|unfold vs; rewrite !map_length, ints_length; reflexivity|lia].
  unfold vs. rewrite map_map. replace (zrange 0 n) with (ints 0 (Z.to_nat n)) by (rewrite zrange_ints; f_equal; lia). apply par_sum_ok.
Qed.
Lemma trapezoid_par_round : forall t (f : A -> A) n (a b : A), (1 <= n)%Z ->
  let h := step a b n in
  let vs := map f (map (fun i => nadd a (nmul (nofZ i) h)) (ints 1 (Z.to_nat (n - 1)))) in
  let result := trapezoid_par_integrate f t (trapezoid_new n) a b in
  ffin result -> Rabs (fval result - fval h * ((fval (f a) + fval (f b)) / 2 + total vs)) <=
    rule_bound (Z.to_nat n + 2) ((1 + uro) ^ 2) (fval h) ((Rabs (fval (f a)) + Rabs (fval (f b))) / 2 + abs_total vs).
Proof.
  intros t f n a b Hn h vs result. unfold result, trapezoid_par_integrate. cbn [trapezoid_degree trapezoid_new]. fold h.
  replace (Z.to_nat n + 2)%nat with (length vs + 3)%nat by (unfold vs; rewrite !map_length, ints_length; lia).
  apply trapezoid_shape. unfold vs. rewrite map_map. rewrite zrange_ints. apply par_sum_ok.
Qed.
Lemma simpson_par_round : forall t1 t2 (f : A -> A) n (a b : A), (1 <= n)%Z ->
  let h := step a b n in let c := ndiv h (nlit 6 0) in
  let v1 := map f (map (fun i => nadd a (nmul (nofZ i) h)) (ints 1 (Z.to_nat (n - 1)))) in
  let v2 := map f (map (fun i => nadd a (ndiv (nmul (nsub (nmul lit2 (nofZ i)) lit1) h) lit2)) (ints 1 (Z.to_nat (n - 1)))) in
  let fl := f (nadd a (ndiv (nmul (nsub (nmul lit2 (nofZ n)) lit1) h) lit2)) in
  let result := simpson_par_integrate f t1 t2 (simpson_new n) a b in
  ffin result -> Rabs (fval result - fval c * (2 * total v1 + 4 * total v2 + 4 * fval fl + fval (f a) + fval (f b))) <=
    rule_bound (Z.to_nat n + 4) 0 (fval c) (2 * abs_total v1 + 4 * abs_total v2 + 4 * Rabs (fval fl) + Rabs (fval (f a)) + Rabs (fval (f b))).
Proof.
  intros t1 t2 f n a b Hn h c v1 v2 fl result. unfold result, simpson_par_integrate. cbn [simpson_degree simpson_new]. fold h. fold c. fold fl.
  replace (Z.to_nat n + 4)%nat with (Z.to_nat (n - 1) + 5)%nat by lia.
  apply simpson_shape.
  - unfold v1. rewrite map_map, zrange_ints. apply par_sum_ok.
  - unfold v2. rewrite map_map, zrange_ints. apply par_sum_ok.
  - unfold v1. rewrite !map_length, ints_length. lia.
  - unfold v2. rewrite !map_length, ints_length. lia.
Qed.
End F.
