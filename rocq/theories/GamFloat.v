(** The gamma function in double arithmetic: rounding errors of src/math.rs:118-136. *)
From Coq Require Import Reals ZArith List Lra Lia Psatz.
From Coquelicot Require Import Rcomplements.
From Flocq Require Import Core Relative IEEE754.Binary.
From Verif Require Import Arith RInst RInstProof F64 F64Spec F64Proof RoundSpec RoundProof RoundRules AccF64 AccCount LegBigPoly LegBigFloat Gamma GammaProof GamNum ChebFloat LegAsym LegBig GamFloatSpec.
Local Open Scope R_scope.

(** the sum of the sizes of the terms *)
Definition lanczos_abs (y : R) : R :=
  24857408913875355 / 1000000000000000000000 + 10514237858172197 / 10000000000000000 / y + 34568709722201625 / 10000000000000000 / (y + 1)
  + 4512277094668948 / 1000000000000000 / (y + 2) + 29828522532357664 / 10000000000000000 / (y + 3) + 1056397115771267 / 1000000000000000 / (y + 4)
  + 19542877319164587 / 100000000000000000 / (y + 5) + 1709705434044412 / 100000000000000000 / (y + 6) + 5719261174043057 / 10000000000000000000 / (y + 7)
  + 4633994733599057 / 1000000000000000000000 / (y + 8) + 27199490848860772 / 10000000000000000000000000 / (y + 9).
Definition lanczos_slack (y : R) : R :=
  19519620339408563351093760000000000 + y * (18666664879253434594384854685409280 + y * (7996536484853456551167062641815936 + y * (2006108731859982516735778131936096 + y * (321393128312795576655509384496736 + y * (33304356673768412293684665405896 + y * (2118373281745890287518090908544 + y * (69384292596612986153409501584 + y * (529327247211474700054920544 + y * (11981880951942441688904 + y * (1271705040033863161800000)))))))))).
(** cancellation costs at most a factor of 5117 *)
Lemma cancellation : forall y, 0 < y -> lanczos_abs y <= 5117 * lanczos y.
Proof.
  intros y Hy. rewrite lanczos_frac by exact Hy.
  assert (E : 5117 * (lanczos_num y / lanczos_den y) - lanczos_abs y = lanczos_slack y / lanczos_den y).
  { unfold lanczos_num, lanczos_den, lanczos_abs, lanczos_slack. field. repeat split; lra. }
  assert (0 < lanczos_slack y / lanczos_den y); [|lra]. apply Rdiv_lt_0_compat.
  - unfold lanczos_slack. repeat (apply Rplus_lt_0_compat; [lra|apply Rmult_lt_0_compat; [exact Hy|]]). lra.
  - unfold lanczos_den. repeat (apply Rmult_lt_0_compat; try lra).
Qed.
Lemma lanczos_abs_size : forall y, / 2 <= y -> lanczos_abs y <= 1328 / 100 / y + 25 / 10 ^ 6.
Proof.
  intros y Hy. assert (I : forall c a, 0 <= c -> 0 <= a -> c / (y + a) <= c / y).
  { intros c a Hc Ha. unfold Rdiv. apply Rmult_le_compat_l; [exact Hc|]. apply Rinv_le_contravar; lra. }
  unfold lanczos_abs.
  assert (X1 := I (34568709722201625 / 10000000000000000) 1 ltac:(lra) ltac:(lra)). assert (X2 := I (4512277094668948 / 1000000000000000) 2 ltac:(lra) ltac:(lra)).
  assert (X3 := I (29828522532357664 / 10000000000000000) 3 ltac:(lra) ltac:(lra)). assert (X4 := I (1056397115771267 / 1000000000000000) 4 ltac:(lra) ltac:(lra)).
  assert (X5 := I (19542877319164587 / 100000000000000000) 5 ltac:(lra) ltac:(lra)). assert (X6 := I (1709705434044412 / 100000000000000000) 6 ltac:(lra) ltac:(lra)).
  assert (X7 := I (5719261174043057 / 10000000000000000000) 7 ltac:(lra) ltac:(lra)). assert (X8 := I (4633994733599057 / 1000000000000000000000) 8 ltac:(lra) ltac:(lra)).
  assert (X9 := I (27199490848860772 / 10000000000000000000000000) 9 ltac:(lra) ltac:(lra)).
  assert (Iy : 0 < / y) by (apply Rinv_0_lt_compat; lra). unfold Rdiv in *. lra.
Qed.
Lemma lanczos_below : forall y, / 2 <= y -> lanczos y <= lanczos_abs y.
Proof.
  intros y Hy. unfold lanczos, gamma_fold, gamma_dk. cbn [length seq map combine fold_left fst snd Z.of_nat Pos.of_succ_nat Pos.succ].
  simpl nadd. simpl ndiv. simpl nlit. unfold R_lit. simpl. unfold lanczos_abs.
  assert (I : forall a, 0 <= a -> 0 < / (y + a)) by (intros; apply Rinv_0_lt_compat; lra).
  assert (Q1 := I 1 ltac:(lra)). assert (Q3 := I 3 ltac:(lra)). assert (Q5 := I 5 ltac:(lra)). assert (Q7 := I 7 ltac:(lra)). assert (Q9 := I 9 ltac:(lra)).
  replace (y + 1 - 1) with y by ring. replace (y + 2 - 1) with (y + 1) by ring. replace (y + 3 - 1) with (y + 2) by ring. replace (y + 4 - 1) with (y + 3) by ring.
  replace (y + 5 - 1) with (y + 4) by ring. replace (y + 6 - 1) with (y + 5) by ring. replace (y + 7 - 1) with (y + 6) by ring. replace (y + 8 - 1) with (y + 7) by ring.
  replace (y + 9 - 1) with (y + 8) by ring. replace (y + 10 - 1) with (y + 9) by ring. unfold Rdiv in *. lra.
Qed.
Lemma lanczos_above : forall y, 0 < y -> 4 / 10 ^ 9 <= lanczos y.
Proof.
  intros y Hy. assert (C := cancellation y Hy). assert (24 / 10 ^ 6 <= lanczos_abs y); [|lra]. unfold lanczos_abs.
  assert (I : forall a c, 0 <= a -> 0 <= c -> 0 <= c / (y + a)) by (intros; apply Rmult_le_pos; [lra|left; apply Rinv_0_lt_compat; lra]).
  assert (X0 := I 0 (10514237858172197 / 10000000000000000) ltac:(lra) ltac:(lra)). rewrite Rplus_0_r in X0.
  assert (X1 := I 1 (34568709722201625 / 10000000000000000) ltac:(lra) ltac:(lra)). assert (X2 := I 2 (4512277094668948 / 1000000000000000) ltac:(lra) ltac:(lra)).
  assert (X3 := I 3 (29828522532357664 / 10000000000000000) ltac:(lra) ltac:(lra)). assert (X4 := I 4 (1056397115771267 / 1000000000000000) ltac:(lra) ltac:(lra)).
  assert (X5 := I 5 (19542877319164587 / 100000000000000000) ltac:(lra) ltac:(lra)). assert (X6 := I 6 (1709705434044412 / 100000000000000000) ltac:(lra) ltac:(lra)).
  assert (X7 := I 7 (5719261174043057 / 10000000000000000000) ltac:(lra) ltac:(lra)). assert (X8 := I 8 (4633994733599057 / 1000000000000000000000) ltac:(lra) ltac:(lra)).
  assert (X9 := I 9 (27199490848860772 / 10000000000000000000000000) ltac:(lra) ltac:(lra)). lra.
Qed.

Section F.
Variable be : Backend.
Notation A := (F64 be).

(** differences whose result is measured against its own size *)
Lemma apx_diff : forall (x y : A) (v w : RA) Q P R c d e, apx x v Q c -> apx y w P d -> Rabs (v - w) <= R ->
  1001 / 1000 * (c * Q + d * P) + 101 / 100 * R <= e * R -> rng R -> cnt e -> apx (nsub x y : A) (nsub v w : RA) R e.
Proof.
  intros x y v w Q P R c d e (Fx & Bx & Ex & Rx & Cx) (Fy & By & Ey & Ry & Cy) M He Hr Hc. cbn [nsub RA].
  pose proof (rng_pos Q Rx) as Qp. pose proof (rng_pos P Ry) as Pp. pose proof (rng_pos R Hr) as Rp. pose proof (ex_hi c Cx). pose proof (ex_hi d Cy). pose proof uro_num.
  assert (e2 : 101 / 100 <= e). { apply (Rmult_le_reg_r R); [exact Rp|]. destruct Cx, Cy. assert (0 <= c * Q) by (apply Rmult_le_pos; lra). assert (0 <= d * P) by (apply Rmult_le_pos; lra). lra. }
  assert (Z : Rabs (fval x - fval y - (v - w)) <= ex (e - 101 / 100) * R).
  { replace (fval x - fval y - (v - w)) with ((fval x - v) + - (fval y - w)) by ring. eapply Rle_trans; [apply Rabs_triang|]. rewrite Rabs_Ropp.
    apply Rle_trans with (1001 / 1000 * (c * uro) * Q + 1001 / 1000 * (d * uro) * P).
    - apply Rplus_le_compat; (eapply Rle_trans; [eassumption|apply Rmult_le_compat_r; lra]).
    - apply Rle_trans with ((e - 101 / 100) * uro * R); [|apply Rmult_le_compat_r; [lra|apply ex_lo; lra]].
      replace (1001 / 1000 * (c * uro) * Q + 1001 / 1000 * (d * uro) * P) with (uro * (1001 / 1000 * (c * Q + d * P))) by ring.
      replace ((e - 101 / 100) * uro * R) with (uro * (e * R - 101 / 100 * R)) by ring. apply Rmult_le_compat_l; lra. }
  destruct (round_apx (fval x - fval y) (v - w) R (e - 101 / 100) e) as [O E]; try lra; try assumption.
  destruct (sub_finite be x y Fx Fy O) as [F1 E1]. split; [exact F1|]. split; [lra|]. rewrite E1. auto.
Qed.

(** one term of the sum *)
Lemma term_apx : forall (s den : A) (v dv : RA) Q c m e C, apx s v Q c -> apx den dv dv (41 / 10) -> / 2 <= dv <= 200 -> (e < 0)%Z -> Rabs (R_lit m e) = C ->
  1 / 10 ^ 12 <= C <= 10 -> 0 <= Q <= 1000 -> 62 / 10 <= c <= 100 -> rng (Q + C / dv) -> 
  apx (nadd s (ndiv (nlit m e) den) : A) (nadd v (ndiv (nlit m e) dv) : RA) (Q + C / dv) (c + 101 / 100).
Proof.
  intros s den v dv Q c m e C Hs Hd Hdv He HC HCr HQ Hc HR.
  assert (Cd : 1 / 10 ^ 12 / 200 <= C / dv <= 20).
  { unfold Rdiv. split; [apply Rmult_le_compat; try lra; apply Rinv_le_contravar; lra|].
    apply Rle_trans with (10 * 2); [|lra]. apply Rmult_le_compat; try lra; [left; apply Rinv_0_lt_compat; lra|]. replace 2 with (/ / 2) by lra. apply Rinv_le_contravar; lra. }
  apply (apx_add be _ _ _ _ Q (C / dv) _ c (619 / 100)); try lra; [exact Hs| |exact HR|split; lra].
  apply (apx_div be _ _ _ _ C dv _ (101 / 100) (41 / 10)); try lra; [apply apx_lit; [exact He|lra|apply LegBigFloat.rng_of; lra]|exact Hd|rewrite Rabs_pos_eq; lra|apply LegBigFloat.rng_of; lra|split; lra].
Qed.

Lemma fold_apx : forall (den : Z -> A) y, / 2 <= y <= 190 ->
  (forall k, (1 <= k <= 10)%Z -> apx (den k) (y + IZR k - 1) (y + IZR k - 1) (41 / 10)) ->
  apx (gamma_fold den) (lanczos y) (lanczos y) 83800.
Proof.
  intros den y Hy Hden. assert (LA := lanczos_above y ltac:(lra)). assert (LB := lanczos_below y ltac:(lra)). assert (LC := cancellation y ltac:(lra)). assert (LS := lanczos_abs_size y ltac:(lra)).
  assert (Iy : 0 < / y <= 2). { split; [apply Rinv_0_lt_compat; lra|]. replace 2 with (/ / 2) by lra. apply Rinv_le_contravar; lra. }
  apply (apx_rescale _ _ (lanczos_abs y) (163 / 10)); [|rewrite Rabs_pos_eq; lra|lra|apply LegBigFloat.rng_of; unfold Rdiv in LS; lra|split; lra].
  unfold lanczos, gamma_fold, gamma_dk, lanczos_abs. cbn [length seq map combine fold_left fst snd Z.of_nat Pos.of_succ_nat Pos.succ].
  assert (I : forall a, 0 <= a -> 0 < / (y + a) <= 2). { intros a Ha. split; [apply Rinv_0_lt_compat; lra|]. replace 2 with (/ / 2) by lra. apply Rinv_le_contravar; lra. }
  assert (J : forall k d, (1 <= k <= 10)%Z -> y + IZR k - 1 = d -> apx (den k) d d (41 / 10)) by (intros k d Hk <-; apply Hden, Hk).
  assert (Q1 := I 1 ltac:(lra)). assert (Q2 := I 2 ltac:(lra)). assert (Q3 := I 3 ltac:(lra)). assert (Q4 := I 4 ltac:(lra)). assert (Q5 := I 5 ltac:(lra)).
  assert (Q6 := I 6 ltac:(lra)). assert (Q7 := I 7 ltac:(lra)). assert (Q8 := I 8 ltac:(lra)). assert (Q9 := I 9 ltac:(lra)).
  replace (y + 1 - 1) with y by ring. replace (y + 2 - 1) with (y + 1) by ring. replace (y + 3 - 1) with (y + 2) by ring. replace (y + 4 - 1) with (y + 3) by ring.
  replace (y + 5 - 1) with (y + 4) by ring. replace (y + 6 - 1) with (y + 5) by ring. replace (y + 7 - 1) with (y + 6) by ring. replace (y + 8 - 1) with (y + 7) by ring.
  replace (y + 9 - 1) with (y + 8) by ring. replace (y + 10 - 1) with (y + 9) by ring.
  eapply apx_weaken with (c := ((((((((((62 / 10 + 101 / 100) + 101 / 100) + 101 / 100) + 101 / 100) + 101 / 100) + 101 / 100) + 101 / 100) + 101 / 100) + 101 / 100) + 101 / 100)); [|apply Rle_refl|lra|apply LegBigFloat.rng_of; unfold Rdiv; lra|split; lra].
  Ltac one J := apply term_apx; [|apply J; [lia|ring]|lra|reflexivity|unfold R_lit; simpl; first [rewrite Rabs_pos_eq by lra; reflexivity|rewrite Rabs_left by lra; lra]|lra|unfold Rdiv; lra|lra|apply LegBigFloat.rng_of; unfold Rdiv; lra].
  one J. one J. one J. one J. one J. one J. one J. one J. one J. one J.
  apply (apx_weaken _ _ (24857408913875355 / 1000000000000000000000) (101 / 100)); [|apply Rle_refl|lra|apply LegBigFloat.rng_of; lra|split; lra].
  apply apx_lit; [reflexivity|unfold R_lit; simpl; rewrite Rabs_pos_eq; lra|apply LegBigFloat.rng_of; lra].
Qed.

Lemma apx_eul : apx (neul : A) (exp 1) (exp 1) 1.
Proof.
  assert (V : ffin (neul : A) /\ fval (neul : A) = 6121026514868073 / 2251799813685248).
  { change (neul : A) with (f64_lit 271828182845904523536028747135266250 (-35)). split; [vm_compute; reflexivity|]. set (x := f64_lit 271828182845904523536028747135266250 (-35)).
    assert (E : B2SF 53 1024 x = SpecFloat.S754_finite false 6121026514868073 (-51)) by (vm_compute; reflexivity).
    unfold fval. destruct x as [|?|?|s m ex h]; try discriminate E. cbn in E. injection E as -> -> ->. unfold B2R, F2R. cbn [Fnum Fexp SpecFloat.cond_Zopp].
    change (bpow radix2 (-51)) with (/ IZR (2 ^ 51)). change (2 ^ 51)%Z with 2251799813685248%Z. reflexivity. }
  destruct V as [F E]. assert (B := e_bounds). split; [exact F|]. split; [rewrite Rabs_pos_eq; lra|]. split; [|split; [apply LegBigFloat.rng_of; lra|split; lra]].
  rewrite E. apply Rle_trans with (1 * uro * exp 1); [|apply Rmult_le_compat_r; [lra|apply ex_lo; lra]]. rewrite uro_eq. apply Rabs_le. lra.
Qed.

(** the denominators above 1/2 *)
Lemma den_hi : forall (x : A) k, ffin x -> / 2 <= fval x <= 190 -> (1 <= k <= 10)%Z ->
  apx (nsub (nadd x (nofZ k)) lit1 : A) (fval x + IZR k - 1) (fval x + IZR k - 1) (41 / 10).
Proof.
  intros x k Fx Hx Hk. assert (K : 1 <= IZR k <= 10) by (split; apply IZR_le; lia).
  assert (X : apx x (fval x) (fval x) 0). { assert (Y := apx_exact x (fval x) Fx eq_refl). rewrite Rabs_pos_eq in Y by lra. apply Y, LegBigFloat.rng_of. lra. }
  assert (Y := apx_Z be k ltac:(lia)).
  assert (S : apx (nadd x (nofZ k) : A) (fval x + IZR k) (fval x + IZR k) (101 / 100)) by (apply (apx_add be _ _ _ _ (fval x) (IZR k) _ 0 0); try assumption; try lra; [apply LegBigFloat.rng_of; lra|split; lra]).
  assert (D := apx_diff _ (lit1 : A) _ (lit1 : RA) _ 1 (fval x + IZR k - 1) _ 0 (41 / 10) S (apx_one be)). cbn [nsub nadd RA] in D. replace (lit1 : RA) with 1 in D by (symmetry; exact rl1).
  apply D; [rewrite Rabs_pos_eq; lra|lra|apply LegBigFloat.rng_of; lra|split; lra].
Qed.
(** below *)
Lemma den_lo : forall (x : A) k, ffin x -> / 10 ^ 19 <= Rabs (fval x) -> -1 < fval x < / 2 -> (1 <= k <= 10)%Z ->
  apx (nsub (nofZ k) x : A) (1 - fval x + IZR k - 1) (1 - fval x + IZR k - 1) (41 / 10).
Proof.
  intros x k Fx Hx Hr Hk. assert (K : 1 <= IZR k <= 10) by (split; apply IZR_le; lia).
  assert (Xb : Rabs (fval x) <= 1) by (apply Rabs_le; lra).
  assert (X := apx_exact x (fval x) Fx eq_refl ltac:(apply LegBigFloat.rng_of; lra)). assert (Y := apx_Z be k ltac:(lia)).
  assert (D := apx_diff _ x _ (fval x) _ _ (IZR k - fval x) _ 0 (41 / 10) Y X). cbn [nsub nofZ RA] in D.
  replace (1 - fval x + IZR k - 1) with (IZR k - fval x) by ring.
  apply D; [rewrite Rabs_pos_eq; lra|lra|apply LegBigFloat.rng_of; lra|split; lra].
Qed.

(** the base of the power; [z] is the exponent *)
Lemma base_apx : forall (z : A) v, ffin z -> 0 <= v <= 190 -> Rabs (fval z - v) <= uro * v + eta ->
  apx (ndiv (nadd z gamma_r) neul : A) ((v + gamma_g) / exp 1) ((v + gamma_g) / exp 1) (43 / 10).
Proof.
  intros z v Fz Hv Hz. assert (B := e_bounds). assert (U := uro_num). assert (Et := eta_num).
  assert (Z : apx z v (v + 1) 1).
  { split; [exact Fz|]. split; [rewrite Rabs_pos_eq; lra|]. split; [|split; [apply LegBigFloat.rng_of; lra|split; lra]].
    eapply Rle_trans; [exact Hz|]. apply Rle_trans with (1 * uro * (v + 1)); [rewrite uro_eq; lra|apply Rmult_le_compat_r; [lra|apply ex_lo; lra]]. }
  assert (G : @gamma_r RA = gamma_g) by (unfold gamma_r; cbn [nlit RA]; unfold R_lit, gamma_g; simpl; lra).
  assert (Gv : gamma_g = 10900511 / 1000000) by reflexivity.
  assert (R : apx (@gamma_r A) (@gamma_r RA) gamma_g (101 / 100)). { apply apx_lit; [reflexivity| |apply LegBigFloat.rng_of; lra]. change (Rabs (@gamma_r RA) <= gamma_g). rewrite G, Rabs_pos_eq; lra. }
  assert (S := apx_sum be _ _ _ _ _ _ (v + gamma_g) _ _ (22 / 10) Z R). cbn [nadd RA] in S. rewrite G in S. specialize (S ltac:(rewrite Rabs_pos_eq; lra) ltac:(lra) ltac:(apply LegBigFloat.rng_of; lra) ltac:(split; lra)).
  assert (P : 2 <= (v + gamma_g) / exp 1 <= 100). { split; [apply Rmult_le_reg_r with (exp 1)|apply Rmult_le_reg_r with (exp 1)]; try lra; unfold Rdiv; rewrite Rmult_assoc, Rinv_l; lra. }
  assert (D := apx_div be _ _ _ _ _ _ ((v + gamma_g) / exp 1) _ _ (43 / 10) S apx_eul).
  apply D; [rewrite Rabs_pos_eq; lra|lra|lra|apply LegBigFloat.rng_of; lra|split; lra].
Qed.

Lemma ln_close : forall b c d, 0 < b -> Rabs (c - b) <= d * b -> 0 <= d <= 1 / 1000 -> 0 < c /\ Rabs (ln c - ln b) <= d * (1 + 2 * d).
Proof.
  intros b c d Hb H Hd. apply Rabs_le_inv in H. assert (Hc : 0 < c) by nra. split; [exact Hc|].
  assert (L : forall u v, 0 < u -> 0 < v -> ln u - ln v <= u / v - 1).
  { intros u v Hu Hv. rewrite <- ln_div by assumption. assert (Huv : 0 < u / v) by (apply Rdiv_lt_0_compat; assumption).
    apply Rle_trans with (ln (exp (u / v - 1))); [|rewrite ln_exp; lra]. apply ln_le; [exact Huv|]. assert (X := exp_ineq1_le (u / v - 1)). lra. }
  assert (U := L c b Hc Hb). assert (V := L b c Hb Hc).
  assert (c / b <= 1 + d) by (apply Rmult_le_reg_r with b; [exact Hb|unfold Rdiv; rewrite Rmult_assoc, Rinv_l; lra]).
  assert (b / c <= 1 + d * (1 + 2 * d)).
  { apply Rmult_le_reg_r with c; [exact Hc|]. unfold Rdiv. rewrite Rmult_assoc, Rinv_l, Rmult_1_r by lra.
    apply Rle_trans with ((1 + d * (1 + 2 * d)) * ((1 - d) * b)); [|apply Rmult_le_compat_l; nra]. assert (1 <= (1 + d * (1 + 2 * d)) * (1 - d)) by nra. nra. }
  apply Rabs_le. nra.
Qed.
Lemma exp_close : forall a b d, Rabs (a - b) <= d -> Rabs (exp a - exp b) <= (exp d - 1) * exp b.
Proof.
  intros a b d H. apply Rabs_le_inv in H. assert (P := exp_pos b). assert (M : forall u v, u <= v -> exp u <= exp v).
  { intros u v [L| ->]; [left; apply exp_increasing, L|lra]. }
  replace a with (b + (a - b)) by ring. rewrite exp_plus. assert (M1 := M (a - b) d ltac:(lra)). assert (M2 := M (- d) (a - b) ltac:(lra)).
  assert (D0 := exp_ineq1_le d). assert (E : exp (- d) * exp d = 1) by (rewrite <- exp_plus, Rplus_opp_l; apply exp_0). assert (P2 := exp_pos (- d)).
  assert (1 <= exp d) by lra. assert (1 - exp (- d) <= exp d - 1) by nra.
  replace (exp b * exp (a - b) - exp b) with ((exp (a - b) - 1) * exp b) by ring. apply Rabs_le. split; nra.
Qed.
Lemma ln_base : forall v, 0 <= v <= 1685 / 10 -> 4 <= (v + gamma_g) / exp 1 <= 66 /\ 0 <= ln ((v + gamma_g) / exp 1) <= 43 / 10.
Proof.
  intros v Hv. assert (B := e_bounds). assert (Gv : gamma_g = 10900511 / 1000000) by reflexivity.
  assert (P : 4 <= (v + gamma_g) / exp 1 <= 66). { split; [apply Rmult_le_reg_r with (exp 1)|apply Rmult_le_reg_r with (exp 1)]; try lra; unfold Rdiv; rewrite Rmult_assoc, Rinv_l; lra. }
  split; [exact P|]. split; [rewrite <- ln_1; apply ln_le; lra|]. rewrite <- (ln_exp (43 / 10)). apply ln_le; [lra|].
  replace (43 / 10) with (1 + 1 + 1 + 1 + 3 / 10) by lra. rewrite !exp_plus. assert (E := exp_ineq1_le (3 / 10)).
  assert (2718 / 1000 * (2718 / 1000) <= exp 1 * exp 1) by nra. assert (7387 / 1000 * (2718 / 1000) <= exp 1 * exp 1 * exp 1) by nra. assert (20077 / 1000 * (2718 / 1000) <= exp 1 * exp 1 * exp 1 * exp 1) by nra. nra.
Qed.

(** finite, and off by at most [c] roundings; unlike [apx] without a limit on the size *)
Definition relx (x : f64) (v c : R) : Prop := ffin x /\ 0 < v /\ Rabs (fval x - v) <= ex c * v /\ cnt c.
Lemma relx_mul : forall (x y : A) v w c d, relx x v c -> relx y w d -> bpow radix2 (-1000) <= v * w <= bpow radix2 1022 -> cnt (c + d + 101 / 100) ->
  relx (nmul x y : A) (v * w) (c + d + 101 / 100).
Proof.
  intros x y v w c d (Fx & Pv & Ex & Cx) (Fy & Pw & Ey & Cy) Hs Hc. assert (U := uro_num).
  assert (Sc := ex_small c Cx). assert (Sd := ex_small d Cy).
  assert (P : Rabs (fval x * fval y - v * w) <= ex (c + d) * (v * w)).
  { rewrite ex_plus. replace (fval x * fval y - v * w) with ((fval x - v) * (fval y - w) + (fval x - v) * w + v * (fval y - w)) by ring.
    eapply Rle_trans; [apply Rabs_triang|]. eapply Rle_trans; [apply Rplus_le_compat_r, Rabs_triang|]. rewrite !Rabs_mult, (Rabs_pos_eq v), (Rabs_pos_eq w) by lra.
    assert (P1 := Rabs_pos (fval x - v)). assert (P2 := Rabs_pos (fval y - w)).
    assert (Rabs (fval x - v) * Rabs (fval y - w) <= (ex c * v) * (ex d * w)) by (apply Rmult_le_compat; assumption).
    assert (Rabs (fval x - v) * w <= ex c * v * w) by (apply Rmult_le_compat_r; lra). assert (v * Rabs (fval y - w) <= v * (ex d * w)) by (apply Rmult_le_compat_l; lra). lra. }
  assert (VW : 0 < v * w) by (apply Rmult_lt_0_compat; assumption). set (z := fval x * fval y) in *. set (m := v * w) in *.
  assert (Ccd : cnt (c + d)) by (destruct Hc, Cx, Cy; split; lra). assert (S := ex_small _ Ccd).
  assert (Zb : Rabs z <= (1 + ex (c + d)) * m). { replace z with ((z - m) + m) by ring. eapply Rle_trans; [apply Rabs_triang|]. rewrite (Rabs_pos_eq m) by lra. lra. }
  assert (O : no_overflow z). { apply no_overflow_small. eapply Rle_trans; [exact Zb|]. change 1023%Z with (1 + 1022)%Z. rewrite bpow_plus. change (bpow radix2 1) with 2. apply Rmult_le_compat; lra. }
  destruct (mul_finite be x y Fx Fy O) as [F1 E1]. split; [exact F1|]. split; [exact VW|]. split; [|exact Hc]. change (Rabs (fval (nmul x y : A) - m) <= ex (c + d + 101 / 100) * m). rewrite E1. fold z.
  assert (R := rnd_err z). assert (Et : eta <= uro / 100 * m).
  { unfold eta. apply Rle_trans with (bpow radix2 (-53) / 100 * bpow radix2 (-1000)); [|apply Rmult_le_compat; [assert (Y := bpow_ge_0 radix2 (-53)); lra|apply bpow_ge_0|unfold uro; lra|lra]].
    apply Rle_trans with (bpow radix2 (-60) * bpow radix2 (-1000)); [rewrite <- bpow_plus; apply bpow_le; lia|]. apply Rmult_le_compat_r; [apply bpow_ge_0|]. simpl. lra. }
  replace (rnd z - m) with ((rnd z - z) + (z - m)) by ring. eapply Rle_trans; [apply Rabs_triang|]. rewrite ex_plus. assert (L := ex_lo (101 / 100) ltac:(lra)).
  assert (uro * Rabs z <= uro * ((1 + ex (c + d)) * m)) by (apply Rmult_le_compat_l; lra).
  assert (101 / 100 * uro * ((1 + ex (c + d)) * m) <= ex (101 / 100) * ((1 + ex (c + d)) * m)) by (apply Rmult_le_compat_r; [apply Rmult_le_pos; lra|exact L]).
  assert (0 <= uro * ex (c + d) * m) by (apply Rmult_le_pos; [apply Rmult_le_pos; lra|lra]). lra.
Qed.
Lemma relx_of : forall x v c, apx x v v c -> relx x v c.
Proof. intros x v c (F & B & E & R & C). split; [exact F|]. split; [apply rng_pos, R|]. split; assumption. Qed.

Variable kappa : R.
Hypothesis HM : accurate_math be kappa.
Let K : R := kappa / uro.
Lemma MK_range : 0 <= K <= 10 ^ 10 /\ kappa = K * uro.
Proof.
  destruct HM as [[k0 k1] _]. pose proof uro_num as U. unfold K. split; [split|field; lra].
  - apply Rmult_le_pos; [lra|left; apply Rinv_0_lt_compat; lra].
  - apply (Rmult_le_reg_r uro); [lra|]. unfold Rdiv. rewrite Rmult_assoc, Rinv_l by lra. rewrite uro_eq. lra.
Qed.

Lemma pow_66 : 66 ^ 169 <= bpow radix2 1022.
Proof. rewrite pow_IZR. rewrite <- IZR_Zpower by lia. apply IZR_le. vm_compute. discriminate. Qed.
Lemma power_relx : forall (b z : A) v, ffin z -> 0 <= v <= 1685 / 10 -> Rabs (fval z - v) <= uro * v + eta ->
  apx b ((v + gamma_g) / exp 1) ((v + gamma_g) / exp 1) (43 / 10) ->
  relx (npow b z : A) (Rpower ((v + gamma_g) / exp 1) v) (1470 + K) /\ 1 <= Rpower ((v + gamma_g) / exp 1) v <= bpow radix2 1022.
Proof.
  intros b z v Fz Hv Hz Hb. destruct (ln_base v Hv) as [B1 L1]. set (bv := (v + gamma_g) / exp 1) in *. assert (U := uro_num). assert (Et := eta_num).
  destruct Hb as (Fb & _ & Eb & _ & Cb). assert (Xb := ex_hi _ Cb). destruct MK_range as [[K0 K1] KE].
  destruct (ln_close bv (fval b) (4305 / 1000 * uro)) as [Pb Lb]; [lra| |rewrite uro_eq; lra|].
  { eapply Rle_trans; [exact Eb|]. apply Rmult_le_compat_r; lra. }
  assert (Lb2 : Rabs (ln (fval b) - ln bv) <= 431 / 100 * uro). { eapply Rle_trans; [exact Lb|]. rewrite uro_eq. lra. }
  assert (D : Rabs (fval z * ln (fval b) - v * ln bv) <= 1469 * uro).
  { replace (fval z * ln (fval b) - v * ln bv) with ((fval z - v) * ln (fval b) + v * (ln (fval b) - ln bv)) by ring.
    eapply Rle_trans; [apply Rabs_triang|]. rewrite !Rabs_mult, (Rabs_pos_eq v) by lra.
    assert (Rabs (ln (fval b)) <= 431 / 100). { apply Rabs_le_inv in Lb2. apply Rabs_le. rewrite uro_eq in Lb2. lra. }
    assert (Rabs (fval z - v) * Rabs (ln (fval b)) <= (uro * v + eta) * (431 / 100)) by (apply Rmult_le_compat; try apply Rabs_pos; assumption).
    assert (v * Rabs (ln (fval b) - ln bv) <= 1685 / 10 * (431 / 100 * uro)) by (apply Rmult_le_compat; try apply Rabs_pos; lra).
    assert (uro * v <= uro * (1685 / 10)) by (apply Rmult_le_compat_l; lra). assert (eta <= uro) by (rewrite uro_eq; lra). lra. }
  assert (EP := exp_close _ _ _ D). fold (Rpower (fval b) (fval z)) in EP. fold (Rpower bv v) in EP. fold (ex 1469) in EP.
  assert (P1 : 1 <= Rpower bv v). { unfold Rpower. rewrite <- exp_0 at 1. assert (0 <= v * ln bv) by (apply Rmult_le_pos; lra). destruct H as [H|H]; [left; apply exp_increasing, H|rewrite <- H; lra]. }
  assert (P2 : Rpower bv v <= bpow radix2 1022).
  { eapply Rle_trans; [|exact pow_66]. rewrite <- Rpower_pow by lra. apply Rle_trans with (Rpower bv (INR 169)).
    - apply Rle_Rpower; [lra|]. rewrite INR_IZR_INZ. change (Z.of_nat 169) with 169%Z. lra.
    - apply Rle_Rpower_l; [rewrite INR_IZR_INZ; change (Z.of_nat 169) with 169%Z; lra|lra]. }
  split; [|split; assumption].
  assert (S := ex_small 1469 ltac:(split; lra)). set (p := Rpower bv v) in *. set (q := Rpower (fval b) (fval z)) in *. apply Rabs_le_inv in EP.
  destruct (proj2 (proj2 HM) b z Fb Fz Pb) as [F2 E2].
  { fold q. split; [apply Rle_trans with (bpow radix2 (-1)); [apply bpow_le; lia|simpl; nra]|]. change 1023%Z with (1 + 1022)%Z. rewrite bpow_plus. change (bpow radix2 1) with 2. nra. }
  fold q in E2. split; [exact F2|]. split; [lra|]. split; [|split; lra]. change (npow b z : A) with (be_pow be b z).
  replace (fval (be_pow be b z) - p) with ((fval (be_pow be b z) - q) + (q - p)) by ring. eapply Rle_trans; [apply Rabs_triang|].
  apply Rle_trans with (kappa * ((1 + ex 1469) * p) + ex 1469 * p).
  - apply Rplus_le_compat; [eapply Rle_trans; [exact E2|apply Rmult_le_compat_l; [destruct HM; lra|lra]]|apply Rabs_le; lra].
  - replace (1470 + K) with (1469 + (1 + K)) by ring. rewrite ex_plus. assert (L := ex_lo (1 + K) ltac:(lra)). rewrite Rmult_plus_distr_r, <- KE in L.
    assert (kappa * ((1 + ex 1469) * p) <= ex (1 + K) * ((1 + ex 1469) * p)) by (apply Rmult_le_compat_r; [apply Rmult_le_pos; lra|lra]). lra.
Qed.

Lemma c_apx : apx (@two_sqrt_e_over_pi A) gamma_c gamma_c (101 / 100).
Proof.
  assert (G : @two_sqrt_e_over_pi RA = gamma_c) by (unfold two_sqrt_e_over_pi; cbn [nlit RA]; unfold R_lit, gamma_c; simpl; lra). assert (Gv : gamma_c = 18603827342052657 / 10000000000000000) by reflexivity.
  rewrite <- G at 1. apply apx_lit; [reflexivity| |apply LegBigFloat.rng_of; lra]. change (Rabs (@two_sqrt_e_over_pi RA) <= gamma_c). rewrite G, Rabs_pos_eq; lra.
Qed.
Lemma pow_100 : 50 * 66 ^ 100 <= bpow radix2 1022.
Proof. rewrite pow_IZR, <- mult_IZR. rewrite <- IZR_Zpower by lia. apply IZR_le. vm_compute. discriminate. Qed.

Lemma hi_relx : forall x : A, ffin x -> / 2 <= fval x <= 169 -> relx (gamma x : A) (@gamma RA (fval x)) (85300 + K).
Proof.
  intros x Fx Hx. rewrite gamma_hi by lra. unfold gamma. destruct half_exact as [Fh Eh]. change (f64_lit 5 (-1)) with (lit_half : A) in Fh, Eh.
  destruct (nlt x (lit_half : A)) eqn:E. { apply (lt_finite be x lit_half Fx Fh) in E. rewrite Eh in E. lra. }
  cbv zeta. set (y := fval x) in *. destruct MK_range as [[K0 K1] KE].
  assert (S := fold_apx (fun k => nsub (nadd x (nofZ k)) lit1 : A) y ltac:(lra) (fun k Hk => den_hi x k Fx ltac:(unfold y in Hx; lra) Hk)). set (sf := gamma_fold (fun k => nsub (nadd x (nofZ k)) lit1 : A)) in *. clearbody sf.
  assert (LA := lanczos_above y ltac:(lra)). assert (LB := lanczos_below y ltac:(lra)). assert (LS := lanczos_abs_size y ltac:(lra)). assert (Gc : gamma_c = 18603827342052657 / 10000000000000000) by reflexivity.
  assert (Iy : 0 < / y <= 2). { split; [apply Rinv_0_lt_compat; lra|]. replace 2 with (/ / 2) by lra. apply Rinv_le_contravar; lra. }
  assert (LT : lanczos y <= 266 / 10) by (unfold Rdiv in LS; lra).
  assert (SC : apx (nmul sf two_sqrt_e_over_pi : A) (lanczos y * gamma_c) (lanczos y * gamma_c) 83803).
  { apply (apx_mul be _ _ _ _ (lanczos y) gamma_c _ 83800 (101 / 100)); try lra; [exact S|apply c_apx|apply LegBigFloat.rng_of; nra|split; lra]. }
  assert (O : no_overflow (y - / 2)). { apply no_overflow_small. rewrite Rabs_pos_eq by lra. apply Rle_trans with (bpow radix2 8); [simpl; lra|apply bpow_le; lia]. }
  destruct (sub_finite be x lit_half Fx Fh ltac:(rewrite Eh; exact O)) as [Fz Ez]. rewrite Eh in Ez. fold y in Ez. set (z := nsub x lit_half : A) in *. clearbody z.
  assert (Hz : Rabs (fval z - (y - / 2)) <= uro * (y - / 2) + eta). { rewrite Ez. eapply Rle_trans; [apply rnd_err|]. rewrite (Rabs_pos_eq (y - / 2)); lra. }
  destruct (power_relx (ndiv (nadd z gamma_r) neul : A) z (y - / 2) Fz ltac:(lra) Hz (base_apx z (y - / 2) Fz ltac:(lra) Hz)) as [Rp [P1 P2]].
  set (pf := npow (ndiv (nadd z gamma_r) neul) z : A) in *. clearbody pf. 
  assert (B : bpow radix2 (-1000) <= lanczos y * gamma_c * Rpower ((y - / 2 + gamma_g) / exp 1) (y - / 2) <= bpow radix2 1022).
  { split. { apply Rle_trans with (1 / 10 ^ 9); [|nra]. apply Rle_trans with (bpow radix2 (-30)); [apply bpow_le; lia|simpl; lra]. }
    destruct (Rle_or_lt 100 y) as [H|H].
    - apply Rle_trans with (1 * bpow radix2 1022); [|lra]. apply Rmult_le_compat; try lra; [nra|]. assert (/ y <= / 100) by (apply Rinv_le_contravar; lra). unfold Rdiv in LS. nra.
    - eapply Rle_trans; [|exact pow_100]. apply Rmult_le_compat; try lra; [nra|nra|]. destruct (ln_base (y - / 2) ltac:(lra)) as [B1 _].
      rewrite <- Rpower_pow by lra. apply Rle_trans with (Rpower ((y - / 2 + gamma_g) / exp 1) (INR 100)).
      + apply Rle_Rpower; [lra|]. rewrite INR_IZR_INZ. change (Z.of_nat 100) with 100%Z. lra.
      + apply Rle_Rpower_l; [rewrite INR_IZR_INZ; change (Z.of_nat 100) with 100%Z; lra|lra]. }
  assert (M := relx_mul _ _ _ _ _ _ (relx_of _ _ _ SC) Rp B ltac:(split; lra)). destruct M as (M1 & M2 & M3 & M4). split; [exact M1|]. split; [exact M2|]. split; [|split; lra].
  eapply Rle_trans; [exact M3|]. apply Rmult_le_compat_r; [lra|]. apply ex_mono. lra.
Qed.

(** sine between -3 PI / 4 and PI / 2 *)
Lemma sin_lower : forall v, Rabs v <= 236 / 100 -> Rabs v <= 34 / 10 * Rabs (sin v).
Proof.
  assert (P : forall v, 0 < v <= 236 / 100 -> v <= 34 / 10 * sin v).
  { intros v Hv. assert (Pi := PI_lo30). assert (Pi2 := PI_hi30). destruct (Rle_or_lt v (158 / 100)) as [H|H]; [assert (X := sin_half v ltac:(lra)); lra|].
    replace v with (PI - (PI - v)) at 2 by ring. rewrite sin_PI_x.
    assert (S : sin (781 / 1000) <= sin (PI - v)) by (apply sin_incr_1; lra).
    assert (X := SIN (781 / 1000) ltac:(lra) ltac:(lra)). destruct X as [X _]. unfold sin_lb, sin_approx, sum_f_R0, sin_term in X. simpl in X. lra. }
  intros v Hv. destruct (Rle_or_lt 0 v) as [[H|<-]|H].
  - rewrite (Rabs_pos_eq v) in * by lra. eapply Rle_trans; [apply P; lra|]. apply Rmult_le_compat_l; [lra|apply Rle_abs].
  - rewrite sin_0, Rabs_R0. lra.
  - rewrite (Rabs_left v) in * by lra. eapply Rle_trans; [apply P; lra|]. apply Rmult_le_compat_l; [lra|]. rewrite sin_neg, <- (Rabs_Ropp (sin v)). apply Rle_abs.
Qed.
Lemma sin_apx : forall (x : A) v c, apx x v (Rabs v) c -> / 10 ^ 20 <= Rabs v <= 236 / 100 -> c <= 1000 -> apx (nsin x : A) (sin v) (Rabs (sin v)) (35 / 10 * c + 101 / 100 * K + 1).
Proof.
  intros x v c (F & B & E & R & [c0 c1]) Hv Hc. destruct MK_range as [[K0 K1] KE]. assert (U := uro_num).
  assert (E20 : 0 < / 10 ^ 20) by (apply Rinv_0_lt_compat; lra). assert (S := sin_lower v ltac:(lra)). assert (SP : 0 < Rabs (sin v)) by lra.
  assert (D : Rabs (fval x - v) <= 3404 / 1000 * c * uro * Rabs (sin v)).
  { eapply Rle_trans; [exact E|]. pose proof (ex_hi c ltac:(split; lra)) as H. apply Rle_trans with (1001 / 1000 * (c * uro) * Rabs v); [apply Rmult_le_compat_r; lra|].
    assert (0 <= c * uro) by (apply Rmult_le_pos; lra). assert (c * uro * Rabs v <= c * uro * (34 / 10 * Rabs (sin v))) by (apply Rmult_le_compat_l; lra). assert (0 <= c * uro * Rabs (sin v)) by (apply Rmult_le_pos; lra). lra. }
  assert (S1 : Rabs (sin v) <= 1) by (apply Rabs_le, SIN_bound).
  assert (CU : 0 <= c * uro <= 1 / 10 ^ 6). { split; [apply Rmult_le_pos; lra|]. apply Rle_trans with (1000 * (1111 / 10 ^ 19)); [apply Rmult_le_compat; lra|lra]. }
  assert (X4 : Rabs (fval x) <= 4). { replace (fval x) with ((fval x - v) + v) by ring. eapply Rle_trans; [apply Rabs_triang|]. assert (c * uro * Rabs (sin v) <= 1 / 10 ^ 6 * 1) by (apply Rmult_le_compat; lra). lra. }
  destruct (proj1 (proj2 HM) x F X4) as [F2 H2].
  pose proof (sin_lipschitz (fval x) v) as L. pose proof (Rabs_triang (sin (fval x) - sin v) (sin v)) as T. replace (sin (fval x) - sin v + sin v) with (sin (fval x)) in T by ring.
  assert (Et : bpow radix2 (-1075) <= uro / 2 * Rabs (sin v)).
  { apply Rle_trans with (bpow radix2 (-54) * bpow radix2 (-900)); [rewrite <- bpow_plus; apply bpow_le; lia|]. apply Rmult_le_compat; try apply bpow_ge_0.
    - rewrite uro_eq. right. change (bpow radix2 (-54)) with (/ 18014398509481984). lra.
    - destruct ten_bpow as [B1 _]. eapply Rle_trans; [exact B1|]. apply Rle_trans with (/ 10 ^ 20 / 4); lra. }
  split; [exact F2|]. split; [lra|]. split; [|split; [apply rng_far; split; [apply Rle_trans with (/ 10 ^ 20 / 4); lra|lra]|split; lra]].
  apply Rle_trans with ((35 / 10 * c + 101 / 100 * K + 1) * uro * Rabs (sin v)); [|apply Rmult_le_compat_r; [lra|apply ex_lo; lra]].
  change (fval (nsin x : A)) with (fval (be_sin be x)).
  replace (fval (be_sin be x) - sin v) with ((fval (be_sin be x) - sin (fval x)) + (sin (fval x) - sin v)) by ring. eapply Rle_trans; [apply Rabs_triang|].
  assert (P : kappa * Rabs (sin (fval x)) <= kappa * (101 / 100 * Rabs (sin v))).
  { apply Rmult_le_compat_l; [destruct HM; lra|]. assert (c * uro * Rabs (sin v) <= 1 / 10 ^ 6 * Rabs (sin v)) by (apply Rmult_le_compat_r; lra). lra. }
  rewrite KE in P at 2. assert (0 <= c * uro * Rabs (sin v)) by (apply Rmult_le_pos; lra). assert (0 <= uro * Rabs (sin v)) by (apply Rmult_le_pos; lra). lra.
Qed.

Lemma lo_apx : forall x : A, ffin x -> / 10 ^ 19 <= Rabs (fval x) -> - (3 / 4) <= fval x < / 2 -> apx (gamma x : A) (@gamma RA (fval x)) (Rabs (@gamma RA (fval x))) (86200 + 21 / 10 * K).
Proof.
  intros x Fx Hx Hr. rewrite gamma_lo by lra. unfold gamma. destruct half_exact as [Fh Eh]. change (f64_lit 5 (-1)) with (lit_half : A) in Fh, Eh.
  destruct (nlt x (lit_half : A)) eqn:E. 2:{ assert (Y := proj2 (lt_finite be x lit_half Fx Fh)). rewrite Eh, E in Y. specialize (Y ltac:(lra)). discriminate. }
  cbv zeta. set (y := fval x) in *. destruct MK_range as [[K0 K1] KE]. assert (Ab : Rabs y <= 3 / 4) by (apply Rabs_le; lra). assert (Pi := PI_lo30). assert (Pi2 := PI_hi30).
  assert (E19 : / 10 ^ 20 <= / 10 ^ 19) by (apply Rinv_le_contravar; lra). assert (E0 : 0 < / 10 ^ 20) by (apply Rinv_0_lt_compat; lra).
  assert (S := fold_apx (fun k => nsub (nofZ k) x : A) (1 - y) ltac:(lra) (fun k Hk => den_lo x k Fx Hx ltac:(unfold y in Hr; lra) Hk)). set (sf := gamma_fold (fun k => nsub (nofZ k) x : A)) in *. clearbody sf.
  assert (LA := lanczos_above (1 - y) ltac:(lra)). assert (LB := lanczos_below (1 - y) ltac:(lra)). assert (LS := lanczos_abs_size (1 - y) ltac:(lra)). assert (Gc : gamma_c = 18603827342052657 / 10000000000000000) by reflexivity.
  assert (Iy : 0 < / (1 - y) <= 2). { split; [apply Rinv_0_lt_compat; lra|]. replace 2 with (/ / 2) by lra. apply Rinv_le_contravar; lra. }
  assert (LT : lanczos (1 - y) <= 266 / 10) by (unfold Rdiv in LS; lra). set (L := lanczos (1 - y)) in *. clearbody L.
  assert (X : apx x y (Rabs y) 0) by (apply apx_exact; [exact Fx|reflexivity|apply LegBigFloat.rng_of; lra]).
  assert (PX : apx (nmul npi x : A) (PI * y) (Rabs (PI * y)) (201 / 100)).
  { rewrite Rabs_mult, (Rabs_pos_eq PI) by lra. apply (apx_mul be _ _ _ _ PI (Rabs y) _ 1 0); try lra; [apply apx_pi|exact X|apply LegBigFloat.rng_of; nra|split; lra]. }
  assert (PB : / 10 ^ 20 <= Rabs (PI * y) <= 236 / 100) by (rewrite Rabs_mult, (Rabs_pos_eq PI) by lra; nra).
  assert (SN := sin_apx _ _ _ PX PB ltac:(lra)). set (sn := nsin (nmul npi x) : A) in *. clearbody sn. assert (SL := sin_lower (PI * y) ltac:(lra)). assert (S1 : Rabs (sin (PI * y)) <= 1) by (apply Rabs_le, SIN_bound).
  set (sv := sin (PI * y)) in *. clearbody sv. assert (SVP : / 10 ^ 20 / 4 <= Rabs sv) by lra.
  assert (M1 : apx (nmul sn sf : A) (sv * L) (Rabs sv * L) (83810 + 101 / 100 * K)).
  { apply (apx_mul be _ _ _ _ (Rabs sv) L _ (35 / 10 * (201 / 100) + 101 / 100 * K + 1) 83800); try lra; [exact SN|exact S| |split; lra].
    apply rng_far. split; [|nra]. apply Rle_trans with (/ 10 ^ 20 / 4 * (4 / 10 ^ 9)); [lra|apply Rmult_le_compat; lra]. }
  assert (M2 : apx (nmul (nmul sn sf) two_sqrt_e_over_pi : A) (sv * L * gamma_c) (Rabs sv * L * gamma_c) (83813 + 101 / 100 * K)).
  { apply (apx_mul be _ _ _ _ (Rabs sv * L) gamma_c _ (83810 + 101 / 100 * K) (101 / 100)); try lra; [exact M1|exact c_apx| |split; lra].
    apply rng_far. split; [|apply Rle_trans with (27 * 2); [apply Rmult_le_compat; nra|lra]]. apply Rle_trans with (/ 10 ^ 20 / 4 * (4 / 10 ^ 9) * 1); [lra|apply Rmult_le_compat; try lra; apply Rmult_le_compat; lra]. }
  assert (O : no_overflow (/ 2 - y)). { apply no_overflow_small. rewrite Rabs_pos_eq by lra. apply Rle_trans with (bpow radix2 8); [simpl; lra|apply bpow_le; lia]. }
  destruct (sub_finite be lit_half x Fh Fx ltac:(rewrite Eh; exact O)) as [Fz Ez]. rewrite Eh in Ez. fold y in Ez. set (z := nsub lit_half x : A) in *. clearbody z.
  assert (Hz : Rabs (fval z - (/ 2 - y)) <= uro * (/ 2 - y) + eta). { rewrite Ez. eapply Rle_trans; [apply rnd_err|]. rewrite (Rabs_pos_eq (/ 2 - y)); lra. }
  destruct (power_relx (ndiv (nadd z gamma_r) neul : A) z (/ 2 - y) Fz ltac:(lra) Hz (base_apx z (/ 2 - y) Fz ltac:(lra) Hz)) as [Rp [P1 _]].
  set (pf := npow (ndiv (nadd z gamma_r) neul) z : A) in *. clearbody pf.
  assert (P2 : Rpower ((/ 2 - y + gamma_g) / exp 1) (/ 2 - y) <= 4356).
  { destruct (ln_base (/ 2 - y) ltac:(lra)) as [B1 _]. replace 4356 with (66 ^ 2) by ring. rewrite <- Rpower_pow by lra. apply Rle_trans with (Rpower ((/ 2 - y + gamma_g) / exp 1) (INR 2)).
    - apply Rle_Rpower; [lra|]. simpl. lra.
    - apply Rle_Rpower_l; [simpl; lra|lra]. }
  set (p := Rpower ((/ 2 - y + gamma_g) / exp 1) (/ 2 - y)) in *. clearbody p.
  assert (PA : apx pf p p (1470 + K)). { destruct Rp as (R1 & R2 & R3 & R4). split; [exact R1|]. split; [rewrite Rabs_pos_eq; lra|]. split; [exact R3|]. split; [apply LegBigFloat.rng_of; lra|exact R4]. }
  assert (Dp : / 10 ^ 20 / 4 * (4 / 10 ^ 9) * 1 * 1 <= Rabs sv * L * gamma_c * p) by (repeat (apply Rmult_le_compat; try lra)).
  assert (Du : Rabs sv * L * gamma_c * p <= 27 * 2 * 4356).
  { assert (Rabs sv * L <= 27) by nra. assert (Rabs sv * L * gamma_c <= 27 * 2) by (apply Rmult_le_compat; nra). apply Rmult_le_compat; try lra. apply Rmult_le_pos; [apply Rmult_le_pos|]; lra. }
  assert (M3 : apx (nmul (nmul (nmul sn sf) two_sqrt_e_over_pi) pf : A) (sv * L * gamma_c * p) (Rabs sv * L * gamma_c * p) (85285 + 201 / 100 * K)).
  { apply (apx_mul be _ _ _ _ (Rabs sv * L * gamma_c) p _ (83813 + 101 / 100 * K) (1470 + K)); try lra; [exact M2|exact PA| |split; lra]. apply rng_far. split; lra. }
  assert (EA : Rabs (sv * L * gamma_c * p) = Rabs sv * L * gamma_c * p) by (rewrite !Rabs_mult, (Rabs_pos_eq L), (Rabs_pos_eq gamma_c), (Rabs_pos_eq p) by lra; reflexivity).
  assert (Nz : sv * L * gamma_c * p <> 0). { intros Z. rewrite Z, Rabs_R0 in EA. lra. }
  unfold Rdiv. rewrite Rabs_mult, (Rabs_pos_eq PI), Rabs_Rinv, EA by (try exact Nz; lra).
  apply (apx_div be _ _ _ _ PI (Rabs sv * L * gamma_c * p) _ 1 (85285 + 201 / 100 * K)); [apply apx_pi|exact M3|symmetry; exact EA|apply Rle_refl|lra| |split; lra].
  assert (IB : / (27 * 2 * 4356) <= / (Rabs sv * L * gamma_c * p) <= / (/ 10 ^ 20 / 4 * (4 / 10 ^ 9) * 1 * 1)) by (split; apply Rinv_le_contravar; lra).
  apply rng_far. split; [|apply Rle_trans with (4 * / (/ 10 ^ 20 / 4 * (4 / 10 ^ 9) * 1 * 1)); [apply Rmult_le_compat; lra|lra]]. apply Rle_trans with (3 * / (27 * 2 * 4356)); [lra|apply Rmult_le_compat; lra].
Qed.
End F.
