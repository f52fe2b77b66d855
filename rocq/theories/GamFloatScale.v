(** The computed gamma function against Euler's integral, and the scale factors of the rules. *)
From Coq Require Import Reals ZArith List Lra Lia Psatz.
From Coquelicot Require Import Rcomplements.
From Flocq Require Import Core Relative IEEE754.Binary.
From Verif Require Import Arith RInst RInstProof F64 F64Spec F64Proof RoundSpec RoundProof RoundRules AccF64 AccCount LegBigPoly LegBigFloat Gamma GammaProof
  WeightSpec GammaTrue GamRatio GamAcc GamNum GamReflect GamAll ChebFloat GamFloatSpec GamFloat GamFloatArg Laguerre Jacobi.
Local Open Scope R_scope.

Lemma log_rel : forall a b d, 0 < a -> 0 < b -> Rabs (ln a - ln b) <= d -> d <= 1 / 100 -> Rabs (a - b) <= d * (1 + 2 * d) * b.
Proof.
  intros a b d Ha Hb H Hd. assert (H0 := Rabs_pos (ln a - ln b)). assert (E := exp_close _ _ _ H). rewrite !exp_ln in E by assumption. assert (X := exp_hi d ltac:(lra)).
  eapply Rle_trans; [exact E|]. apply Rmult_le_compat_r; lra.
Qed.

Section F.
Variable be : Backend.
Notation A := (F64 be).
Variable kappa : R.
Hypothesis HM : accurate_math be kappa.
Let K : R := kappa / uro.

Lemma gamma_relz : forall x : A, ffin x -> / 10 ^ 19 <= Rabs (fval x) -> - (3 / 4) <= fval x <= 169 -> relz (gamma x : A) (@gamma RA (fval x)) (86200 + 21 / 10 * K).
Proof.
  intros x Fx H0 Hr. destruct (MK_range be kappa HM) as [[K0 K1] KE]. fold K in K0, K1, KE. destruct (Rlt_or_le (fval x) (/ 2)) as [H|H].
  - destruct (lo_apx be kappa HM x Fx H0 ltac:(lra)) as (F & B & E & R & C). fold K in E, C. split; [exact F|]. split; [|split; assumption].
    intros Z. apply rng_pos in R. rewrite Z, Rabs_R0 in R. lra.
  - apply relz_x. apply (relx_weak _ _ (85300 + K)); [apply (hi_relx be kappa HM); [exact Fx|lra]|lra|split; lra].
Qed.
Lemma kap : 0 <= kappa <= 1 / 10 ^ 6. Proof. apply HM. Qed.
Lemma kK : kappa = K * uro. Proof. apply (MK_range be kappa HM). Qed.
Lemma gamma_log : forall x : A, ffin x -> / 10 ^ 19 <= fval x <= 169 -> 0 < fval (gamma x : A) /\ Rabs (ln (fval (gamma x : A)) - ln (Gam (fval x))) <= 972 / 10 ^ 14 + 211 / 100 * kappa.
Proof.
  intros x Fx Hx. assert (P0 : 0 < / 10 ^ 19) by (apply Rinv_0_lt_compat; lra). assert (Z := gamma_relz x Fx ltac:(rewrite Rabs_pos_eq; lra) ltac:(lra)). apply relz_pos in Z; [|apply gamma_pos; lra].
  destruct (relx_log _ _ _ Z) as [P L]. split; [exact P|]. assert (G := log_all (fval x) ltac:(lra)). rewrite Rmult_plus_distr_r, Rmult_assoc, <- kK in L. assert (U := uro_num). assert (k := kap).
  replace (ln (fval (gamma x : A)) - ln (Gam (fval x))) with ((ln (fval (gamma x : A)) - ln (@gamma RA (fval x))) + (ln (@gamma RA (fval x)) - ln (Gam (fval x)))) by ring.
  eapply Rle_trans; [apply Rabs_triang|]. lra.
Qed.
Lemma gamma_true : forall (x : A) G, ffin x -> / 10 ^ 19 <= fval x <= 169 -> is_Gamma (fval x) G ->
  ffin (gamma x : A) /\ Rabs (fval (gamma x : A) - G) <= (1 / 10 ^ 11 + 22 / 10 * kappa) * G.
Proof.
  intros x G Fx Hx HG. assert (P0 : 0 < / 10 ^ 19) by (apply Rinv_0_lt_compat; lra). assert (Z := gamma_relz x Fx ltac:(rewrite Rabs_pos_eq; lra) ltac:(lra)). split; [apply Z|].
  destruct (gamma_log x Fx Hx) as [P L]. rewrite <- (Gam_eq (fval x) G ltac:(lra) HG) in L. assert (PG : 0 < G) by (rewrite (Gam_eq (fval x) G ltac:(lra) HG); apply Gam_pos; lra).
  assert (k := kap). eapply Rle_trans; [apply (log_rel _ _ _ P PG L); lra|]. apply Rmult_le_compat_r; [lra|]. nra.
Qed.
Lemma gamma_true_neg : forall (x : A) G, ffin x -> - (3 / 4) <= fval x <= - / 10 ^ 19 -> is_Gamma (1 - fval x) G ->
  ffin (gamma x : A) /\ Rabs (fval (gamma x : A) - PI / (sin (PI * fval x) * G)) <= (1 / 10 ^ 11 + 22 / 10 * kappa) * Rabs (PI / (sin (PI * fval x) * G)).
Proof.
  intros x G Fx Hx HG. assert (P0 : 0 < / 10 ^ 19) by (apply Rinv_0_lt_compat; lra). assert (Z := gamma_relz x Fx ltac:(rewrite Rabs_left; lra) ltac:(lra)). split; [apply Z|].
  destruct Z as (F & N & E & C). assert (B := gamma_accurate_below (fval x) G (frac_not_int (fval x) (-1) ltac:(lra)) ltac:(lra) HG).
  set (T := PI / (sin (PI * fval x) * G)) in *. set (g := @gamma RA (fval x)) in *. assert (X := ex_hi _ C). rewrite Rmult_plus_distr_r, Rmult_assoc, <- kK in X. assert (U := uro_num). assert (k := kap).
  assert (Bg : Rabs g <= (1 + 12 / 10 ^ 14) * Rabs T). { replace g with ((g - T) + T) by ring. eapply Rle_trans; [apply Rabs_triang|]. lra. }
  replace (fval (gamma x : A) - T) with ((fval (gamma x : A) - g) + (g - T)) by ring. eapply Rle_trans; [apply Rabs_triang|]. assert (TP := Rabs_pos T).
  assert (e0 := ex_small _ C). assert (ex (86200 + 21 / 10 * K) * Rabs g <= (960 / 10 ^ 14 + 211 / 100 * kappa) * ((1 + 12 / 10 ^ 14) * Rabs T)) by (apply Rmult_le_compat; try lra; apply Rabs_pos).
  assert (0 <= kappa * Rabs T) by (apply Rmult_le_pos; lra). lra.
Qed.

(** ** Sums of a parameter and one *)
Lemma plus_one : forall al : A, ffin al -> -1 < fval al <= 300 -> ffin (nadd al lit1 : A) /\ Rabs (fval (nadd al lit1 : A) - (fval al + 1)) <= uro * (fval al + 1).
Proof.
  intros al F H. destruct (lit_int_exact 1 ltac:(lia)) as [F1 E1]. change (f64_lit 1 0) with (lit1 : A) in F1, E1.
  destruct (add_finite be al lit1 F F1) as [F2 E2].
  { apply no_overflow_small. rewrite E1, Rabs_pos_eq by lra. apply Rle_trans with (bpow radix2 9); [simpl; lra|apply bpow_le; lia]. }
  split; [exact F2|]. rewrite E2, E1. assert (R := rnd_add_err (fval al) 1 (fval_format al)). rewrite (Rabs_pos_eq (fval al + 1)) in R by lra. apply R. rewrite <- E1. apply fval_format.
Qed.
Lemma gamma_plus_one : forall al : A, ffin al -> / 10 ^ 18 <= fval al + 1 <= 1689 / 10 ->
  ffin (nadd al lit1 : A) /\ / 10 ^ 19 <= fval (nadd al lit1 : A) <= 169 /\ Rabs (ln (Gam (fval (nadd al lit1 : A))) - ln (Gam (fval al + 1))) <= 12 / 10 ^ 14.
Proof.
  intros al F H. assert (P18 : 0 < / 10 ^ 19) by (apply Rinv_0_lt_compat; lra). assert (E10 : / 10 ^ 18 = 10 * / 10 ^ 19) by (field). destruct (plus_one al F ltac:(lra)) as [F2 E2]. split; [exact F2|]. assert (U := uro_num). set (v := fval al + 1) in *.
  assert (Uv : 0 <= uro * v <= 1 / 10 ^ 10 * v) by (split; [apply Rmult_le_pos|apply Rmult_le_compat_r]; lra).
  destruct (gam_shift v (fval (nadd al lit1 : A)) (uro * v) ltac:(lra) E2 ltac:(lra)) as [P L]. split; [apply Rabs_le_inv in E2; lra|].
  eapply Rle_trans; [exact L|]. replace (uro * v * (62 / 10 + 1002 / 1000 / v)) with (uro * (62 / 10 * v + 1002 / 1000)) by (field; lra).
  apply Rle_trans with (uro * 1049); [apply Rmult_le_compat_l; lra|rewrite uro_eq; lra].
Qed.
Lemma laguerre_log : forall al : A, ffin al -> / 10 ^ 18 <= fval al + 1 <= 1689 / 10 ->
  ffin (gamma (nadd al lit1) : A) /\ 0 < fval (gamma (nadd al lit1) : A) /\ Rabs (ln (fval (gamma (nadd al lit1) : A)) - ln (Gam (fval al + 1))) <= 984 / 10 ^ 14 + 211 / 100 * kappa.
Proof.
  intros al F H. destruct (gamma_plus_one al F H) as (F2 & B & L). destruct (gamma_log _ F2 B) as [P L2]. assert (P0 : 0 < / 10 ^ 19) by (apply Rinv_0_lt_compat; lra).
  assert (Z := gamma_relz _ F2 ltac:(rewrite Rabs_pos_eq; lra) ltac:(lra)). split; [apply Z|]. split; [exact P|].
  replace (ln (fval (gamma (nadd al lit1) : A)) - ln (Gam (fval al + 1))) with ((ln (fval (gamma (nadd al lit1) : A)) - ln (Gam (fval (nadd al lit1 : A)))) + (ln (Gam (fval (nadd al lit1 : A))) - ln (Gam (fval al + 1)))) by ring.
  eapply Rle_trans; [apply Rabs_triang|]. lra.
Qed.
Lemma laguerre_scale : forall (al : A) G, ffin al -> / 10 ^ 18 <= fval al + 1 <= 1689 / 10 -> is_Gamma (fval al + 1) G ->
  ffin (gamma (nadd al lit1) : A) /\ Rabs (fval (gamma (nadd al lit1) : A) - G) <= (1 / 10 ^ 11 + 22 / 10 * kappa) * G.
Proof.
  intros al G F H HG. destruct (laguerre_log al F H) as (F2 & P & L). split; [exact F2|]. assert (P18 : 0 < / 10 ^ 18) by (apply Rinv_0_lt_compat; lra).
  rewrite <- (Gam_eq (fval al + 1) G ltac:(lra) HG) in L. assert (PG : 0 < G) by (rewrite (Gam_eq (fval al + 1) G ltac:(lra) HG); apply Gam_pos; lra).
  assert (k := kap). eapply Rle_trans; [apply (log_rel _ _ _ P PG L); lra|]. apply Rmult_le_compat_r; [lra|]. nra.
Qed.
End F.
