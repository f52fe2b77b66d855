(** Laguerre and Jacobi rules in double arithmetic, with the computed scale factor. *)
From Coq Require Import Reals ZArith List Lra Lia Psatz.
From Flocq Require Import Core Relative IEEE754.Binary.
From Verif Require Import Arith RInst RInstProof F64 F64Spec F64Proof RoundSpec RoundProof RoundRules Machine Param Rules RSum PolySpec GolubWelsch GWSpec EigenSpec WeightSpec IntegrateSpec GaussSpec InexactSpec InexactF64Spec
  Gamma GammaProof GammaTrue GamAll GamFloatSpec GamFloat GamFloatArg GamFloatScale GamFloatJac Laguerre Jacobi InexactEnd JacFloatRule GaussExact.
Local Open Scope R_scope.

Lemma moment_error_nonneg : forall n tau rho phi j, 0 <= tau -> 0 <= rho -> 0 <= phi -> 0 <= moment_error n tau rho phi j.
Proof.
  intros n tau rho phi j Ht Hr Hp. unfold moment_error. apply Rplus_le_le_0_compat.
  - apply Rmult_le_pos; [exact Hp|apply pow_le, Ht].
  - apply Rmult_le_pos; [apply Rmult_le_pos; [exact Hr|apply sqrt_pos]|apply Rmult_le_pos; [apply pos_INR|apply pow_le, Ht]].
Qed.
Lemma scale_bound : forall N (c : nat -> R) (s G q : R) (E T : nat -> R), 0 <= s <= 101 / 100 * G -> 0 <= q -> (forall j, 0 <= E j) -> (forall j, 0 <= T j) ->
  rsum N (fun j => Rabs (c j) * (s * E j + (1 / 10 ^ 15 * s + q) * T j)) <= rsum N (fun j => Rabs (c j) * (101 / 100 * G * E j + (2 / 10 ^ 15 * G + q) * T j)).
Proof.
  intros N c s G q E T Hs Hq HE HT. apply rsum_le. intros j _. apply Rmult_le_compat_l; [apply Rabs_pos|]. apply Rplus_le_compat; apply Rmult_le_compat_r; auto; lra.
Qed.

Section F.
Variable be : Backend.
Notation A := (F64 be).
Variable kappa : R.
Hypothesis HM : accurate_math be kappa.

Lemma scale_close : forall (al : A) G, ffin al -> / 10 ^ 18 <= fval al + 1 <= 160 -> is_Gamma (fval al + 1) G ->
  let s := gamma (nadd al lit1) : A in ffin s /\ 0 < G /\ Rabs (fval s - G) <= (1 / 10 ^ 11 + 22 / 10 * kappa) * G /\ 0 < fval s <= 101 / 100 * G /\ fval s <= bpow radix2 1000.
Proof.
  intros al G Fa Ha HG s. assert (P18 : 0 < / 10 ^ 18) by (apply Rinv_0_lt_compat; lra). assert (P19 : 0 < / 10 ^ 19) by (apply Rinv_0_lt_compat; lra). assert (k := kap be kappa HM).
  destruct (laguerre_scale be kappa HM al G Fa ltac:(lra) HG) as [Fs Es]. fold s in Fs, Es. split; [exact Fs|].
  assert (PG : 0 < G) by (rewrite (Gam_eq (fval al + 1) G ltac:(lra) HG); apply Gam_pos; lra). split; [exact PG|]. split; [exact Es|].
  assert (B : (1 / 10 ^ 11 + 22 / 10 * kappa) * G <= 1 / 100 * G) by (apply Rmult_le_compat_r; lra). assert (E2 := Rabs_le_inv _ _ (Rle_trans _ _ _ Es B)). split; [lra|].
  destruct (shift_size (fval al + 1) ltac:(lra)) as [_ SZ]. { rewrite Rabs_pos_eq by lra. assert (/ 10 ^ 18 = 10 * / 10 ^ 19) by field. lra. }
  assert (PR := gamma_pos (fval al + 1) ltac:(lra)). rewrite Rabs_pos_eq in SZ by lra. assert (L := log_all (fval al + 1) ltac:(lra)). rewrite <- (Gam_eq (fval al + 1) G ltac:(lra) HG) in L.
  assert (Bd := log_bounds _ _ _ PR PG L ltac:(lra)). apply Rle_trans with (2 * bpow radix2 980); [lra|]. change 2 with (bpow radix2 1). rewrite <- bpow_plus. apply bpow_le. lia.
Qed.

Lemma laguerre_closed : forall (ext : Linalg A) n (al : Param A) (r : GaussLaguerre A) (G tau rho phi : R), let alpha := fval (param_get al) in
  (1 <= n <= 2 ^ 52)%Z -> ffin (param_get al) -> / 10 ^ 18 <= alpha + 1 <= 160 -> sorts ext -> 4 * IZR n + 3 * Rabs alpha + 1 <= tau -> 0 <= rho -> 0 <= phi < 1 ->
  is_Gamma (alpha + 1) G ->
  float_solver ext (Z.to_nat n) (laguerre_diag (param_get al)) (laguerre_off_diag (param_get al)) tau rho phi -> laguerre_new ext n al = Ok r ->
  (forall p, In p (laguerre_pairs r) -> ffin (fst p) /\ ffin (snd p)) /\
  forall c f, (forall x, f x = rsum (2 * Z.to_nat n) (fun j => c j * x ^ j)) -> exists v, laguerre_integral alpha f v /\
    Rabs (apply_rule (real_pairs (laguerre_pairs r)) f - v) <= (1 / 10 ^ 11 + 22 / 10 * kappa) * Rabs v +
      rsum (2 * Z.to_nat n) (fun j => Rabs (c j) * (101 / 100 * G * moment_error (Z.to_nat n) tau (rho + 2 / 10 ^ 15 * (2 * IZR n + Rabs alpha + 1)) phi j + (2 / 10 ^ 15 * G + 1 / 10 ^ 200) * tau ^ j)).
Proof.
  intros ext n al r G tau rho phi alpha Hn Fa Ha So Ht Hr Hp HG HS HN. unfold alpha in *. assert (P18 : 0 < / 10 ^ 18) by (apply Rinv_0_lt_compat; lra).
  destruct (scale_close (param_get al) G Fa Ha HG) as (Fs & PG & Es & Bs & Ss). set (s := gamma (nadd (param_get al) lit1) : A) in *.
  assert (N1 : 1 <= IZR n) by (apply IZR_le; lia). assert (R0 := Rabs_pos (fval (param_get al))).
  assert (B500 : 160 <= bpow radix2 500) by (apply Rle_trans with (bpow radix2 8); [simpl; lra|apply bpow_le; lia]).
  destruct (laguerre_float_rule be ext n al r G tau rho phi Hn Fa ltac:(lra) So Ht Fs ltac:(fold s; rewrite Rabs_pos_eq; lra) HG HS ltac:(lra) HN) as [V P].
  split; [intros p Ip; destruct (P p Ip) as (P1 & P2 & _); split; assumption|].
  intros c f Hf. destruct (V c f Hf) as (v & Iv & Ev). exists v. split; [exact Iv|]. fold s in Ev. rewrite (Rabs_pos_eq (fval s)) in Ev by lra.
  replace (apply_rule (real_pairs (laguerre_pairs r)) f - v) with ((fval s / G * v - v) + (apply_rule (real_pairs (laguerre_pairs r)) f - fval s / G * v)) by ring.
  eapply Rle_trans; [apply Rabs_triang|]. apply Rplus_le_compat; [apply scale_acc; assumption|]. eapply Rle_trans; [exact Ev|].
  apply (scale_bound _ c (fval s) G (1 / 10 ^ 200) (fun j => moment_error (Z.to_nat n) tau (rho + 2 / 10 ^ 15 * (2 * IZR n + Rabs (fval (param_get al)) + 1)) phi j) (fun j => tau ^ j)).
  - lra.
  - apply Rmult_le_pos; [lra|left; apply Rinv_0_lt_compat, pow_lt; lra].
  - intros j. apply moment_error_nonneg; lra.
  - intros j. apply pow_le. lra.
Qed.
Lemma laguerre_closed_end : forall (ext : Linalg A) n (al : Param A) (r : GaussLaguerre A) (G tau rho phi : R), let alpha := fval (param_get al) in
  (1 <= n <= 2 ^ 52)%Z -> ffin (param_get al) -> / 10 ^ 18 <= alpha + 1 <= 160 -> sorts ext -> 4 * IZR n + 3 * Rabs alpha + 1 <= tau -> 0 <= rho -> 0 <= phi < 1 ->
  is_Gamma (alpha + 1) G ->
  float_solver ext (Z.to_nat n) (laguerre_diag (param_get al)) (laguerre_off_diag (param_get al)) tau rho phi -> laguerre_new ext n al = Ok r ->
  forall c f (g : A -> A) e (result : A), 0 <= e -> (forall x, f x = rsum (2 * Z.to_nat n) (fun j => c j * x ^ j)) ->
  (forall x, In x (map fst (laguerre_pairs r)) -> Rabs (fval (g x) - f (fval x)) <= e) ->
  (result = fst (laguerre_integrate (pure g) r tt) \/ exists t, result = laguerre_par_integrate t g r) -> ffin result ->
  exists v, laguerre_integral alpha f v /\
    Rabs (fval result - v) <= (1 / 10 ^ 11 + 22 / 10 * kappa) * Rabs v +
      sum_bound (length (laguerre_pairs r)) (abs_sum (map g (map fst (laguerre_pairs r))) (map snd (laguerre_pairs r))) + (4 * G + 1 / 10 ^ 200) * e +
      rsum (2 * Z.to_nat n) (fun j => Rabs (c j) * (101 / 100 * G * moment_error (Z.to_nat n) tau (rho + 2 / 10 ^ 15 * (2 * IZR n + Rabs alpha + 1)) phi j + (2 / 10 ^ 15 * G + 1 / 10 ^ 200) * tau ^ j)).
Proof.
  intros ext n al r G tau rho phi alpha Hn Fa Ha So Ht Hr Hp HG HS HN c f g e result He Hf Hg Hres Fres. unfold alpha in *. assert (P18 : 0 < / 10 ^ 18) by (apply Rinv_0_lt_compat; lra).
  destruct (scale_close (param_get al) G Fa Ha HG) as (Fs & PG & Es & Bs & Ss). set (s := gamma (nadd (param_get al) lit1) : A) in *.
  assert (N1 : 1 <= IZR n) by (apply IZR_le; lia). assert (R0 := Rabs_pos (fval (param_get al))).
  assert (B500 : 160 <= bpow radix2 500) by (apply Rle_trans with (bpow radix2 8); [simpl; lra|apply bpow_le; lia]).
  destruct (@laguerre_float_end be ext n al r G tau rho phi Hn Fa ltac:(lra) So Ht Fs ltac:(fold s; rewrite Rabs_pos_eq; lra) HG HS ltac:(lra) HN c f g e result He Hf Hg Hres Fres) as (v & Iv & Ev).
  exists v. split; [exact Iv|]. fold s in Ev. rewrite (Rabs_pos_eq (fval s)) in Ev by lra.
  replace (fval result - v) with ((fval s / G * v - v) + (fval result - fval s / G * v)) by ring.
  eapply Rle_trans; [apply Rabs_triang|]. assert (E1 := scale_acc _ (fval s) G v PG Es).
  assert (q0 : 0 <= 1 / 10 ^ 200) by (apply Rmult_le_pos; [lra|left; apply Rinv_0_lt_compat, pow_lt; lra]).
  assert (E2 := scale_bound (2 * Z.to_nat n) c (fval s) G (1 / 10 ^ 200) (fun j => moment_error (Z.to_nat n) tau (rho + 2 / 10 ^ 15 * (2 * IZR n + Rabs (fval (param_get al)) + 1)) phi j) (fun j => tau ^ j) ltac:(lra) q0 ltac:(intros j; apply moment_error_nonneg; lra) ltac:(intros j; apply pow_le; lra)).
  assert (E3 : (3 * fval s + 1 / 10 ^ 200) * e <= (4 * G + 1 / 10 ^ 200) * e) by (apply Rmult_le_compat_r; [exact He|lra]). lra.
Qed.

Lemma jac_scale_close : forall (al bt : A) GA GB M, ffin al -> ffin bt -> / 10 ^ 18 <= fval al + 1 -> / 10 ^ 18 <= fval bt + 1 ->
  - (7 / 10) <= fval al + fval bt + 1 <= 160 -> / 10 ^ 15 <= Rabs (fval al + fval bt + 1) ->
  is_Gamma (fval al + 1) GA -> is_Gamma (fval bt + 1) GB -> Rpower 2 (fval al + fval bt + 1) * GA * GB <= bpow radix2 990 ->
  jacobi_integral (fval al) (fval bt) (fun _ => 1) M ->
  let s := jacobi_scale al bt : A in ffin s /\ 0 < M /\ Rabs (fval s - M) <= (31 / 10 ^ 12 + 74 / 10 * kappa) * M /\ 0 < fval s <= 101 / 100 * M.
Proof.
  intros al bt GA GB M Fa Fb Ha Hb Hs H0 HGA HGB HB HI s. assert (P18 : 0 < / 10 ^ 18) by (apply Rinv_0_lt_compat; lra).
  rewrite (Gam_eq (fval al + 1) GA ltac:(lra) HGA), (Gam_eq (fval bt + 1) GB ltac:(lra) HGB) in HB.
  destruct (jac_scale be kappa HM al bt M Fa Fb Ha Hb Hs H0 HB HI) as (Fs & PM & Es). fold s in Fs, Es. split; [exact Fs|]. split; [exact PM|]. split; [exact Es|].
  assert (k := kap be kappa HM). assert (B : (31 / 10 ^ 12 + 74 / 10 * kappa) * M <= 1 / 100 * M) by (apply Rmult_le_compat_r; lra). assert (E2 := Rabs_le_inv _ _ (Rle_trans _ _ _ Es B)). lra.
Qed.
(** M itself is bounded by the product of the factors *)
Lemma mass_size : forall al bt M, -1 < al -> -1 < bt -> jacobi_integral al bt (fun _ => 1) M -> Rpower 2 (al + bt + 1) * Gam (al + 1) * Gam (bt + 1) <= bpow radix2 990 -> M <= 2 * bpow radix2 990.
Proof.
  intros al bt M Ha Hb HI HB. destruct (true_mass_ln al bt M Ha Hb HI) as [PM EM]. assert (GA := Gam_pos (al + 1) ltac:(lra)). assert (GB := Gam_pos (bt + 1) ltac:(lra)). assert (GC := Gam_half (al + bt + 2) ltac:(lra)).
  assert (PT : 0 < Rpower 2 (al + bt + 1)) by apply exp_pos.
  assert (E : M * Gam (al + bt + 2) = Rpower 2 (al + bt + 1) * Gam (al + 1) * Gam (bt + 1)).
  { apply ln_inv; [apply Rmult_lt_0_compat; lra|apply Rmult_lt_0_compat; [apply Rmult_lt_0_compat|]; assumption|]. rewrite !ln_mult by (try apply Rmult_lt_0_compat; lra). rewrite EM. unfold Rpower. rewrite ln_exp. ring. }
  assert (M * / 2 <= M * Gam (al + bt + 2)) by (apply Rmult_le_compat_l; lra). lra.
Qed.

Lemma jacobi_closed : forall t (ext : Linalg A) n (pa pb : Param A) (r : GaussJacobi A) (GA GB M dl tau rho phi : R),
  let alpha := fval (param_get pa) in let beta := fval (param_get pb) in
  (2 <= n <= 2 ^ 52)%Z -> (n mod 2 = 0)%Z -> ffin (param_get pa) -> ffin (param_get pb) ->
  1 / 10 ^ 10 <= dl <= 1 -> dl <= 1 + alpha -> dl <= 1 + beta -> dl <= Rabs (1 + alpha + beta) -> - (7 / 10) <= 1 + alpha + beta <= 160 ->
  is_Gamma (alpha + 1) GA -> is_Gamma (beta + 1) GB -> Rpower 2 (alpha + beta + 1) * GA * GB <= bpow radix2 990 ->
  ~ delegated alpha beta -> sorts ext -> 1 <= tau -> 0 <= rho -> 0 <= phi < 1 -> jacobi_integral alpha beta (fun _ => 1) M ->
  float_solver ext (Z.to_nat n) (jacobi_diag (param_get pa) (param_get pb)) (jacobi_off_diag (param_get pa) (param_get pb)) tau rho phi ->
  jacobi_new t ext n pa pb = Ok r ->
  (forall p, In p (jacobi_pairs r) -> ffin (fst p) /\ ffin (snd p)) /\
  forall c f, (forall x, f x = rsum (2 * Z.to_nat n) (fun j => c j * x ^ j)) -> exists v, jacobi_integral alpha beta f v /\
    Rabs (apply_rule (real_pairs (jacobi_pairs r)) f - v) <= (31 / 10 ^ 12 + 74 / 10 * kappa) * Rabs v +
      rsum (2 * Z.to_nat n) (fun j => Rabs (c j) * (101 / 100 * M * (sqrt (IZR n) * moment_error (Z.to_nat n) tau (rho + 9 / 10 ^ 15 / dl) phi j) + (2 / 10 ^ 15 * M + 1 / 10 ^ 200) * tau ^ j)).
Proof.
  intros t ext n pa pb r GA GB M dl tau rho phi alpha beta Hn Ev Fa Fb Hd Ha Hb Hab Hs HGA HGB HB Nd So Ht Hr Hp HI HS HN. unfold alpha, beta in *.
  assert (P18 : / 10 ^ 18 <= 1 / 10 ^ 10) by lra. assert (P15 : / 10 ^ 15 <= 1 / 10 ^ 10) by lra. set (av := fval (param_get pa)) in *. set (bv := fval (param_get pb)) in *.
  assert (ES : 1 + av + bv = av + bv + 1) by ring.
  destruct (jac_scale_close (param_get pa) (param_get pb) GA GB M Fa Fb ltac:(fold av; lra) ltac:(fold bv; lra) ltac:(fold av bv; lra) ltac:(fold av bv; rewrite <- ES; lra) HGA HGB HB HI) as (Fs & PM & Es & Bs).
  set (s := jacobi_scale (param_get pa) (param_get pb) : A) in *. assert (D0 : 0 < dl) by lra.
  rewrite (Gam_eq (av + 1) GA ltac:(lra) HGA), (Gam_eq (bv + 1) GB ltac:(lra) HGB) in HB. assert (MS := mass_size av bv M ltac:(lra) ltac:(lra) HI HB).
  assert (SS : Rabs (fval s) <= bpow radix2 1000). { rewrite Rabs_pos_eq by lra. apply Rle_trans with (4 * bpow radix2 990); [lra|]. change 4 with (bpow radix2 2). rewrite <- bpow_plus. apply bpow_le. lia. }
  destruct (jacobi_float_rule be t ext n pa pb r M dl tau rho phi Hn Ev Fa Fb Hd ltac:(fold av; lra) ltac:(fold bv; lra) Hab Nd So Ht Fs SS HI HS ltac:(lra) HN) as [V P].
  split; [intros p Ip; destruct (P p Ip) as (P1 & P2 & _); split; assumption|].
  intros c f Hf. destruct (V c f Hf) as (v & Iv & Eq). exists v. split; [exact Iv|]. fold s in Eq. rewrite (Rabs_pos_eq (fval s)) in Eq by lra.
  replace (apply_rule (real_pairs (jacobi_pairs r)) f - v) with ((fval s / M * v - v) + (apply_rule (real_pairs (jacobi_pairs r)) f - fval s / M * v)) by ring.
  eapply Rle_trans; [apply Rabs_triang|]. apply Rplus_le_compat; [apply scale_acc; assumption|]. eapply Rle_trans; [exact Eq|].
  assert (0 <= 9 / 10 ^ 15 / dl) by (apply Rmult_le_pos; [lra|left; apply Rinv_0_lt_compat; exact D0]).
  apply (scale_bound _ c (fval s) M (1 / 10 ^ 200) (fun j => sqrt (IZR n) * moment_error (Z.to_nat n) tau (rho + 9 / 10 ^ 15 / dl) phi j) (fun j => tau ^ j)).
  - lra.
  - apply Rmult_le_pos; [lra|left; apply Rinv_0_lt_compat, pow_lt; lra].
  - intros j. apply Rmult_le_pos; [apply sqrt_pos|apply moment_error_nonneg; lra].
  - intros j. apply pow_le. lra.
Qed.
Lemma jacobi_closed_end : forall t (ext : Linalg A) n (pa pb : Param A) (r : GaussJacobi A) (GA GB M dl tau rho phi : R),
  let alpha := fval (param_get pa) in let beta := fval (param_get pb) in
  (2 <= n <= 2 ^ 52)%Z -> (n mod 2 = 0)%Z -> ffin (param_get pa) -> ffin (param_get pb) ->
  1 / 10 ^ 10 <= dl <= 1 -> dl <= 1 + alpha -> dl <= 1 + beta -> dl <= Rabs (1 + alpha + beta) -> - (7 / 10) <= 1 + alpha + beta <= 160 ->
  is_Gamma (alpha + 1) GA -> is_Gamma (beta + 1) GB -> Rpower 2 (alpha + beta + 1) * GA * GB <= bpow radix2 990 ->
  ~ delegated alpha beta -> sorts ext -> 1 <= tau -> 0 <= rho -> 0 <= phi < 1 -> jacobi_integral alpha beta (fun _ => 1) M ->
  float_solver ext (Z.to_nat n) (jacobi_diag (param_get pa) (param_get pb)) (jacobi_off_diag (param_get pa) (param_get pb)) tau rho phi ->
  jacobi_new t ext n pa pb = Ok r ->
  forall c f (g : A -> A) (a b : A) e (result : A), 0 <= e -> (forall x, f x = rsum (2 * Z.to_nat n) (fun j => c j * x ^ j)) ->
  (forall x, In x (map fst (jacobi_pairs r)) -> Rabs (fval (g (to_interval a b x)) - f (fval x)) <= e) ->
  (result = fst (jacobi_integrate (pure g) r a b tt) \/ exists sch, result = jacobi_par_integrate sch g r a b) -> ffin result ->
  let h := fval (half_width a b) in
  exists v, jacobi_integral alpha beta f v /\
    Rabs (fval result - h * v) <=
      scaled_bound (length (jacobi_pairs r)) h (abs_sum (map g (map (to_interval a b) (map fst (jacobi_pairs r)))) (map snd (jacobi_pairs r))) +
      Rabs h * ((31 / 10 ^ 12 + 74 / 10 * kappa) * Rabs v + (4 * M + 1 / 10 ^ 200) * e +
      rsum (2 * Z.to_nat n) (fun j => Rabs (c j) * (101 / 100 * M * (sqrt (IZR n) * moment_error (Z.to_nat n) tau (rho + 9 / 10 ^ 15 / dl) phi j) + (2 / 10 ^ 15 * M + 1 / 10 ^ 200) * tau ^ j))).
Proof.
  intros t ext n pa pb r GA GB M dl tau rho phi alpha beta Hn Ev Fa Fb Hd Ha Hb Hab Hs HGA HGB HB Nd So Ht Hr Hp HI HS HN c f g a b e result He Hf Hg Hres Fres h. unfold alpha, beta in *.
  assert (P18 : / 10 ^ 18 <= 1 / 10 ^ 10) by lra. assert (P15 : / 10 ^ 15 <= 1 / 10 ^ 10) by lra. set (av := fval (param_get pa)) in *. set (bv := fval (param_get pb)) in *.
  assert (ES : 1 + av + bv = av + bv + 1) by ring.
  destruct (jac_scale_close (param_get pa) (param_get pb) GA GB M Fa Fb ltac:(fold av; lra) ltac:(fold bv; lra) ltac:(fold av bv; lra) ltac:(fold av bv; rewrite <- ES; lra) HGA HGB HB HI) as (Fs & PM & Es & Bs).
  set (s := jacobi_scale (param_get pa) (param_get pb) : A) in *. assert (D0 : 0 < dl) by lra.
  rewrite (Gam_eq (av + 1) GA ltac:(lra) HGA), (Gam_eq (bv + 1) GB ltac:(lra) HGB) in HB. assert (MS := mass_size av bv M ltac:(lra) ltac:(lra) HI HB).
  assert (SS : Rabs (fval s) <= bpow radix2 1000). { rewrite Rabs_pos_eq by lra. apply Rle_trans with (4 * bpow radix2 990); [lra|]. change 4 with (bpow radix2 2). rewrite <- bpow_plus. apply bpow_le. lia. }
  destruct (jacobi_float_end be t ext n pa pb r M dl tau rho phi Hn Ev Fa Fb Hd ltac:(fold av; lra) ltac:(fold bv; lra) Hab Nd So Ht Fs SS HI HS ltac:(lra) HN c f g a b e result He Hf Hg Hres Fres) as (v & Iv & Eq).
  exists v. split; [exact Iv|]. fold s in Eq. fold h in Eq. rewrite (Rabs_pos_eq (fval s)) in Eq by lra.
  assert (E1 := scale_acc _ (fval s) M v PM Es). assert (0 <= 9 / 10 ^ 15 / dl) by (apply Rmult_le_pos; [lra|left; apply Rinv_0_lt_compat; exact D0]).
  assert (q0 : 0 <= 1 / 10 ^ 200) by (apply Rmult_le_pos; [lra|left; apply Rinv_0_lt_compat, pow_lt; lra]).
  assert (E2 := scale_bound (2 * Z.to_nat n) c (fval s) M (1 / 10 ^ 200) (fun j => sqrt (IZR n) * moment_error (Z.to_nat n) tau (rho + 9 / 10 ^ 15 / dl) phi j) (fun j => tau ^ j) ltac:(lra) q0
    ltac:(intros j; apply Rmult_le_pos; [apply sqrt_pos|apply moment_error_nonneg; lra]) ltac:(intros j; apply pow_le; lra)).
  assert (E3 : (3 * fval s + 1 / 10 ^ 200) * e <= (4 * M + 1 / 10 ^ 200) * e) by (apply Rmult_le_compat_r; [exact He|lra]).
  replace (fval result - h * v) with ((fval result - h * (fval s / M * v)) + h * (fval s / M * v - v)) by ring. eapply Rle_trans; [apply Rabs_triang|]. rewrite (Rabs_mult h).
  eapply Rle_trans; [apply Rplus_le_compat; [exact Eq|apply Rmult_le_compat_l; [apply Rabs_pos|exact E1]]|]. rewrite Rplus_assoc. apply Rplus_le_compat_l. rewrite <- Rmult_plus_distr_l. apply Rmult_le_compat_l; [apply Rabs_pos|]. lra.
Qed.
End F.
