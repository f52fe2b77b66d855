(** Properties C74 and C75: the gamma function in double arithmetic, and the weights that depend on it.
    [accurate_math be kappa] (GamFloatSpec.v) bounds the relative error of the library's sine and power
    function by kappa; 2^-53 is a library that rounds correctly. *)
From Coq Require Import Reals List ZArith Lra Lia.
From Flocq Require Import Core IEEE754.Binary.
From Verif Require Import Arith F64 F64Spec RInst Machine Param Rules RSum PolySpec RoundSpec GolubWelsch GWSpec EigenSpec WeightSpec IntegrateSpec GaussSpec InexactSpec InexactF64Spec
  Gamma Laguerre Jacobi GamFloatSpec GamFloatScale GamFloatRule GamFloatEx GamFloatCases SmallRules TrigEx GWProof.
Import ListNotations.
Local Open Scope R_scope.

Theorem C74_gamma : forall (be : Backend) kappa, accurate_math be kappa -> forall (x : F64 be) G, ffin x -> / 10 ^ 19 <= fval x <= 169 -> is_Gamma (fval x) G ->
  ffin (gamma x) /\ Rabs (fval (gamma x) - G) <= (1 / 10 ^ 11 + 22 / 10 * kappa) * G.
Proof. exact gamma_true. Qed.
Print Assumptions C74_gamma.

(** Negative arguments, against the reflection formula. *)
Theorem C74_gamma_negative : forall (be : Backend) kappa, accurate_math be kappa -> forall (x : F64 be) G, ffin x -> - (3 / 4) <= fval x <= - / 10 ^ 19 -> is_Gamma (1 - fval x) G ->
  ffin (gamma x) /\ Rabs (fval (gamma x) - PI / (sin (PI * fval x) * G)) <= (1 / 10 ^ 11 + 22 / 10 * kappa) * Rabs (PI / (sin (PI * fval x) * G)).
Proof. exact gamma_true_neg. Qed.
Print Assumptions C74_gamma_negative.

(** The scale factor of the Laguerre weights is close to the integral of the weight function. *)
Theorem C74_laguerre_scale : forall (be : Backend) kappa, accurate_math be kappa -> forall (alpha : F64 be) G, ffin alpha -> / 10 ^ 18 <= fval alpha + 1 <= 1689 / 10 -> is_Gamma (fval alpha + 1) G ->
  ffin (gamma (nadd alpha lit1)) /\ Rabs (fval (gamma (nadd alpha lit1)) - G) <= (1 / 10 ^ 11 + 22 / 10 * kappa) * G.
Proof. exact laguerre_scale. Qed.
Print Assumptions C74_laguerre_scale.

Theorem C74_jacobi_scale : forall (be : Backend) kappa, accurate_math be kappa -> forall (alpha beta : F64 be) GA GB M, ffin alpha -> ffin beta -> / 10 ^ 18 <= fval alpha + 1 -> / 10 ^ 18 <= fval beta + 1 ->
  - (7 / 10) <= fval alpha + fval beta + 1 <= 160 -> / 10 ^ 15 <= Rabs (fval alpha + fval beta + 1) ->
  is_Gamma (fval alpha + 1) GA -> is_Gamma (fval beta + 1) GB -> Rpower 2 (fval alpha + fval beta + 1) * GA * GB <= bpow radix2 990 ->
  jacobi_integral (fval alpha) (fval beta) (fun _ => 1) M ->
  let s := jacobi_scale alpha beta in ffin s /\ 0 < M /\ Rabs (fval s - M) <= (31 / 10 ^ 12 + 74 / 10 * kappa) * M /\ 0 < fval s <= 101 / 100 * M.
Proof. exact jac_scale_close. Qed.
Print Assumptions C74_jacobi_scale.

(** Rules, without a condition on the computed scale factor (compare C67). *)
Theorem C74_laguerre_rule : forall (be : Backend) kappa, accurate_math be kappa ->
  forall (ext : Linalg (F64 be)) n (al : Param (F64 be)) (r : GaussLaguerre (F64 be)) (G tau rho phi : R), let alpha := fval (param_get al) in
  (1 <= n <= 2 ^ 52)%Z -> ffin (param_get al) -> / 10 ^ 18 <= alpha + 1 <= 160 -> sorts ext -> 4 * IZR n + 3 * Rabs alpha + 1 <= tau -> 0 <= rho -> 0 <= phi < 1 ->
  is_Gamma (alpha + 1) G ->
  float_solver ext (Z.to_nat n) (laguerre_diag (param_get al)) (laguerre_off_diag (param_get al)) tau rho phi -> laguerre_new ext n al = Ok r ->
  (forall p, In p (laguerre_pairs r) -> ffin (fst p) /\ ffin (snd p)) /\
  forall c f, (forall x, f x = rsum (2 * Z.to_nat n) (fun j => c j * x ^ j)) -> exists v, laguerre_integral alpha f v /\
    Rabs (apply_rule (real_pairs (laguerre_pairs r)) f - v) <= (1 / 10 ^ 11 + 22 / 10 * kappa) * Rabs v +
      rsum (2 * Z.to_nat n) (fun j => Rabs (c j) * (101 / 100 * G * moment_error (Z.to_nat n) tau (rho + 2 / 10 ^ 15 * (2 * IZR n + Rabs alpha + 1)) phi j + (2 / 10 ^ 15 * G + 1 / 10 ^ 200) * tau ^ j)).
Proof. exact laguerre_closed. Qed.
Print Assumptions C74_laguerre_rule.

Theorem C74_laguerre_result : forall (be : Backend) kappa, accurate_math be kappa ->
  forall (ext : Linalg (F64 be)) n (al : Param (F64 be)) (r : GaussLaguerre (F64 be)) (G tau rho phi : R), let alpha := fval (param_get al) in
  (1 <= n <= 2 ^ 52)%Z -> ffin (param_get al) -> / 10 ^ 18 <= alpha + 1 <= 160 -> sorts ext -> 4 * IZR n + 3 * Rabs alpha + 1 <= tau -> 0 <= rho -> 0 <= phi < 1 ->
  is_Gamma (alpha + 1) G ->
  float_solver ext (Z.to_nat n) (laguerre_diag (param_get al)) (laguerre_off_diag (param_get al)) tau rho phi -> laguerre_new ext n al = Ok r ->
  forall c f (g : F64 be -> F64 be) e (result : F64 be), 0 <= e -> (forall x, f x = rsum (2 * Z.to_nat n) (fun j => c j * x ^ j)) ->
  (forall x, In x (map fst (laguerre_pairs r)) -> Rabs (fval (g x) - f (fval x)) <= e) ->
  (result = fst (laguerre_integrate (pure g) r tt) \/ exists t, result = laguerre_par_integrate t g r) -> ffin result ->
  exists v, laguerre_integral alpha f v /\
    Rabs (fval result - v) <= (1 / 10 ^ 11 + 22 / 10 * kappa) * Rabs v +
      sum_bound (length (laguerre_pairs r)) (abs_sum (map g (map fst (laguerre_pairs r))) (map snd (laguerre_pairs r))) + (4 * G + 1 / 10 ^ 200) * e +
      rsum (2 * Z.to_nat n) (fun j => Rabs (c j) * (101 / 100 * G * moment_error (Z.to_nat n) tau (rho + 2 / 10 ^ 15 * (2 * IZR n + Rabs alpha + 1)) phi j + (2 / 10 ^ 15 * G + 1 / 10 ^ 200) * tau ^ j)).
Proof. exact laguerre_closed_end. Qed.
Print Assumptions C74_laguerre_result.

Theorem C74_jacobi_rule : forall (be : Backend) kappa, accurate_math be kappa ->
  forall t (ext : Linalg (F64 be)) n (pa pb : Param (F64 be)) (r : GaussJacobi (F64 be)) (GA GB M dl tau rho phi : R),
  let alpha := fval (param_get pa) in let beta := fval (param_get pb) in
  (2 <= n <= 2 ^ 52)%Z -> (n mod 2 = 0)%Z -> ffin (param_get pa) -> ffin (param_get pb) ->
  1 / 10 ^ 10 <= dl <= 1 -> dl <= 1 + alpha -> dl <= 1 + beta -> dl <= Rabs (1 + alpha + beta) -> - (7 / 10) <= 1 + alpha + beta <= 160 ->
  is_Gamma (alpha + 1) GA -> is_Gamma (beta + 1) GB -> Rpower 2 (alpha + beta + 1) * GA * GB <= bpow radix2 990 ->
  ~ delegated alpha beta -> sorts ext -> 1 <= tau -> 0 <= rho -> 0 <= phi < 1 -> jacobi_integral alpha beta (fun _ => 1) M ->
  float_solver ext (Z.to_nat n) (jacobi_diag (param_get pa) (param_get pb)) (jacobi_off_diag (param_get pa) (param_get pb)) tau rho phi ->
  jacobi_new t ext n pa pb = Ok r ->
  (forall p, In p (jacobi_pairs r) -> ffin (fst p) /\ ffin (snd p)) /\
  forall c f, (forall x, f x = rsum (2 * Z.to_nat n) (fun j => c j * x ^ j)) -> exists v, jacobi_integral alpha beta f v /\
    Rabs (apply_rule (real_pairs (jacobi_pairs r)) f - v) <= (31 / 10 ^ 12 + 74 / 10 * kappa) * Rabs v +
      rsum (2 * Z.to_nat n) (fun j => Rabs (c j) * (101 / 100 * M * (sqrt (IZR n) * moment_error (Z.to_nat n) tau (rho + 9 / 10 ^ 15 / dl) phi j) + (2 / 10 ^ 15 * M + 1 / 10 ^ 200) * tau ^ j)).
Proof. exact jacobi_closed. Qed.
Print Assumptions C74_jacobi_rule.

Theorem C74_jacobi_result : forall (be : Backend) kappa, accurate_math be kappa ->
  forall t (ext : Linalg (F64 be)) n (pa pb : Param (F64 be)) (r : GaussJacobi (F64 be)) (GA GB M dl tau rho phi : R),
  let alpha := fval (param_get pa) in let beta := fval (param_get pb) in
  (2 <= n <= 2 ^ 52)%Z -> (n mod 2 = 0)%Z -> ffin (param_get pa) -> ffin (param_get pb) ->
  1 / 10 ^ 10 <= dl <= 1 -> dl <= 1 + alpha -> dl <= 1 + beta -> dl <= Rabs (1 + alpha + beta) -> - (7 / 10) <= 1 + alpha + beta <= 160 ->
  is_Gamma (alpha + 1) GA -> is_Gamma (beta + 1) GB -> Rpower 2 (alpha + beta + 1) * GA * GB <= bpow radix2 990 ->
  ~ delegated alpha beta -> sorts ext -> 1 <= tau -> 0 <= rho -> 0 <= phi < 1 -> jacobi_integral alpha beta (fun _ => 1) M ->
  float_solver ext (Z.to_nat n) (jacobi_diag (param_get pa) (param_get pb)) (jacobi_off_diag (param_get pa) (param_get pb)) tau rho phi ->
  jacobi_new t ext n pa pb = Ok r ->
  forall c f (g : F64 be -> F64 be) (a b : F64 be) e (result : F64 be), 0 <= e -> (forall x, f x = rsum (2 * Z.to_nat n) (fun j => c j * x ^ j)) ->
  (forall x, In x (map fst (jacobi_pairs r)) -> Rabs (fval (g (to_interval a b x)) - f (fval x)) <= e) ->
  (result = fst (jacobi_integrate (pure g) r a b tt) \/ exists sch, result = jacobi_par_integrate sch g r a b) -> ffin result ->
  let h := fval (half_width a b) in
  exists v, jacobi_integral alpha beta f v /\
    Rabs (fval result - h * v) <=
      scaled_bound (length (jacobi_pairs r)) h (abs_sum (map g (map (to_interval a b) (map fst (jacobi_pairs r)))) (map snd (jacobi_pairs r))) +
      Rabs h * ((31 / 10 ^ 12 + 74 / 10 * kappa) * Rabs v + (4 * M + 1 / 10 ^ 200) * e +
      rsum (2 * Z.to_nat n) (fun j => Rabs (c j) * (101 / 100 * M * (sqrt (IZR n) * moment_error (Z.to_nat n) tau (rho + 9 / 10 ^ 15 / dl) phi j) + (2 / 10 ^ 15 * M + 1 / 10 ^ 200) * tau ^ j))).
Proof. exact jacobi_closed_end. Qed.
Print Assumptions C74_jacobi_result.

(** A library, arguments and rules that meet the conditions. *)
Example C74_correct_library : accurate_math correct_library (bpow radix2 (-53)) /\ pow_overflows correct_library.
Proof. exact correct_math. Qed.
Example C74_five : ffin (f64_lit 5 0) /\ / 10 ^ 19 <= fval (f64_lit 5 0) <= 169 /\ is_Gamma (fval (f64_lit 5 0)) 24.
Proof. exact ex_five. Qed.
Example C74_minus_half : ffin (f64_lit (-5) (-1)) /\ - (3 / 4) <= fval (f64_lit (-5) (-1)) <= - / 10 ^ 19 /\ exists G, is_Gamma (1 - fval (f64_lit (-5) (-1))) G.
Proof. exact ex_neg. Qed.
Example C74_laguerre_one_point : let be := correct_library in ffin (param_get (zero_par be)) /\ / 10 ^ 18 <= fval (param_get (zero_par be)) + 1 <= 160 /\ sorts (unit_point be) /\
  4 * IZR 1 + 3 * Rabs (fval (param_get (zero_par be))) + 1 <= 5 /\ is_Gamma (fval (param_get (zero_par be)) + 1) 1 /\
  float_solver (unit_point be) 1 (laguerre_diag (param_get (zero_par be))) (laguerre_off_diag (param_get (zero_par be))) 5 0 0 /\
  exists r : GaussLaguerre (F64 be), laguerre_new (unit_point be) 1 (zero_par be) = Ok r.
Proof. exact ex_laguerre. Qed.
Example C74_jacobi_two_points : let be := correct_library in let alpha := fval (param_get (one_par be)) in
  ffin (param_get (one_par be)) /\ alpha = 1 /\ is_Gamma (alpha + 1) 1 /\ Rpower 2 (alpha + alpha + 1) * 1 * 1 <= bpow radix2 990 /\
  ~ delegated alpha alpha /\ sorts (jac_solver be) /\ (exists M, jacobi_integral alpha alpha (fun _ => 1) M) /\
  float_solver (jac_solver be) 2 (jacobi_diag (param_get (one_par be)) (param_get (one_par be))) (jacobi_off_diag (param_get (one_par be)) (param_get (one_par be))) 1 0 (1 / 10 ^ 15) /\
  forall t, exists r : GaussJacobi (F64 be), jacobi_new t (jac_solver be) 2 (one_par be) (one_par be) = Ok r.
Proof. exact ex_jacobi. Qed.

(** C75: weights are finite when the integral of the weight function is a double.  Proved for parameters
    whose intermediate results do not overflow; the condition on the solver is that the first components
    of its eigenvectors are at most 1.1. *)
Theorem C75_laguerre_weights_finite_partial : forall (be : Backend) kappa, accurate_math be kappa ->
  forall (ext : Linalg (F64 be)) n (al : Param (F64 be)) (r : GaussLaguerre (F64 be)), shape_preserving ext -> sorts ext -> (1 <= n)%Z ->
  ffin (param_get al) -> / 10 ^ 18 <= fval (param_get al) + 1 <= 1689 / 10 ->
  (forall m row rest x, companion_matrix (Z.to_nat n) (laguerre_diag (param_get al)) (laguerre_off_diag (param_get al)) = Ok m ->
    snd (symmetric_eigen ext m) = row :: rest -> In x row -> ffin x /\ Rabs (fval x) <= 11 / 10) ->
  laguerre_new ext n al = Ok r -> forall p, In p (laguerre_pairs r) -> ffin (snd p).
Proof. exact laguerre_finite. Qed.
Print Assumptions C75_laguerre_weights_finite_partial.
Theorem C75_jacobi_weights_finite_partial : forall (be : Backend) kappa, accurate_math be kappa ->
  forall t (ext : Linalg (F64 be)) n (pa pb : Param (F64 be)) (r : GaussJacobi (F64 be)) GA GB, shape_preserving ext -> sorts ext -> (2 <= n)%Z ->
  ffin (param_get pa) -> ffin (param_get pb) -> / 10 ^ 18 <= fval (param_get pa) + 1 -> / 10 ^ 18 <= fval (param_get pb) + 1 ->
  - (7 / 10) <= fval (param_get pa) + fval (param_get pb) + 1 <= 160 -> / 10 ^ 15 <= Rabs (fval (param_get pa) + fval (param_get pb) + 1) ->
  is_Gamma (fval (param_get pa) + 1) GA -> is_Gamma (fval (param_get pb) + 1) GB -> Rpower 2 (fval (param_get pa) + fval (param_get pb) + 1) * GA * GB <= bpow radix2 990 ->
  ~ delegated (fval (param_get pa)) (fval (param_get pb)) ->
  (forall m row rest x, companion_matrix (Z.to_nat n) (jacobi_diag (param_get pa) (param_get pb)) (jacobi_off_diag (param_get pa) (param_get pb)) = Ok m ->
    snd (symmetric_eigen ext m) = row :: rest -> In x row -> ffin x /\ Rabs (fval x) <= 11 / 10) ->
  jacobi_new t ext n pa pb = Ok r -> forall p, In p (jacobi_pairs r) -> ffin (snd p).
Proof. exact jacobi_finite. Qed.
Print Assumptions C75_jacobi_weights_finite_partial.

(** GaussLaguerre::new(n, 169.0): the integral of x^169 e^-x is 169!, below 2^1013, and no weight is finite. *)
Theorem C75_laguerre_weights_finite_refuted : forall (be : Backend), pow_overflows be ->
  exists al : Param (F64 be), param_new (f64_lit 169 0 : F64 be) = Some al /\ fval (param_get al) = 169 /\
  (exists G, is_Gamma (169 + 1) G /\ G <= bpow radix2 1013) /\
  forall (ext : Linalg (F64 be)) n r, shape_preserving ext -> sorts ext -> (1 <= n)%Z -> laguerre_new ext n al = Ok r ->
    laguerre_pairs r <> [] /\ forall p, In p (laguerre_pairs r) -> ~ ffin (snd p).
Proof. exact laguerre_infinite. Qed.
Print Assumptions C75_laguerre_weights_finite_refuted.
(** GaussJacobi::new(n, 160.0, 0.0): the integral of (1-x)^160 over [-1,1] is 2^161/161, and no weight is finite. *)
Theorem C75_jacobi_weights_finite_refuted : forall (be : Backend) kappa, accurate_math be kappa ->
  exists pa pb : Param (F64 be), param_new (f64_lit 160 0 : F64 be) = Some pa /\ param_new (f64_lit 0 0 : F64 be) = Some pb /\ fval (param_get pa) = 160 /\ fval (param_get pb) = 0 /\
  (forall M, jacobi_integral 160 0 (fun _ => 1) M -> M = 2 ^ 161 / 161) /\
  forall t (ext : Linalg (F64 be)) n r, shape_preserving ext -> sorts ext -> (2 <= n)%Z -> (n < usize_max t)%Z -> jacobi_new t ext n pa pb = Ok r ->
    jacobi_pairs r <> [] /\ forall p, In p (jacobi_pairs r) -> ~ ffin (snd p).
Proof. exact jacobi_infinite. Qed.
Print Assumptions C75_jacobi_weights_finite_refuted.
Example C75_solver : forall be : Backend, shape_preserving (ones be) /\ sorts (ones be) /\
  (forall m row rest x, snd (symmetric_eigen (ones be) m) = row :: rest -> In x row -> ffin x /\ Rabs (fval x) <= 11 / 10).
Proof. exact ex_ones. Qed.
