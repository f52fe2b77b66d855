(** Properties C66 and C67: what errors of the eigenvalue solver do to the Golub-Welsch rules.
    Vocabulary: InexactSpec.v ([eigen_error], [inexact_on], [moment_error]), InexactF64Spec.v
    ([float_solver], [real_pairs]), EigenSpec.v ([monic]: the orthogonal polynomial of a recurrence,
    whose zeros are the nodes of the true rule), WeightSpec.v, RoundSpec.v, PolySpec.v, RuleSpec.v. *)
From Coq Require Import Reals List ZArith Lra Lia.
From Flocq Require Import Core.
From Verif Require Import Arith F64 F64Spec RInst Machine Param Rules Par RSum PolySpec GolubWelsch GWSpec EigenSpec WeightSpec MassSpec RoundSpec InexactSpec InexactF64Spec
  IntegrateSpec Gamma Hermite Laguerre Jacobi RuleSpec InexactRules InexactF64Rules InexactEnd InexactExamples JacobiMore ParamProof.
Local Open Scope R_scope.

(** * C66: exact arithmetic, solver with errors. *)
Theorem C66_hermite_inexact : forall (ext : Linalg RA) n (r : GaussHermite RA) tau rho phi, (1 <= n)%Z -> sorts ext ->
  inexact_on ext (Z.to_nat n) (@hermite_diag RA) (@hermite_off_diag RA) tau rho phi -> hermite_new ext n = Ok r ->
  (forall c f, (forall x, f x = rsum (2 * Z.to_nat n) (fun j => c j * x ^ j)) -> exists v, hermite_integral f v /\
    Rabs (hermite_value r f - v) <= sqrt PI * rsum (2 * Z.to_nat n) (fun j => Rabs (c j) * moment_error (Z.to_nat n) tau rho phi j)) /\
  (phi < 1 -> forall p, In p (hermite_pairs r) -> exists x, monic (@hermite_diag RA) (@hermite_off_diag RA) (Z.to_nat n) x = 0 /\
    Rabs (fst p - x) <= rho * sqrt (INR (Z.to_nat n) / (1 - phi))).
Proof. exact hermite_inexact. Qed.
Print Assumptions C66_hermite_inexact.

Theorem C66_laguerre_inexact : forall (ext : Linalg RA) n (al : Param RA) (r : GaussLaguerre RA) (G tau rho phi : R), (1 <= n)%Z -> -1 < param_get al -> sorts ext ->
  inexact_on ext (Z.to_nat n) (@laguerre_diag RA (param_get al)) (@laguerre_off_diag RA (param_get al)) tau rho phi ->
  laguerre_new ext n al = Ok r -> is_Gamma (param_get al + 1) G ->
  (forall c f, (forall x, f x = rsum (2 * Z.to_nat n) (fun j => c j * x ^ j)) -> exists v, laguerre_integral (param_get al) f v /\
    Rabs (laguerre_value r f - @gamma RA (param_get al + 1) / G * v) <=
      @gamma RA (param_get al + 1) * rsum (2 * Z.to_nat n) (fun j => Rabs (c j) * moment_error (Z.to_nat n) tau rho phi j)) /\
  (phi < 1 -> forall p, In p (laguerre_pairs r) -> exists x, monic (@laguerre_diag RA (param_get al)) (@laguerre_off_diag RA (param_get al)) (Z.to_nat n) x = 0 /\
    Rabs (fst p - x) <= rho * sqrt (INR (Z.to_nat n) / (1 - phi))).
Proof. exact laguerre_inexact. Qed.
Print Assumptions C66_laguerre_inexact.

Theorem C66_jacobi_inexact : forall t (ext : Linalg RA) n (pa pb : Param RA) (r : GaussJacobi RA) (M tau rho phi : R), (2 <= n)%Z ->
  -1 < param_get pa -> -1 < param_get pb -> param_get pa + param_get pb <> -1 ->
  ~ delegated (param_get pa) (param_get pb) -> sorts ext ->
  inexact_on ext (Z.to_nat n) (@jacobi_diag RA (param_get pa) (param_get pb)) (@jacobi_off_diag RA (param_get pa) (param_get pb)) tau rho phi ->
  jacobi_new t ext n pa pb = Ok r -> (n mod 2 = 0)%Z -> jacobi_integral (param_get pa) (param_get pb) (fun _ => 1) M ->
  (forall c f, (forall x, f x = rsum (2 * Z.to_nat n) (fun j => c j * x ^ j)) -> exists v, jacobi_integral (param_get pa) (param_get pb) f v /\
    Rabs (jacobi_value r (-1) 1 f - jacobi_mass (param_get pa) (param_get pb) / M * v) <=
      jacobi_mass (param_get pa) (param_get pb) * rsum (2 * Z.to_nat n) (fun j => Rabs (c j) * moment_error (Z.to_nat n) tau rho phi j)) /\
  (phi < 1 -> forall p, In p (jacobi_pairs r) -> exists x, monic (@jacobi_diag RA (param_get pa) (param_get pb)) (@jacobi_off_diag RA (param_get pa) (param_get pb)) (Z.to_nat n) x = 0 /\
    Rabs (fst p - x) <= rho * sqrt (INR (Z.to_nat n) / (1 - phi))).
Proof. exact jacobi_inexact. Qed.
Print Assumptions C66_jacobi_inexact.

(** An exact solver has errors 0; exact solvers exist for every degree and parameter (C33-C36). *)
Example C66_exact : forall ext n a b, exact_on ext n a b -> exists tau, inexact_on ext n a b tau 0 0.
Proof. exact exact_is_inexact. Qed.
(** A solver with an error of 1/1000. *)
Example C66_shifted : sorts shifted /\ inexact_on shifted 1 (@hermite_diag RA) (@hermite_off_diag RA) 1 (1 / 1000) 0 /\
  exists r : GaussHermite RA, hermite_new shifted 1 = Ok r.
Proof. exact shifted_example. Qed.

(** * C67: double arithmetic. The nodes and weights. *)
Theorem C67_hermite_rule : forall (be : Backend) (ext : Linalg (F64 be)) n (r : GaussHermite (F64 be)) tau rho phi,
  (1 <= n <= 2 ^ 53)%Z -> sorts ext -> sqrt (2 * IZR n) <= tau ->
  float_solver ext (Z.to_nat n) hermite_diag hermite_off_diag tau rho phi -> phi < 1 -> hermite_new ext n = Ok r ->
  (forall c f, (forall x, f x = rsum (2 * Z.to_nat n) (fun j => c j * x ^ j)) -> exists v, hermite_integral f v /\
    Rabs (apply_rule (real_pairs (hermite_pairs r)) f - v) <=
      rsum (2 * Z.to_nat n) (fun j => Rabs (c j) * (sqrt PI * moment_error (Z.to_nat n) tau (rho + 4 / 10 ^ 16 * sqrt (IZR n)) phi j + 3 / 10 ^ 15 * tau ^ j))) /\
  (forall p, In p (hermite_pairs r) -> ffin (fst p) /\ ffin (snd p) /\
    exists x, monic (@hermite_diag RA) (@hermite_off_diag RA) (Z.to_nat n) x = 0 /\
      Rabs (fval (fst p) - x) <= (rho + 4 / 10 ^ 16 * sqrt (IZR n)) * sqrt (IZR n / (1 - phi))).
Proof. exact @hermite_float_rule. Qed.
Print Assumptions C67_hermite_rule.

Theorem C67_laguerre_rule : forall (be : Backend) (ext : Linalg (F64 be)) n (al : Param (F64 be)) (r : GaussLaguerre (F64 be)) (G tau rho phi : R),
  (1 <= n <= 2 ^ 52)%Z -> ffin (param_get al) -> -1 < fval (param_get al) <= bpow radix2 500 -> sorts ext -> 4 * IZR n + 3 * Rabs (fval (param_get al)) + 1 <= tau ->
  let s := gamma (nadd (param_get al) lit1) in
  ffin s -> Rabs (fval s) <= bpow radix2 1000 -> is_Gamma (fval (param_get al) + 1) G ->
  float_solver ext (Z.to_nat n) (laguerre_diag (param_get al)) (laguerre_off_diag (param_get al)) tau rho phi -> phi < 1 -> laguerre_new ext n al = Ok r ->
  (forall c f, (forall x, f x = rsum (2 * Z.to_nat n) (fun j => c j * x ^ j)) -> exists v, laguerre_integral (fval (param_get al)) f v /\
    Rabs (apply_rule (real_pairs (laguerre_pairs r)) f - fval s / G * v) <=
      rsum (2 * Z.to_nat n) (fun j => Rabs (c j) * (Rabs (fval s) * moment_error (Z.to_nat n) tau (rho + 2 / 10 ^ 15 * (2 * IZR n + Rabs (fval (param_get al)) + 1)) phi j +
        (1 / 10 ^ 15 * Rabs (fval s) + 1 / 10 ^ 200) * tau ^ j))) /\
  (forall p, In p (laguerre_pairs r) -> ffin (fst p) /\ ffin (snd p) /\
    exists x, monic (@laguerre_diag RA (fval (param_get al))) (@laguerre_off_diag RA (fval (param_get al))) (Z.to_nat n) x = 0 /\
      Rabs (fval (fst p) - x) <= (rho + 2 / 10 ^ 15 * (2 * IZR n + Rabs (fval (param_get al)) + 1)) * sqrt (IZR n / (1 - phi))).
Proof. exact @laguerre_float_rule. Qed.
Print Assumptions C67_laguerre_rule.

(** The results of integrate and par_integrate: rounding of the sum (C27), evaluation of the
    integrand with an error of at most e, and the errors above. *)
Theorem C67_hermite_result : forall (be : Backend) (ext : Linalg (F64 be)) n (r : GaussHermite (F64 be)) tau rho phi, (1 <= n <= 2 ^ 53)%Z -> sorts ext -> sqrt (2 * IZR n) <= tau ->
  float_solver ext (Z.to_nat n) hermite_diag hermite_off_diag tau rho phi -> phi < 1 -> hermite_new ext n = Ok r ->
  forall c f (g : F64 be -> F64 be) e (result : F64 be), 0 <= e -> (forall x, f x = rsum (2 * Z.to_nat n) (fun j => c j * x ^ j)) ->
  (forall x, In x (map fst (hermite_pairs r)) -> Rabs (fval (g x) - f (fval x)) <= e) ->
  (result = fst (hermite_integrate (pure g) r tt) \/ exists t, result = hermite_par_integrate t g r) -> ffin result ->
  exists v, hermite_integral f v /\
    Rabs (fval result - v) <= sum_bound (length (hermite_pairs r)) (abs_sum (map g (map fst (hermite_pairs r))) (map snd (hermite_pairs r))) + 4 * e +
      rsum (2 * Z.to_nat n) (fun j => Rabs (c j) * (sqrt PI * moment_error (Z.to_nat n) tau (rho + 4 / 10 ^ 16 * sqrt (IZR n)) phi j + 3 / 10 ^ 15 * tau ^ j)).
Proof. exact @hermite_float_end. Qed.
Print Assumptions C67_hermite_result.

Theorem C67_laguerre_result : forall (be : Backend) (ext : Linalg (F64 be)) n (al : Param (F64 be)) (r : GaussLaguerre (F64 be)) (G tau rho phi : R), (1 <= n <= 2 ^ 52)%Z ->
  ffin (param_get al) -> -1 < fval (param_get al) <= bpow radix2 500 -> sorts ext -> 4 * IZR n + 3 * Rabs (fval (param_get al)) + 1 <= tau ->
  ffin (gamma (nadd (param_get al) lit1)) -> Rabs (fval (gamma (nadd (param_get al) lit1))) <= bpow radix2 1000 ->
  is_Gamma (fval (param_get al) + 1) G ->
  float_solver ext (Z.to_nat n) (laguerre_diag (param_get al)) (laguerre_off_diag (param_get al)) tau rho phi -> phi < 1 -> laguerre_new ext n al = Ok r ->
  forall c f (g : F64 be -> F64 be) e (result : F64 be), 0 <= e -> (forall x, f x = rsum (2 * Z.to_nat n) (fun j => c j * x ^ j)) ->
  (forall x, In x (map fst (laguerre_pairs r)) -> Rabs (fval (g x) - f (fval x)) <= e) ->
  (result = fst (laguerre_integrate (pure g) r tt) \/ exists t, result = laguerre_par_integrate t g r) -> ffin result ->
  exists v, laguerre_integral (fval (param_get al)) f v /\
    Rabs (fval result - fval (gamma (nadd (param_get al) lit1)) / G * v) <=
      sum_bound (length (laguerre_pairs r)) (abs_sum (map g (map fst (laguerre_pairs r))) (map snd (laguerre_pairs r))) +
      (3 * Rabs (fval (gamma (nadd (param_get al) lit1))) + 1 / 10 ^ 200) * e +
      rsum (2 * Z.to_nat n) (fun j => Rabs (c j) * (Rabs (fval (gamma (nadd (param_get al) lit1))) *
        moment_error (Z.to_nat n) tau (rho + 2 / 10 ^ 15 * (2 * IZR n + Rabs (fval (param_get al)) + 1)) phi j +
        (1 / 10 ^ 15 * Rabs (fval (gamma (nadd (param_get al) lit1))) + 1 / 10 ^ 200) * tau ^ j)).
Proof. exact @laguerre_float_end. Qed.
Print Assumptions C67_laguerre_result.

(** The two-point Hermite rule in doubles, with rounded eigenvectors, and a Laguerre rule. *)
Example C67_two_points : forall be, sorts (two_point be) /\ float_solver (two_point be) 2 hermite_diag hermite_off_diag 2 0 (1 / 10 ^ 15) /\
  exists r : GaussHermite (F64 be), hermite_new (two_point be) 2 = Ok r.
Proof. exact two_point_example. Qed.
Example C67_tau : sqrt (2 * IZR 2) <= 2.
Proof. rewrite sqrt_square; lra. Qed.
Example C67_one_point : ffin (param_get alpha_zero) /\ -1 < fval (param_get alpha_zero) <= bpow radix2 500 /\ sorts one_point /\
  ffin (gamma (nadd (param_get alpha_zero) lit1)) /\ Rabs (fval (gamma (nadd (param_get alpha_zero) lit1))) <= bpow radix2 1000 /\
  (exists G, is_Gamma (fval (param_get alpha_zero) + 1) G) /\
  float_solver one_point 1 (laguerre_diag (param_get alpha_zero)) (laguerre_off_diag (param_get alpha_zero)) 5 0 0 /\
  exists r : GaussLaguerre (F64 be0), laguerre_new one_point 1 alpha_zero = Ok r.
Proof. exact one_point_example. Qed.
