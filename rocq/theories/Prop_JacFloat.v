(** Property C67 for Gauss-Jacobi: rules of even degree built by the Golub-Welsch algorithm in double arithmetic.
    [dl] is the distance of alpha, beta and alpha+beta+1 from the values -1, -1 and 0 at which entries of the
    matrix are undefined; the errors of the entries grow like 1/dl. *)
From Coq Require Import Reals List ZArith Lra Lia.
From Flocq Require Import Core.
From Verif Require Import Arith F64 F64Spec RInst Machine Param Rules RSum PolySpec RoundSpec GolubWelsch GWSpec EigenSpec WeightSpec IntegrateSpec GaussSpec InexactSpec InexactF64Spec
  Jacobi JacFloatRule JacFloatEx ParamProof.
Local Open Scope R_scope.

Theorem C67_jacobi_rule : forall (be : Backend) t (ext : Linalg (F64 be)) n (pa pb : Param (F64 be)) (r : GaussJacobi (F64 be)) (M dl tau rho phi : R),
  let alpha := fval (param_get pa) in let beta := fval (param_get pb) in let s := jacobi_scale (param_get pa) (param_get pb) in
  (2 <= n <= 2 ^ 52)%Z -> (n mod 2 = 0)%Z -> ffin (param_get pa) -> ffin (param_get pb) ->
  1 / 10 ^ 10 <= dl <= 1 -> dl <= 1 + alpha /\ alpha <= 10 ^ 15 -> dl <= 1 + beta /\ beta <= 10 ^ 15 -> dl <= Rabs (1 + alpha + beta) ->
  ~ delegated alpha beta -> sorts ext -> 1 <= tau -> ffin s -> Rabs (fval s) <= bpow radix2 1000 -> jacobi_integral alpha beta (fun _ => 1) M ->
  float_solver ext (Z.to_nat n) (jacobi_diag (param_get pa) (param_get pb)) (jacobi_off_diag (param_get pa) (param_get pb)) tau rho phi -> phi < 1 ->
  jacobi_new t ext n pa pb = Ok r ->
  (forall c f, (forall x, f x = rsum (2 * Z.to_nat n) (fun j => c j * x ^ j)) -> exists v, jacobi_integral alpha beta f v /\
    Rabs (apply_rule (real_pairs (jacobi_pairs r)) f - fval s / M * v) <=
      rsum (2 * Z.to_nat n) (fun j => Rabs (c j) * (Rabs (fval s) * (sqrt (IZR n) * moment_error (Z.to_nat n) tau (rho + 9 / 10 ^ 15 / dl) phi j) +
        (1 / 10 ^ 15 * Rabs (fval s) + 1 / 10 ^ 200) * tau ^ j))) /\
  (forall p, In p (jacobi_pairs r) -> ffin (fst p) /\ ffin (snd p) /\
    exists x, monic (@jacobi_diag RA alpha beta) (@jacobi_off_diag RA alpha beta) (Z.to_nat n) x = 0 /\
      Rabs (fval (fst p) - x) <= (rho + 9 / 10 ^ 15 / dl) * sqrt (IZR n / (1 - phi))).
Proof. exact jacobi_float_rule. Qed.
Print Assumptions C67_jacobi_rule.

(** The results of integrate and par_integrate on any interval; f is the integrand as a function of the
    reference variable in [-1,1]. *)
Theorem C67_jacobi_result : forall (be : Backend) t (ext : Linalg (F64 be)) n (pa pb : Param (F64 be)) (r : GaussJacobi (F64 be)) (M dl tau rho phi : R),
  let alpha := fval (param_get pa) in let beta := fval (param_get pb) in let s := jacobi_scale (param_get pa) (param_get pb) in
  (2 <= n <= 2 ^ 52)%Z -> (n mod 2 = 0)%Z -> ffin (param_get pa) -> ffin (param_get pb) ->
  1 / 10 ^ 10 <= dl <= 1 -> dl <= 1 + alpha /\ alpha <= 10 ^ 15 -> dl <= 1 + beta /\ beta <= 10 ^ 15 -> dl <= Rabs (1 + alpha + beta) ->
  ~ delegated alpha beta -> sorts ext -> 1 <= tau -> ffin s -> Rabs (fval s) <= bpow radix2 1000 -> jacobi_integral alpha beta (fun _ => 1) M ->
  float_solver ext (Z.to_nat n) (jacobi_diag (param_get pa) (param_get pb)) (jacobi_off_diag (param_get pa) (param_get pb)) tau rho phi -> phi < 1 ->
  jacobi_new t ext n pa pb = Ok r ->
  forall c f (g : F64 be -> F64 be) (a b : F64 be) e (result : F64 be), 0 <= e -> (forall x, f x = rsum (2 * Z.to_nat n) (fun j => c j * x ^ j)) ->
  (forall x, In x (map fst (jacobi_pairs r)) -> Rabs (fval (g (to_interval a b x)) - f (fval x)) <= e) ->
  (result = fst (jacobi_integrate (pure g) r a b tt) \/ exists sch, result = jacobi_par_integrate sch g r a b) -> ffin result ->
  let h := fval (half_width a b) in
  exists v, jacobi_integral alpha beta f v /\
    Rabs (fval result - h * (fval s / M * v)) <=
      scaled_bound (length (jacobi_pairs r)) h (abs_sum (map g (map (to_interval a b) (map fst (jacobi_pairs r)))) (map snd (jacobi_pairs r))) +
      Rabs h * ((3 * Rabs (fval s) + 1 / 10 ^ 200) * e +
      rsum (2 * Z.to_nat n) (fun j => Rabs (c j) * (Rabs (fval s) * (sqrt (IZR n) * moment_error (Z.to_nat n) tau (rho + 9 / 10 ^ 15 / dl) phi j) +
        (1 / 10 ^ 15 * Rabs (fval s) + 1 / 10 ^ 200) * tau ^ j))).
Proof. exact jacobi_float_end. Qed.
Print Assumptions C67_jacobi_result.

(** The two-point rule for alpha = beta = 1 with rounded eigenvectors; dl = 1. *)
Example C67_jacobi_two_points : let s := jacobi_scale (param_get one_par) (param_get one_par) in
  ffin (param_get one_par) /\ fval (param_get one_par) = 1 /\ ~ delegated 1 1 /\ sorts jac_solver /\ ffin s /\ Rabs (fval s) <= bpow radix2 1000 /\
  (exists M, jacobi_integral 1 1 (fun _ => 1) M) /\
  float_solver jac_solver 2 (jacobi_diag (param_get one_par) (param_get one_par)) (jacobi_off_diag (param_get one_par) (param_get one_par)) 1 0 (1 / 10 ^ 15) /\
  forall t, exists r : GaussJacobi (F64 be0), jacobi_new t jac_solver 2 one_par one_par = Ok r.
Proof. exact jac_example. Qed.
