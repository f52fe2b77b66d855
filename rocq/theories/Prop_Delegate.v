(** Property C82: what the Golub-Welsch constructors return does not depend on the eigenvalue routine, and
    the shortcut of Gauss-Jacobi for alpha = beta = 0 and alpha = beta = 1/2 changes nothing but roundings.
    Exact arithmetic; Vocabulary: EigenSpec.v ([exact_on]: the routine returns orthonormal eigenvectors of the
    matrix it is given, in any order and with any signs; [sorts]: the sort routine sorts), WeightSpec.v ([delegated]). *)
From Coq Require Import Reals List ZArith Lra.
From Verif Require Import Arith RInst Machine Param Rules GolubWelsch GWSpec EigenSpec WeightSpec
  Gamma Hermite Laguerre Jacobi Chebyshev Legendre Delegate JacobiMore.
Local Open Scope R_scope.

(** Two correct routines build the same rule, whatever order and signs of the eigenvectors they choose *)
Theorem C82_hermite : forall (e1 e2 : Linalg RA) n (r1 r2 : GaussHermite RA), (1 <= n)%Z ->
  sorts e1 -> exact_on e1 (Z.to_nat n) (@hermite_diag RA) (@hermite_off_diag RA) ->
  sorts e2 -> exact_on e2 (Z.to_nat n) (@hermite_diag RA) (@hermite_off_diag RA) ->
  hermite_new e1 n = Ok r1 -> hermite_new e2 n = Ok r2 -> r1 = r2.
Proof. exact hermite_solvers. Qed.
Print Assumptions C82_hermite.

Theorem C82_laguerre : forall (e1 e2 : Linalg RA) n (al : Param RA) (r1 r2 : GaussLaguerre RA), (1 <= n)%Z -> -1 < param_get al ->
  sorts e1 -> exact_on e1 (Z.to_nat n) (@laguerre_diag RA (param_get al)) (@laguerre_off_diag RA (param_get al)) ->
  sorts e2 -> exact_on e2 (Z.to_nat n) (@laguerre_diag RA (param_get al)) (@laguerre_off_diag RA (param_get al)) ->
  laguerre_new e1 n al = Ok r1 -> laguerre_new e2 n al = Ok r2 -> r1 = r2.
Proof. exact laguerre_solvers. Qed.
Print Assumptions C82_laguerre.

Theorem C82_jacobi : forall t (e1 e2 : Linalg RA) n (pa pb : Param RA) (r1 r2 : GaussJacobi RA), (1 <= n)%Z ->
  -1 < param_get pa -> -1 < param_get pb -> param_get pa + param_get pb <> -1 -> ~ delegated (param_get pa) (param_get pb) ->
  sorts e1 -> exact_on e1 (Z.to_nat n) (@jacobi_diag RA (param_get pa) (param_get pb)) (@jacobi_off_diag RA (param_get pa) (param_get pb)) ->
  sorts e2 -> exact_on e2 (Z.to_nat n) (@jacobi_diag RA (param_get pa) (param_get pb)) (@jacobi_off_diag RA (param_get pa) (param_get pb)) ->
  jacobi_new t e1 n pa pb = Ok r1 -> jacobi_new t e2 n pa pb = Ok r2 -> r1 = r2.
Proof. exact jacobi_solvers. Qed.
Print Assumptions C82_jacobi.

(** alpha = beta = 1/2: the general path [ps] would have given the nodes of the Chebyshev rule that is returned,
    and its weights up to the error of the gamma function *)
Theorem C82_shortcut_chebyshev2 : forall t (ext : Linalg RA) n (pa pb : Param RA) (ps : list (R * R)) (r : GaussJacobi RA), (2 <= n < usize_max t)%Z ->
  param_get pa = / 2 -> param_get pb = / 2 -> sorts ext ->
  exact_on ext (Z.to_nat n) (@jacobi_diag RA (param_get pa) (param_get pb)) (@jacobi_off_diag RA (param_get pa) (param_get pb)) ->
  @golub_welsch RA ext (Z.to_nat n) (@jacobi_diag RA (param_get pa) (param_get pb)) (@jacobi_off_diag RA (param_get pa) (param_get pb))
    (@jacobi_scale RA (param_get pa) (param_get pb)) = Ok ps ->
  jacobi_new t ext n pa pb = Ok r ->
  exists k, Rabs (k - 1) <= 36 / 10 ^ 14 /\ ps = map (fun xw => (fst xw, k * snd xw)) (jacobi_pairs r).
Proof. exact chebyshev2_special. Qed.
Print Assumptions C82_shortcut_chebyshev2.

(** alpha = beta = 0: the general path [ps] would have given the nodes and weights of the Legendre rule that is
    returned, up to the accuracy of its tables and asymptotic formulas and of the gamma function *)
Theorem C82_shortcut_legendre : forall t (ext : Linalg RA) (n : nat) (pa pb : Param RA) (ps : list (R * R)) (r : GaussJacobi RA), (2 <= n)%nat ->
  (100 <= usize_max t)%Z -> (2 * Z.of_nat n <= usize_max t)%Z -> param_get pa = 0 -> param_get pb = 0 -> sorts ext ->
  exact_on ext n (@jacobi_diag RA (param_get pa) (param_get pb)) (@jacobi_off_diag RA (param_get pa) (param_get pb)) ->
  @golub_welsch RA ext n (@jacobi_diag RA (param_get pa) (param_get pb)) (@jacobi_off_diag RA (param_get pa) (param_get pb))
    (@jacobi_scale RA (param_get pa) (param_get pb)) = Ok ps ->
  jacobi_new t ext (Z.of_nat n) pa pb = Ok r ->
  Forall2 (fun p q : R * R => Rabs (fst p - fst q) <= 71 / 10 ^ 15 / (INR n + / 2) /\ Rabs (snd p - snd q) <= 61 / 10 ^ 14 * snd q) (jacobi_pairs r) ps.
Proof. exact legendre_special. Qed.
Print Assumptions C82_shortcut_legendre.

(** The hypotheses can be met for every degree and parameters. *)
Example C82_hermite_case : forall n, (1 <= n)%Z -> exists (ext : Linalg RA) (r : GaussHermite RA), sorts ext /\
  exact_on ext (Z.to_nat n) (@hermite_diag RA) (@hermite_off_diag RA) /\ hermite_new ext n = Ok r.
Proof. exact hermite_solver. Qed.
Example C82_jacobi_case : forall t n (pa pb : Param RA), (2 <= n)%Z -> -1 < param_get pa -> -1 < param_get pb ->
  param_get pa + param_get pb <> -1 -> ~ delegated (param_get pa) (param_get pb) -> exists (e : Linalg RA) (r : GaussJacobi RA),
  sorts e /\ exact_on e (Z.to_nat n) (@jacobi_diag RA (param_get pa) (param_get pb)) (@jacobi_off_diag RA (param_get pa) (param_get pb)) /\ jacobi_new t e n pa pb = Ok r.
Proof. exact jacobi_two_solvers. Qed.
Example C82_shortcut_case : forall t n (pa pb : Param RA), (2 <= n < usize_max t)%Z -> (100 <= usize_max t)%Z -> (2 * n <= usize_max t)%Z ->
  param_get pa = 0 /\ param_get pb = 0 \/ param_get pa = / 2 /\ param_get pb = / 2 ->
  exists (ext : Linalg RA) (ps : list (R * R)) (r : GaussJacobi RA), sorts ext /\
  exact_on ext (Z.to_nat n) (@jacobi_diag RA (param_get pa) (param_get pb)) (@jacobi_off_diag RA (param_get pa) (param_get pb)) /\
  @golub_welsch RA ext (Z.to_nat n) (@jacobi_diag RA (param_get pa) (param_get pb)) (@jacobi_off_diag RA (param_get pa) (param_get pb)) (@jacobi_scale RA (param_get pa) (param_get pb)) = Ok ps /\
  jacobi_new t ext n pa pb = Ok r.
Proof. exact special_solver. Qed.
