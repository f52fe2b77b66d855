(** Property C99: Gauss rules on bounded intervals converge for integrands with singular end points, in exact
    arithmetic. Vocabulary: SingularSpec.v ([singular_ends]), TransferSpec.v ([weighted_integral]), WeightSpec.v
    ([jacobi_integral], [delegated]), RuleSpec.v. The eigenvalue solver is assumed to be exact on the matrix in
    question ([sorts], [exact_on], EigenSpec.v). The rules never evaluate the integrand at the end points (C22, C40). *)
From Coq Require Import Reals List ZArith Lra Lia.
From Coquelicot Require Import Coquelicot.
From Verif Require Import Arith RInst Machine Param Rules GolubWelsch GWSpec EigenSpec WeightSpec MassSpec TransferSpec
  Jacobi Chebyshev RuleSpec SingularSpec Singular SingularEx.
Local Open Scope R_scope.

(** Chebyshev, first kind: the integrand may grow like (b-x)^-c and (x-a)^-d with c, d < 1/2 *)
Theorem C99_chebyshev1 : forall a b c d f, a < b -> 0 <= c < / 2 -> 0 <= d < / 2 -> singular_ends a b c d f ->
  exists v, weighted_integral (fun x => / sqrt (1 - x * x)) a b f v /\
  forall eps, 0 < eps -> exists N, forall t n (r : GaussChebyshevFirstKind RA), (N <= n < usize_max t)%Z -> chebyshev1_new t n = Ok r ->
    Rabs (chebyshev1_value r a b f - v) <= eps.
Proof. exact chebyshev1_singular. Qed.
Print Assumptions C99_chebyshev1.

(** Chebyshev, second kind: c, d < 3/2 *)
Theorem C99_chebyshev2 : forall a b c d f, a < b -> 0 <= c < 3 / 2 -> 0 <= d < 3 / 2 -> singular_ends a b c d f ->
  exists v, weighted_integral (fun x => sqrt (1 - x * x)) a b f v /\
  forall eps, 0 < eps -> exists N, forall t n (r : GaussChebyshevSecondKind RA), (N <= n < usize_max t)%Z -> chebyshev2_new t n = Ok r ->
    Rabs (chebyshev2_value r a b f - v) <= eps.
Proof. exact chebyshev2_singular. Qed.
Print Assumptions C99_chebyshev2.

(** Jacobi: c < alpha + 1, d < beta + 1; up to the relative error of the library's total mass (C36),
    the odd degrees with alpha <> beta excluded because of their misplaced middle node (C36) *)
Theorem C99_jacobi : forall pa pb : Param RA, -1 < param_get pa -> -1 < param_get pb -> param_get pa + param_get pb <> -1 ->
  ~ delegated (param_get pa) (param_get pb) ->
  forall T, jacobi_integral (param_get pa) (param_get pb) (fun _ => 1) T ->
  forall a b c d f, a < b -> 0 <= c < param_get pa + 1 -> 0 <= d < param_get pb + 1 -> singular_ends a b c d f ->
  exists v, weighted_integral (fun x => Rpower (1 - x) (param_get pa) * Rpower (1 + x) (param_get pb)) a b f v /\
  forall eps, 0 < eps -> exists N, forall t (ext : Linalg RA) n (r : GaussJacobi RA), (N <= n)%Z -> sorts ext ->
    exact_on ext (Z.to_nat n) (@jacobi_diag RA (param_get pa) (param_get pb)) (@jacobi_off_diag RA (param_get pa) (param_get pb)) ->
    jacobi_new t ext n pa pb = Ok r -> (n mod 2 = 0)%Z \/ param_get pa = param_get pb ->
    Rabs (jacobi_value r a b f - jacobi_mass (param_get pa) (param_get pb) / T * v) <= eps.
Proof. exact jacobi_singular. Qed.
Print Assumptions C99_jacobi.

(** The logarithm on (0,1) and 1/sqrt(1-x) on (-1,1) meet the hypotheses (rules: Prop_Chebyshev.v, Prop_Exact.v). *)
Example C99_logarithm : singular_ends 0 1 0 (1 / 4) ln.
Proof. exact ln_singular. Qed.
Example C99_root : singular_ends (-1) 1 (1 / 2) 0 (fun x => / sqrt (1 - x)).
Proof. exact root_singular. Qed.
