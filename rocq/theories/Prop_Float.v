(** Properties C37, C38, C47, C48, C49, C51: double arithmetic, for every math
    backend [be] (which sin, cos, pow are used and which NaN an operation returns is
    left open).  Vocabulary: F64Spec ([fval], [ffin], [fnan], [admissible]), SignSpec,
    ZeroSpec, EqSpec, GWSpec ([entry], [square], [sorts]). *)
From Coq Require Import Reals ZArith List.
From Flocq Require Import Core.
From Verif Require Import Arith F64 F64Spec Machine Param Rules Par NewtonCotes Chebyshev GolubWelsch Gamma Hermite Laguerre Legendre Jacobi
  IntegrateSpec GaussSpec GWSpec ParamSpec SignSpec ZeroSpec EqSpec SignRules SignWeights ZeroProof EqProof JacobiNan FloatExamples ExtraProof.
Import ListNotations.
Local Open Scope R_scope.

(** C37 is violated: with alpha = -0.25 and beta = -0.75, both accepted by
    [FiniteAboveNegOneF64::new], the matrix given to the eigenvalue solver contains a NaN
    for every degree from 2 on. *)
Theorem C37_matrix_entry_refuted : forall be : Backend, exists alpha beta : Param (F64 be),
  param_new (A := F64 be) (f64_lit (-25) (-2)) = Some alpha /\ param_new (A := F64 be) (f64_lit (-75) (-2)) = Some beta /\
  forall n, (2 <= n)%nat ->
  exists m, companion_matrix n (jacobi_diag (param_get alpha) (param_get beta)) (jacobi_off_diag (param_get alpha) (param_get beta)) = Ok m
    /\ fnan (entry m 0 1).
Proof. exact witness_nan. Qed.
Print Assumptions C37_matrix_entry_refuted.
(** ... and so for all alpha, beta that are multiples of 2^-52 with alpha + beta = -1. *)
Theorem C37_matrix_entry_nan_family : forall (be : Backend) n (alpha beta : F64 be) a b, (2 <= n)%nat -> ffin alpha -> ffin beta ->
  fval alpha = IZR a * bpow radix2 (-52) -> fval beta = IZR b * bpow radix2 (-52) ->
  (- 2 ^ 52 < a)%Z -> (- 2 ^ 52 < b)%Z -> (a + b = - 2 ^ 52)%Z ->
  exists m, companion_matrix n (jacobi_diag alpha beta) (jacobi_off_diag alpha beta) = Ok m /\ fnan (entry m 0 1).
Proof. exact family. Qed.
Print Assumptions C37_matrix_entry_nan_family.
(** C37 is violated by large parameters too: alpha = beta = 2^600. *)
Theorem C37_large_parameters_refuted : forall be : Backend, exists alpha : Param (F64 be),
  param_new (A := F64 be) (f64_of_Z (2 ^ 600)) = Some alpha /\
  forall n, (2 <= n)%nat ->
  exists m, companion_matrix n (jacobi_diag (param_get alpha) (param_get alpha)) (jacobi_off_diag (param_get alpha) (param_get alpha)) = Ok m
    /\ fnan (entry m 1 1).
Proof. exact witness_huge. Qed.
Print Assumptions C37_large_parameters_refuted.
(** The part of C37 that holds: parameters up to 2^200 and not within 2^-48 of the line
    alpha + beta = -1 give a matrix of finite numbers. *)
Theorem C37_matrix_entries_finite_partial : forall (be : Backend) n (alpha beta : F64 be), (1 <= n)%nat -> (Z.of_nat n <= 2 ^ 50)%Z ->
  admissible alpha -> admissible beta -> fval alpha <= bpow radix2 200 -> fval beta <= bpow radix2 200 ->
  bpow radix2 (-48) <= Rabs (fval alpha + fval beta + 1) ->
  exists m, companion_matrix n (jacobi_diag alpha beta) (jacobi_off_diag alpha beta) = Ok m /\ square n m /\
  forall i j, (i < n)%nat -> (j < n)%nat -> ffin (entry m i j).
Proof. exact entries_finite. Qed.
Print Assumptions C37_matrix_entries_finite_partial.
Example C37_example : forall be : Backend, admissible (@lit_half (F64 be)) /\ admissible (@lit2 (F64 be)) /\
  fval (@lit_half (F64 be)) <= bpow radix2 200 /\ fval (@lit2 (F64 be)) <= bpow radix2 200 /\
  bpow radix2 (-48) <= Rabs (fval (@lit_half (F64 be)) + fval (@lit2 (F64 be)) + 1).
Proof. exact ex_jacobi. Qed.
(** Near that line only the entries (0,1) and (1,0) may be wrong. *)
Theorem C37_other_entries_finite_partial : forall (be : Backend) n (alpha beta : F64 be), (1 <= n)%nat -> (Z.of_nat n <= 2 ^ 50)%Z ->
  admissible alpha -> admissible beta -> fval alpha <= bpow radix2 200 -> fval beta <= bpow radix2 200 ->
  exists m, companion_matrix n (jacobi_diag alpha beta) (jacobi_off_diag alpha beta) = Ok m /\ square n m /\
  forall i j, (i < n)%nat -> (j < n)%nat -> (1 < i + j \/ i = j)%nat -> ffin (entry m i j).
Proof. exact other_entries_finite. Qed.
Print Assumptions C37_other_entries_finite_partial.

(** C38: the three special parameter pairs give the special rules. *)
Theorem C38_legendre_case : forall (be : Backend) t ext deg (alpha beta : Param (F64 be)),
  admissible (param_get alpha) -> admissible (param_get beta) ->
  fval (param_get alpha) = 0 /\ fval (param_get beta) = 0 ->
  jacobi_new t ext deg alpha beta = (let! r := legendre_new t deg in Ok (jacobi_from_legendre r)).
Proof. exact jacobi_legendre. Qed.
Print Assumptions C38_legendre_case.
Theorem C38_chebyshev1_case : forall (be : Backend) t ext deg (alpha beta : Param (F64 be)),
  admissible (param_get alpha) -> admissible (param_get beta) ->
  fval (param_get alpha) = - / 2 /\ fval (param_get beta) = - / 2 ->
  jacobi_new t ext deg alpha beta = (let! r := chebyshev1_new t deg in Ok (jacobi_from_chebyshev1 r)).
Proof. exact jacobi_chebyshev1. Qed.
Print Assumptions C38_chebyshev1_case.
Theorem C38_chebyshev2_case : forall (be : Backend) t ext deg (alpha beta : Param (F64 be)),
  admissible (param_get alpha) -> admissible (param_get beta) ->
  fval (param_get alpha) = / 2 /\ fval (param_get beta) = / 2 ->
  jacobi_new t ext deg alpha beta = (let! r := chebyshev2_new t deg in Ok (jacobi_from_chebyshev2 r)).
Proof. exact jacobi_chebyshev2. Qed.
Print Assumptions C38_chebyshev2_case.
Theorem C38_conversions : forall be : Backend,
  (forall r : GaussLegendre (F64 be), jacobi_pairs (jacobi_from_legendre r) = legendre_pairs r /\
     fval (param_get (jacobi_get_alpha (jacobi_from_legendre r))) = 0 /\ fval (param_get (jacobi_get_beta (jacobi_from_legendre r))) = 0) /\
  (forall r : GaussChebyshevFirstKind (F64 be), jacobi_pairs (jacobi_from_chebyshev1 r) = chebyshev1_pairs r /\
     fval (param_get (jacobi_get_alpha (jacobi_from_chebyshev1 r))) = - / 2 /\ fval (param_get (jacobi_get_beta (jacobi_from_chebyshev1 r))) = - / 2) /\
  (forall r : GaussChebyshevSecondKind (F64 be), jacobi_pairs (jacobi_from_chebyshev2 r) = chebyshev2_pairs r /\
     fval (param_get (jacobi_get_alpha (jacobi_from_chebyshev2 r))) = / 2 /\ fval (param_get (jacobi_get_beta (jacobi_from_chebyshev2 r))) = / 2).
Proof. exact jacobi_from. Qed.
Print Assumptions C38_conversions.
(** alpha() and beta() compare equal to the arguments in every case, and are the very
    same doubles outside the special cases. *)
Theorem C38_parameters_reported : forall (be : Backend) t ext deg (alpha beta : Param (F64 be)) r,
  admissible (param_get alpha) -> admissible (param_get beta) ->
  jacobi_new t ext deg alpha beta = Ok r ->
  param_eqb (jacobi_get_alpha r) alpha = true /\ param_eqb (jacobi_get_beta r) beta = true.
Proof. exact jacobi_params. Qed.
Print Assumptions C38_parameters_reported.
Theorem C38_parameters_kept : forall (be : Backend) t ext deg (alpha beta : Param (F64 be)) r,
  admissible (param_get alpha) -> admissible (param_get beta) ->
  ~ (fval (param_get alpha) = 0 /\ fval (param_get beta) = 0) ->
  ~ (fval (param_get alpha) = - / 2 /\ fval (param_get beta) = - / 2) ->
  ~ (fval (param_get alpha) = / 2 /\ fval (param_get beta) = / 2) ->
  jacobi_new t ext deg alpha beta = Ok r -> jacobi_get_alpha r = alpha /\ jacobi_get_beta r = beta.
Proof. exact jacobi_general. Qed.
Print Assumptions C38_parameters_kept.
(** A Laguerre rule reports its parameter unchanged. *)
Theorem C38_laguerre_alpha : forall (A : Arith) (ext : Linalg A) n (alpha : Param A) r,
  laguerre_new ext n alpha = Ok r -> laguerre_get_alpha r = alpha.
Proof. exact laguerre_alpha_kept. Qed.
Print Assumptions C38_laguerre_alpha.
Example C38_example : forall be : Backend,
  admissible (@lit_neg_half (F64 be)) /\ admissible (@lit_half (F64 be)) /\ admissible (@lit0 (F64 be)) /\
  fval (@lit_neg_half (F64 be)) = - / 2 /\ fval (@lit_half (F64 be)) = / 2 /\ fval (@lit0 (F64 be)) = 0.
Proof. exact ex_params. Qed.

(** C47: integrals over [a,a] are zero when nothing overflows, and are never anything
    but zero or NaN. *)
Theorem C47_newton_cotes_zero : forall (be : Backend) S (f : S -> F64 be -> F64 be * S) (a : F64 be), ffin a ->
  (forall s x, moderate (fst (f s x))) -> forall s,
  (forall r, nonzero_u32 (midpoint_degree r) -> is_zero (fst (midpoint_integrate f r a a s))) /\
  (forall r, nonzero_u32 (trapezoid_degree r) -> is_zero (fst (trapezoid_integrate f r a a s))) /\
  (forall r, nonzero_u32 (simpson_degree r) -> is_zero (fst (simpson_integrate f r a a s))).
Proof. exact zero_nc. Qed.
Print Assumptions C47_newton_cotes_zero.
Theorem C47_newton_cotes_par_zero : forall (be : Backend) (g : F64 be -> F64 be) (a : F64 be), ffin a ->
  (forall x, moderate (g x)) -> forall t t',
  (forall r, nonzero_u32 (midpoint_degree r) -> is_zero (midpoint_par_integrate g t r a a)) /\
  (forall r, nonzero_u32 (trapezoid_degree r) -> is_zero (trapezoid_par_integrate g t r a a)) /\
  (forall r, nonzero_u32 (simpson_degree r) -> is_zero (simpson_par_integrate g t t' r a a)).
Proof. exact zero_nc_par. Qed.
Print Assumptions C47_newton_cotes_par_zero.
Theorem C47_gauss_zero : forall (be : Backend) S (f : S -> F64 be -> F64 be * S) (a : F64 be), ffin a -> forall s (p : Pairs (F64 be)),
  ffin (weighted_sum (fst (call_all f (map (to_interval a a) (map fst p)) s)) (map snd p)) ->
  (forall r, legendre_pairs r = p -> is_zero (fst (legendre_integrate f r a a s))) /\
  (forall r, jacobi_pairs r = p -> is_zero (fst (jacobi_integrate f r a a s))) /\
  (forall r, chebyshev1_pairs r = p -> is_zero (fst (chebyshev1_integrate f r a a s))) /\
  (forall r, chebyshev2_pairs r = p -> is_zero (fst (chebyshev2_integrate f r a a s))).
Proof. exact zero_gauss. Qed.
Print Assumptions C47_gauss_zero.
Theorem C47_zero_or_nan : forall (be : Backend) S (f : S -> F64 be -> F64 be * S) (a : F64 be), ffin a -> forall s,
  let zero_or_nan x := is_zero x \/ fnan x in
  (forall r, nonzero_u32 (midpoint_degree r) -> zero_or_nan (fst (midpoint_integrate f r a a s))) /\
  (forall r, nonzero_u32 (trapezoid_degree r) -> zero_or_nan (fst (trapezoid_integrate f r a a s))) /\
  (forall r, nonzero_u32 (simpson_degree r) -> zero_or_nan (fst (simpson_integrate f r a a s))) /\
  (forall r, zero_or_nan (fst (legendre_integrate f r a a s))) /\
  (forall r, zero_or_nan (fst (jacobi_integrate f r a a s))) /\
  (forall r, zero_or_nan (fst (chebyshev1_integrate f r a a s))) /\
  (forall r, zero_or_nan (fst (chebyshev2_integrate f r a a s))).
Proof. exact zero_or_nan. Qed.
Print Assumptions C47_zero_or_nan.
Theorem C47_par_zero_or_nan : forall (be : Backend) (g : F64 be -> F64 be) (a : F64 be), ffin a -> forall t t',
  let zero_or_nan x := is_zero x \/ fnan x in
  (forall r, nonzero_u32 (midpoint_degree r) -> zero_or_nan (midpoint_par_integrate g t r a a)) /\
  (forall r, nonzero_u32 (trapezoid_degree r) -> zero_or_nan (trapezoid_par_integrate g t r a a)) /\
  (forall r, nonzero_u32 (simpson_degree r) -> zero_or_nan (simpson_par_integrate g t t' r a a)) /\
  (forall r, zero_or_nan (legendre_par_integrate t g r a a)) /\
  (forall r, zero_or_nan (jacobi_par_integrate t g r a a)) /\
  (forall r, zero_or_nan (chebyshev1_par_integrate t g r a a)) /\
  (forall r, zero_or_nan (chebyshev2_par_integrate t g r a a)).
Proof. exact zero_or_nan_par. Qed.
Print Assumptions C47_par_zero_or_nan.
Example C47_example : forall be : Backend, moderate (@lit2 (F64 be)) /\ ffin (@lit_half (F64 be)).
Proof. exact ex_moderate. Qed.

(** C48: rules compare like their contents; a clone equals the original iff there is no NaN. *)
Theorem C48_pairs_equal : forall (be : Backend) (p q : Pairs (F64 be)), pairs_eqb p q = true <->
  Forall2 (fun x y => ieee_equal (fst x) (fst y) /\ ieee_equal (snd x) (snd y)) p q.
Proof. exact pairs_eq. Qed.
Print Assumptions C48_pairs_equal.
Theorem C48_laguerre_equal : forall (be : Backend) (r s : GaussLaguerre (F64 be)), laguerre_eqb r s = true <->
  Forall2 (fun x y => ieee_equal (fst x) (fst y) /\ ieee_equal (snd x) (snd y)) (laguerre_pairs r) (laguerre_pairs s) /\
  ieee_equal (param_get (laguerre_alpha r)) (param_get (laguerre_alpha s)).
Proof. exact laguerre_eq. Qed.
Print Assumptions C48_laguerre_equal.
Theorem C48_jacobi_equal : forall (be : Backend) (r s : GaussJacobi (F64 be)), jacobi_eqb r s = true <->
  Forall2 (fun x y => ieee_equal (fst x) (fst y) /\ ieee_equal (snd x) (snd y)) (jacobi_pairs r) (jacobi_pairs s) /\
  ieee_equal (param_get (jacobi_alpha r)) (param_get (jacobi_alpha s)) /\
  ieee_equal (param_get (jacobi_beta r)) (param_get (jacobi_beta s)).
Proof. exact jacobi_eq. Qed.
Print Assumptions C48_jacobi_equal.
Theorem C48_clone_equal_iff : forall be : Backend,
  (forall p : Pairs (F64 be), pairs_eqb p p = true <-> Forall (fun x => ~ fnan (fst x) /\ ~ fnan (snd x)) p) /\
  (forall r : GaussLaguerre (F64 be), laguerre_eqb r r = true <->
     Forall (fun x => ~ fnan (fst x) /\ ~ fnan (snd x)) (laguerre_pairs r) /\ ~ fnan (param_get (laguerre_alpha r))) /\
  (forall r : GaussJacobi (F64 be), jacobi_eqb r r = true <->
     Forall (fun x => ~ fnan (fst x) /\ ~ fnan (snd x)) (jacobi_pairs r) /\
     ~ fnan (param_get (jacobi_alpha r)) /\ ~ fnan (param_get (jacobi_beta r))).
Proof. exact (fun be => conj (clone_eq be) (conj (laguerre_clone be) (jacobi_clone be))). Qed.
Print Assumptions C48_clone_equal_iff.
Example C48_example : ieee_equal (Binary.B754_zero 53 1024 true) (Binary.B754_zero 53 1024 false).
Proof. exact ex_eq. Qed.

(** C49: integrands without negative values have no negative integrals. *)
Theorem C49_integrate_not_negative : forall (be : Backend) S (f : S -> F64 be -> F64 be * S),
  (forall s x, not_negative (fst (f s x))) ->
  forall a b : F64 be, nlt b a = false -> forall s,
  (forall r, nonzero_u32 (midpoint_degree r) -> not_negative (fst (midpoint_integrate f r a b s))) /\
  (forall r, nonzero_u32 (trapezoid_degree r) -> not_negative (fst (trapezoid_integrate f r a b s))) /\
  (forall r, nonzero_u32 (simpson_degree r) -> not_negative (fst (simpson_integrate f r a b s))) /\
  (forall r, weights_not_negative (legendre_pairs r) -> not_negative (fst (legendre_integrate f r a b s))) /\
  (forall r, weights_not_negative (jacobi_pairs r) -> not_negative (fst (jacobi_integrate f r a b s))) /\
  (forall r, weights_not_negative (chebyshev1_pairs r) -> not_negative (fst (chebyshev1_integrate f r a b s))) /\
  (forall r, weights_not_negative (chebyshev2_pairs r) -> not_negative (fst (chebyshev2_integrate f r a b s))) /\
  (forall r, weights_not_negative (hermite_pairs r) -> not_negative (fst (hermite_integrate f r s))) /\
  (forall r, weights_not_negative (laguerre_pairs r) -> not_negative (fst (laguerre_integrate f r s))).
Proof. exact sign_integrate. Qed.
Print Assumptions C49_integrate_not_negative.
Theorem C49_par_integrate_not_negative : forall (be : Backend) (g : F64 be -> F64 be), (forall x, not_negative (g x)) ->
  forall a b : F64 be, nlt b a = false -> forall t t',
  (forall r, nonzero_u32 (midpoint_degree r) -> not_negative (midpoint_par_integrate g t r a b)) /\
  (forall r, nonzero_u32 (trapezoid_degree r) -> not_negative (trapezoid_par_integrate g t r a b)) /\
  (forall r, nonzero_u32 (simpson_degree r) -> not_negative (simpson_par_integrate g t t' r a b)) /\
  (forall r, weights_not_negative (legendre_pairs r) -> not_negative (legendre_par_integrate t g r a b)) /\
  (forall r, weights_not_negative (jacobi_pairs r) -> not_negative (jacobi_par_integrate t g r a b)) /\
  (forall r, weights_not_negative (chebyshev1_pairs r) -> not_negative (chebyshev1_par_integrate t g r a b)) /\
  (forall r, weights_not_negative (chebyshev2_pairs r) -> not_negative (chebyshev2_par_integrate t g r a b)) /\
  (forall r, weights_not_negative (hermite_pairs r) -> not_negative (hermite_par_integrate t g r)) /\
  (forall r, weights_not_negative (laguerre_pairs r) -> not_negative (laguerre_par_integrate t g r)).
Proof. exact sign_par_integrate. Qed.
Print Assumptions C49_par_integrate_not_negative.
(** The constructors establish the hypothesis on the weights: Hermite and Chebyshev
    always, whatever the eigenvalue solver and the math library return; Laguerre if the
    computed gamma(alpha+1) is not negative. *)
Theorem C49_hermite_weights : forall (be : Backend) (ext : Linalg (F64 be)) deg r, sorts ext ->
  hermite_new ext deg = Ok r -> weights_not_negative (hermite_pairs r).
Proof. exact hermite_weights_nn. Qed.
Print Assumptions C49_hermite_weights.
Theorem C49_chebyshev1_weights : forall (be : Backend) t deg (r : GaussChebyshevFirstKind (F64 be)), (1 <= deg < 2 ^ 64)%Z ->
  chebyshev1_new t deg = Ok r -> weights_not_negative (chebyshev1_pairs r).
Proof. exact chebyshev1_weights_nn. Qed.
Print Assumptions C49_chebyshev1_weights.
Theorem C49_chebyshev2_weights : forall (be : Backend) t deg (r : GaussChebyshevSecondKind (F64 be)), (1 <= deg < 2 ^ 64)%Z ->
  chebyshev2_new t deg = Ok r -> weights_not_negative (chebyshev2_pairs r).
Proof. exact chebyshev2_weights_nn. Qed.
Print Assumptions C49_chebyshev2_weights.
Theorem C49_laguerre_weights : forall (be : Backend) (ext : Linalg (F64 be)) deg alpha r, sorts ext ->
  not_negative (@gamma (F64 be) (nadd (param_get alpha) lit1)) ->
  laguerre_new ext deg alpha = Ok r -> weights_not_negative (laguerre_pairs r).
Proof. exact laguerre_weights_nn. Qed.
Print Assumptions C49_laguerre_weights.
Example C49_example : forall be : Backend,
  weights_not_negative [(@lit_neg1 (F64 be), @lit2 (F64 be)); (@lit1 (F64 be), @lit_half (F64 be))].
Proof. exact ex_weights. Qed.
Example C49_example2 : forall be : Backend, nlt (@lit2 (F64 be)) (@lit1 (F64 be)) = false /\ not_negative (@lit2 (F64 be)).
Proof. exact ex_sign. Qed.

(** C51: parameters are totally ordered like the numbers they hold. *)
Theorem C51_parameter_order : forall (be : Backend) (p q : Param (F64 be)), admissible (param_get p) -> admissible (param_get q) ->
  (param_partial_cmp p q = Some Lt <-> fval (param_get p) < fval (param_get q)) /\
  (param_partial_cmp p q = Some Eq <-> fval (param_get p) = fval (param_get q)) /\
  (param_partial_cmp p q = Some Gt <-> fval (param_get p) > fval (param_get q)) /\
  (param_eqb p q = true <-> fval (param_get p) = fval (param_get q)).
Proof. exact param_order. Qed.
Print Assumptions C51_parameter_order.
