(** Properties C54, C55, C56: how fast the Gauss rules converge, in exact arithmetic.
    Vocabulary: ErrorSpec.v ([has_derivatives], [oscillation], [continuous_on]), TransferSpec.v
    ([weighted_integral]), WeightSpec.v, ChebSpec.v, PolySpec.v. The Golub-Welsch rules assume an
    eigenvalue solver that is exact on the matrix in question ([exact_on], EigenSpec.v). *)
From Coq Require Import Reals List ZArith Lra Lia.
From Coquelicot Require Import Coquelicot.
From Verif Require Import Arith RInst Machine Param Rules PolySpec GolubWelsch GWSpec EigenSpec WeightSpec MassSpec ChebSpec TransferSpec ErrorSpec
  Gamma Hermite Laguerre Jacobi Chebyshev Legendre RuleSpec GaussExact ErrRules ErrCheb ErrLimit ErrLeg ErrSharp ErrEx.
Local Open Scope R_scope.

(** * C54: the classical error term. An integrand whose 2n-th derivative is bounded by M. *)
(** Hermite *)
Theorem C54_hermite_error : forall (ext : Linalg RA) n (r : GaussHermite RA), (1 <= n)%Z -> sorts ext ->
  exact_on ext (Z.to_nat n) (@hermite_diag RA) (@hermite_off_diag RA) -> hermite_new ext n = Ok r ->
  let m := Z.to_nat n in
  forall (F : nat -> R -> R) M v, has_derivatives (fun _ => True) (2 * m) F -> (forall x, Rabs (F (2 * m)%nat x) <= M) ->
  hermite_integral (F O) v ->
  Rabs (hermite_value r (F O) - v) <= M / INR (fact (2 * m)) * (sqrt PI * INR (fact m) / 2 ^ m).
Proof. exact hermite_error. Qed.
Print Assumptions C54_hermite_error.

(** Laguerre; [gamma]/G is the relative error of the library's gamma function (C50) *)
Theorem C54_laguerre_error : forall (ext : Linalg RA) n (al : Param RA) (r : GaussLaguerre RA) (G : R), (1 <= n)%Z -> -1 < param_get al -> sorts ext ->
  exact_on ext (Z.to_nat n) (@laguerre_diag RA (param_get al)) (@laguerre_off_diag RA (param_get al)) ->
  laguerre_new ext n al = Ok r -> is_Gamma (param_get al + 1) G ->
  let m := Z.to_nat n in
  forall (F : nat -> R -> R) M v, has_derivatives (fun x => 0 < x) (2 * m) F -> (forall x, 0 < x -> Rabs (F (2 * m)%nat x) <= M) ->
  laguerre_integral (param_get al) (F O) v ->
  Rabs (laguerre_value r (F O) - @gamma RA (param_get al + 1) / G * v) <=
    M / INR (fact (2 * m)) * (INR (fact m) * rising (param_get al) m * @gamma RA (param_get al + 1)).
Proof. exact laguerre_error. Qed.
Print Assumptions C54_laguerre_error.

(** Jacobi, on every interval; the odd degrees with alpha <> beta are excluded because of their misplaced middle node (C36) *)
Theorem C54_jacobi_error : forall t (ext : Linalg RA) n (pa pb : Param RA) (r : GaussJacobi RA), (2 <= n)%Z ->
  -1 < param_get pa -> -1 < param_get pb -> param_get pa + param_get pb <> -1 ->
  ~ delegated (param_get pa) (param_get pb) -> sorts ext ->
  exact_on ext (Z.to_nat n) (@jacobi_diag RA (param_get pa) (param_get pb)) (@jacobi_off_diag RA (param_get pa) (param_get pb)) ->
  jacobi_new t ext n pa pb = Ok r -> (n mod 2 = 0)%Z \/ param_get pa = param_get pb ->
  forall T, jacobi_integral (param_get pa) (param_get pb) (fun _ => 1) T ->
  let m := Z.to_nat n in
  forall a b (F : nat -> R -> R) M v, a <> b -> has_derivatives (open_between a b) (2 * m) F ->
  (forall x, open_between a b x -> Rabs (F (2 * m)%nat x) <= M) ->
  weighted_integral (fun x => Rpower (1 - x) (param_get pa) * Rpower (1 + x) (param_get pb)) a b (F O) v ->
  Rabs (jacobi_value r a b (F O) - jacobi_mass (param_get pa) (param_get pb) / T * v) <=
    M * (Rabs (b - a) / 2) ^ (2 * m + 1) / INR (fact (2 * m)) *
      (jacobi_norm (param_get pa) (param_get pb) m * jacobi_mass (param_get pa) (param_get pb)).
Proof. exact jacobi_error. Qed.
Print Assumptions C54_jacobi_error.

(** Chebyshev, both kinds, on every interval *)
Theorem C54_chebyshev1_error : forall t n (r : GaussChebyshevFirstKind RA), (1 <= n < usize_max t)%Z -> chebyshev1_new t n = Ok r ->
  let m := Z.to_nat n in
  forall a b (F : nat -> R -> R) M v, a <> b -> has_derivatives (open_between a b) (2 * m) F ->
  (forall x, open_between a b x -> Rabs (F (2 * m)%nat x) <= M) ->
  weighted_integral (fun x => / sqrt (1 - x * x)) a b (F O) v ->
  Rabs (chebyshev1_value r a b (F O) - v) <= M * (Rabs (b - a) / 2) ^ (2 * m + 1) / INR (fact (2 * m)) * (PI / 2 ^ (2 * m - 1)).
Proof. exact chebyshev1_error. Qed.
Print Assumptions C54_chebyshev1_error.

Theorem C54_chebyshev2_error : forall t n (r : GaussChebyshevSecondKind RA), (1 <= n < usize_max t)%Z -> chebyshev2_new t n = Ok r ->
  let m := Z.to_nat n in
  forall a b (F : nat -> R -> R) M v, a <> b -> has_derivatives (open_between a b) (2 * m) F ->
  (forall x, open_between a b x -> Rabs (F (2 * m)%nat x) <= M) ->
  weighted_integral (fun x => sqrt (1 - x * x)) a b (F O) v ->
  Rabs (chebyshev2_value r a b (F O) - v) <= M * (Rabs (b - a) / 2) ^ (2 * m + 1) / INR (fact (2 * m)) * (PI / 2 ^ (2 * m + 1)).
Proof. exact chebyshev2_error. Qed.
Print Assumptions C54_chebyshev2_error.

(** Legendre with tabulated nodes: 3e-14 for the rounding of the table, and a bound that is within a factor of the classical one *)
Theorem C54_legendre_error : forall (t : Target) (n : nat) (r : GaussLegendre RA),
  (100 <= usize_max t)%Z -> (1 <= n <= 100)%nat -> (2 * Z.of_nat n <= usize_max t)%Z -> legendre_new t (Z.of_nat n) = Ok r ->
  forall a b (F : nat -> R -> R) M0 M, a <> b -> has_derivatives (closed_between a b) (2 * n) F ->
  (forall x, closed_between a b x -> Rabs (F O x) <= M0) -> (forall x, closed_between a b x -> Rabs (F (2 * n)%nat x) <= M) ->
  Rabs (legendre_value r a b (F O) - RInt (F O) a b) <=
    (3 / 10 ^ 14 * M0 + 20 * M * (Rabs (b - a) / 4) ^ (2 * n) / INR (fact (2 * n))) * (Rabs (b - a) / 2).
Proof. exact legendre_error. Qed.
Print Assumptions C54_legendre_error.

(** * C55: integrands that are only continuous. *)
(** A bound from how much f changes over a distance delta *)
Theorem C55_chebyshev1_oscillation : forall t n (r : GaussChebyshevFirstKind RA), (1 <= n < usize_max t)%Z -> chebyshev1_new t n = Ok r ->
  let m := Z.to_nat n in
  forall a b f delta omega v, a <> b -> 0 < delta -> oscillation a b f delta omega ->
  weighted_integral (fun x => / sqrt (1 - x * x)) a b f v ->
  Rabs (chebyshev1_value r a b f - v) <= Rabs (b - a) * PI * ((1 + (b - a) * (b - a) / (4 * INR (2 * m - 1) * (delta * delta))) * omega).
Proof. exact chebyshev1_modulus. Qed.
Print Assumptions C55_chebyshev1_oscillation.

Theorem C55_chebyshev2_oscillation : forall t n (r : GaussChebyshevSecondKind RA), (1 <= n < usize_max t)%Z -> chebyshev2_new t n = Ok r ->
  let m := Z.to_nat n in
  forall a b f delta omega v, a <> b -> 0 < delta -> oscillation a b f delta omega ->
  weighted_integral (fun x => sqrt (1 - x * x)) a b f v ->
  Rabs (chebyshev2_value r a b f - v) <= Rabs (b - a) * (PI / 2) * ((1 + (b - a) * (b - a) / (4 * INR (2 * m - 1) * (delta * delta))) * omega).
Proof. exact chebyshev2_modulus. Qed.
Print Assumptions C55_chebyshev2_oscillation.

Theorem C55_jacobi_oscillation : forall t (ext : Linalg RA) n (pa pb : Param RA) (r : GaussJacobi RA), (2 <= n)%Z ->
  -1 < param_get pa -> -1 < param_get pb -> param_get pa + param_get pb <> -1 ->
  ~ delegated (param_get pa) (param_get pb) -> sorts ext ->
  exact_on ext (Z.to_nat n) (@jacobi_diag RA (param_get pa) (param_get pb)) (@jacobi_off_diag RA (param_get pa) (param_get pb)) ->
  jacobi_new t ext n pa pb = Ok r -> (n mod 2 = 0)%Z \/ param_get pa = param_get pb ->
  forall T, jacobi_integral (param_get pa) (param_get pb) (fun _ => 1) T ->
  let m := Z.to_nat n in
  forall a b f delta omega v, a <> b -> 0 < delta -> oscillation a b f delta omega ->
  weighted_integral (fun x => Rpower (1 - x) (param_get pa) * Rpower (1 + x) (param_get pb)) a b f v ->
  Rabs (jacobi_value r a b f - jacobi_mass (param_get pa) (param_get pb) / T * v) <=
    Rabs (b - a) * jacobi_mass (param_get pa) (param_get pb) * ((1 + (b - a) * (b - a) / (4 * INR (2 * m - 1) * (delta * delta))) * omega).
Proof. exact jacobi_modulus. Qed.
Print Assumptions C55_jacobi_oscillation.

Theorem C55_legendre_oscillation : forall (t : Target) (n : nat) (r : GaussLegendre RA),
  (100 <= usize_max t)%Z -> (1 <= n <= 100)%nat -> (2 * Z.of_nat n <= usize_max t)%Z -> legendre_new t (Z.of_nat n) = Ok r ->
  forall a b f M delta omega, a <> b -> ex_RInt f a b -> (forall x, closed_between a b x -> Rabs (f x) <= M) ->
  0 < delta -> oscillation a b f delta omega ->
  Rabs (legendre_value r a b f - RInt f a b) <=
    (3 / 10 ^ 14 * M + 5 * ((1 + (b - a) * (b - a) / (4 * INR (2 * n - 1) * (delta * delta))) * omega)) * (Rabs (b - a) / 2).
Proof. exact legendre_modulus. Qed.
Print Assumptions C55_legendre_oscillation.

(** Every continuous integrand has an integral, and the values converge to it as the degree grows *)
Theorem C55_chebyshev1_converges : forall a b f, a <> b -> continuous_on a b f ->
  exists v, weighted_integral (fun x => / sqrt (1 - x * x)) a b f v /\
  forall eps, 0 < eps -> exists N, forall t n (r : GaussChebyshevFirstKind RA), (N <= n < usize_max t)%Z -> chebyshev1_new t n = Ok r ->
    Rabs (chebyshev1_value r a b f - v) <= eps.
Proof. exact chebyshev1_converges. Qed.
Print Assumptions C55_chebyshev1_converges.

Theorem C55_chebyshev2_converges : forall a b f, a <> b -> continuous_on a b f ->
  exists v, weighted_integral (fun x => sqrt (1 - x * x)) a b f v /\
  forall eps, 0 < eps -> exists N, forall t n (r : GaussChebyshevSecondKind RA), (N <= n < usize_max t)%Z -> chebyshev2_new t n = Ok r ->
    Rabs (chebyshev2_value r a b f - v) <= eps.
Proof. exact chebyshev2_converges. Qed.
Print Assumptions C55_chebyshev2_converges.

(** up to the relative error of the library's total mass (C36, Prop_GammaAcc.v) *)
Theorem C55_jacobi_converges : forall pa pb : Param RA, -1 < param_get pa -> -1 < param_get pb -> param_get pa + param_get pb <> -1 ->
  ~ delegated (param_get pa) (param_get pb) ->
  forall T, jacobi_integral (param_get pa) (param_get pb) (fun _ => 1) T ->
  forall a b f, a <> b -> continuous_on a b f ->
  exists v, weighted_integral (fun x => Rpower (1 - x) (param_get pa) * Rpower (1 + x) (param_get pb)) a b f v /\
  forall eps, 0 < eps -> exists N, forall t (ext : Linalg RA) n (r : GaussJacobi RA), (N <= n)%Z -> sorts ext ->
    exact_on ext (Z.to_nat n) (@jacobi_diag RA (param_get pa) (param_get pb)) (@jacobi_off_diag RA (param_get pa) (param_get pb)) ->
    jacobi_new t ext n pa pb = Ok r -> (n mod 2 = 0)%Z \/ param_get pa = param_get pb ->
    Rabs (jacobi_value r a b f - jacobi_mass (param_get pa) (param_get pb) / T * v) <= eps.
Proof. exact jacobi_converges. Qed.
Print Assumptions C55_jacobi_converges.

(** * C56: the degree of exactness is not larger than 2n-1, and the bounds of C54 are attained. *)
Theorem C56_hermite_sharp : forall (ext : Linalg RA) n (r : GaussHermite RA), (1 <= n)%Z -> sorts ext ->
  exact_on ext (Z.to_nat n) (@hermite_diag RA) (@hermite_off_diag RA) -> hermite_new ext n = Ok r ->
  let m := Z.to_nat n in
  exists (F : nat -> R -> R) M v, polynomial (2 * m) (F O) /\ has_derivatives (fun _ => True) (2 * m) F /\ (forall x, Rabs (F (2 * m)%nat x) <= M) /\
  hermite_integral (F O) v /\ 0 < v /\ hermite_value r (F O) = 0 /\
  Rabs (hermite_value r (F O) - v) = M / INR (fact (2 * m)) * (sqrt PI * INR (fact m) / 2 ^ m).
Proof. exact hermite_sharp. Qed.
Print Assumptions C56_hermite_sharp.

Theorem C56_laguerre_sharp : forall (ext : Linalg RA) n (al : Param RA) (r : GaussLaguerre RA) (G : R), (1 <= n)%Z -> -1 < param_get al -> sorts ext ->
  exact_on ext (Z.to_nat n) (@laguerre_diag RA (param_get al)) (@laguerre_off_diag RA (param_get al)) ->
  laguerre_new ext n al = Ok r -> is_Gamma (param_get al + 1) G ->
  let m := Z.to_nat n in
  exists (F : nat -> R -> R) M v, polynomial (2 * m) (F O) /\ has_derivatives (fun x => 0 < x) (2 * m) F /\ (forall x, 0 < x -> Rabs (F (2 * m)%nat x) <= M) /\
  laguerre_integral (param_get al) (F O) v /\ 0 < v /\ laguerre_value r (F O) = 0 /\
  Rabs (laguerre_value r (F O) - @gamma RA (param_get al + 1) / G * v) =
    M / INR (fact (2 * m)) * (INR (fact m) * rising (param_get al) m * @gamma RA (param_get al + 1)).
Proof. exact laguerre_sharp. Qed.
Print Assumptions C56_laguerre_sharp.

Theorem C56_jacobi_sharp : forall t (ext : Linalg RA) n (pa pb : Param RA) (r : GaussJacobi RA), (2 <= n)%Z ->
  -1 < param_get pa -> -1 < param_get pb -> param_get pa + param_get pb <> -1 ->
  ~ delegated (param_get pa) (param_get pb) -> sorts ext ->
  exact_on ext (Z.to_nat n) (@jacobi_diag RA (param_get pa) (param_get pb)) (@jacobi_off_diag RA (param_get pa) (param_get pb)) ->
  jacobi_new t ext n pa pb = Ok r -> (n mod 2 = 0)%Z \/ param_get pa = param_get pb ->
  forall T, jacobi_integral (param_get pa) (param_get pb) (fun _ => 1) T ->
  let m := Z.to_nat n in
  exists (F : nat -> R -> R) M v, polynomial (2 * m) (F O) /\ has_derivatives (open_between (-1) 1) (2 * m) F /\
  (forall x, open_between (-1) 1 x -> Rabs (F (2 * m)%nat x) <= M) /\ jacobi_integral (param_get pa) (param_get pb) (F O) v /\ 0 < v /\
  jacobi_value r (-1) 1 (F O) = 0 /\
  Rabs (jacobi_value r (-1) 1 (F O) - jacobi_mass (param_get pa) (param_get pb) / T * v) =
    M / INR (fact (2 * m)) * (jacobi_norm (param_get pa) (param_get pb) m * jacobi_mass (param_get pa) (param_get pb)).
Proof. exact jacobi_sharp. Qed.
Print Assumptions C56_jacobi_sharp.

Theorem C56_chebyshev1_sharp : forall t n (r : GaussChebyshevFirstKind RA), (1 <= n < usize_max t)%Z -> chebyshev1_new t n = Ok r ->
  let m := Z.to_nat n in
  exists (F : nat -> R -> R) M v, polynomial (2 * m) (F O) /\ has_derivatives (open_between (-1) 1) (2 * m) F /\
  (forall x, open_between (-1) 1 x -> Rabs (F (2 * m)%nat x) <= M) /\ chebyshev1_integral (F O) v /\ 0 < v /\
  chebyshev1_value r (-1) 1 (F O) = 0 /\
  Rabs (chebyshev1_value r (-1) 1 (F O) - v) = M / INR (fact (2 * m)) * (PI / 2 ^ (2 * m - 1)).
Proof. exact chebyshev1_sharp. Qed.
Print Assumptions C56_chebyshev1_sharp.

Theorem C56_chebyshev2_sharp : forall t n (r : GaussChebyshevSecondKind RA), (1 <= n < usize_max t)%Z -> chebyshev2_new t n = Ok r ->
  let m := Z.to_nat n in
  exists (F : nat -> R -> R) M v, polynomial (2 * m) (F O) /\ has_derivatives (open_between (-1) 1) (2 * m) F /\
  (forall x, open_between (-1) 1 x -> Rabs (F (2 * m)%nat x) <= M) /\ weighted_integral (fun x => sqrt (1 - x * x)) (-1) 1 (F O) v /\ 0 < v /\
  chebyshev2_value r (-1) 1 (F O) = 0 /\
  Rabs (chebyshev2_value r (-1) 1 (F O) - v) = M / INR (fact (2 * m)) * (PI / 2 ^ (2 * m + 1)).
Proof. exact chebyshev2_sharp. Qed.
Print Assumptions C56_chebyshev2_sharp.

(** * Integrands that meet the hypotheses (rules: see Prop_Exact.v, Prop_Chebyshev.v, Prop_LegExact.v). *)
Example smooth_integrand : forall D m, has_derivatives D m (fun i x => sin (x + INR i * (PI / 2))).
Proof. exact sin_derivatives. Qed.
Example bounded_derivative : forall (m : nat) x, Rabs (sin (x + INR m * (PI / 2))) <= 1.
Proof. intros. apply sin_abs. Qed.
Example hermite_integrand : exists v, hermite_integral (fun x => sin (x + INR 0 * (PI / 2))) v.
Proof. exact hermite_sin. Qed.
Example laguerre_integrand : forall al, -1 < al -> exists v, laguerre_integral al (fun x => sin (x + INR 0 * (PI / 2))) v.
Proof. exact laguerre_sin. Qed.
Example smooth_is_continuous : forall a b, continuous_on a b (fun x => sin (x + INR 0 * (PI / 2))).
Proof. exact sin_continuous. Qed.
Example chebyshev_integrand : forall a b f, a <> b -> continuous_on a b f ->
  (exists v, weighted_integral (fun x => / sqrt (1 - x * x)) a b f v) /\ (exists v, weighted_integral (fun x => sqrt (1 - x * x)) a b f v).
Proof. exact chebyshev_integrals. Qed.
Example jacobi_integrand : forall al be a b f, -1 < al -> -1 < be -> a <> b -> continuous_on a b f ->
  exists v, weighted_integral (fun x => Rpower (1 - x) al * Rpower (1 + x) be) a b f v.
Proof. exact jacobi_integrals. Qed.
Example rough_integrand : forall a b d, oscillation a b Rabs d d /\ continuous_on a b Rabs.
Proof. intros. split; [apply abs_oscillation|apply abs_continuous]. Qed.
