(** Property C81: for integrands with a geometrically decreasing expansion (all functions analytic near the
    interval) the error of the Gauss rules on an interval falls like rho^(2n). Exact arithmetic.
    Vocabulary: GeoSpec.v ([geometric_expansion]), TransferSpec.v ([weighted_integral]), RuleSpec.v, WeightSpec.v. *)
From Coq Require Import Reals List ZArith Lra.
From Coquelicot Require Import Coquelicot.
From Verif Require Import Arith RInst Machine Param Rules GolubWelsch GWSpec EigenSpec WeightSpec MassSpec ErrorSpec TransferSpec GeoSpec
  Gamma Jacobi Chebyshev Legendre RuleSpec Geometric Prop_Legendre.
Local Open Scope R_scope.

(** Chebyshev *)
Theorem C81_chebyshev1 : forall a b f C rho, a <> b -> 0 <= rho < 1 -> geometric_expansion a b f C rho ->
  exists v, weighted_integral (fun x => / sqrt (1 - x * x)) a b f v /\
  forall t n (r : GaussChebyshevFirstKind RA), (1 <= n < usize_max t)%Z -> chebyshev1_new t n = Ok r ->
  Rabs (chebyshev1_value r a b f - v) <= Rabs (b - a) * PI * (C * rho ^ (2 * Z.to_nat n) / (1 - rho)).
Proof. exact chebyshev1_geometric. Qed.
Print Assumptions C81_chebyshev1.
Theorem C81_chebyshev2 : forall a b f C rho, a <> b -> 0 <= rho < 1 -> geometric_expansion a b f C rho ->
  exists v, weighted_integral (fun x => sqrt (1 - x * x)) a b f v /\
  forall t n (r : GaussChebyshevSecondKind RA), (1 <= n < usize_max t)%Z -> chebyshev2_new t n = Ok r ->
  Rabs (chebyshev2_value r a b f - v) <= Rabs (b - a) * (PI / 2) * (C * rho ^ (2 * Z.to_nat n) / (1 - rho)).
Proof. exact chebyshev2_geometric. Qed.
Print Assumptions C81_chebyshev2.

(** Jacobi; T is the true integral of the weight function. Odd degrees with alpha <> beta are excluded (C36). *)
Theorem C81_jacobi : forall a b f C rho, a <> b -> 0 <= rho < 1 -> geometric_expansion a b f C rho ->
  forall (pa pb : Param RA), -1 < param_get pa -> -1 < param_get pb -> param_get pa + param_get pb <> -1 ->
  ~ delegated (param_get pa) (param_get pb) -> forall T, jacobi_integral (param_get pa) (param_get pb) (fun _ => 1) T ->
  exists v, weighted_integral (fun x => Rpower (1 - x) (param_get pa) * Rpower (1 + x) (param_get pb)) a b f v /\
  forall t (ext : Linalg RA) n (r : GaussJacobi RA), (2 <= n)%Z -> sorts ext ->
    exact_on ext (Z.to_nat n) (@jacobi_diag RA (param_get pa) (param_get pb)) (@jacobi_off_diag RA (param_get pa) (param_get pb)) ->
    jacobi_new t ext n pa pb = Ok r -> (n mod 2 = 0)%Z \/ param_get pa = param_get pb ->
    Rabs (jacobi_value r a b f - jacobi_mass (param_get pa) (param_get pb) / T * v) <=
      Rabs (b - a) * jacobi_mass (param_get pa) (param_get pb) * (C * rho ^ (2 * Z.to_nat n) / (1 - rho)).
Proof. exact jacobi_geometric. Qed.
Print Assumptions C81_jacobi.

(** Legendre, every number of points; C/(1-rho) bounds the integrand *)
Theorem C81_legendre : forall a b f C rho, a <> b -> 0 <= rho < 1 -> geometric_expansion a b f C rho ->
  forall (t : Target) (n : nat) (r : GaussLegendre RA),
  (100 <= usize_max t)%Z -> (1 <= n)%nat -> (2 * Z.of_nat n <= usize_max t)%Z -> legendre_new t (Z.of_nat n) = Ok r ->
  ex_RInt f a b /\
  Rabs (legendre_value r a b f - RInt f a b) <= ((if (n <=? 100)%nat then 3 else 105) / 10 ^ 14 + 5 * rho ^ (2 * n)) * (C / (1 - rho)) * (Rabs (b - a) / 2).
Proof. exact legendre_geometric. Qed.
Print Assumptions C81_legendre.

(** The two usual forms of such an expansion: a Chebyshev series (in the angle) and a power series about the centre *)
Theorem C81_chebyshev_series : forall a b f C rho (c : nat -> R), a <> b -> 0 <= rho -> (forall k, Rabs (c k) <= C * rho ^ k) ->
  (forall th, is_series (fun k => c k * cos (INR k * th)) (f ((b - a) / 2 * cos th + (a + b) / 2))) ->
  geometric_expansion a b f C rho.
Proof. exact chebyshev_series. Qed.
Print Assumptions C81_chebyshev_series.
Theorem C81_power_series : forall a b f C rho (c : nat -> R), a <> b -> 0 <= rho -> (forall k, Rabs (c k) <= C * rho ^ k) ->
  (forall x, -1 <= x <= 1 -> is_series (fun k => c k * x ^ k) (f ((b - a) / 2 * x + (a + b) / 2))) ->
  geometric_expansion a b f C rho.
Proof. exact power_series. Qed.
Print Assumptions C81_power_series.

Example C81_pole : forall z, 1 < z -> geometric_expansion (-1) 1 (fun x => / (z - x)) (/ z) (/ z) /\ 0 <= / z < 1.
Proof.
  intros z Hz. split; [exact (pole_expansion z Hz)|]. assert (P : 0 < / z) by (apply Rinv_0_lt_compat; lra).
  split; [lra|]. rewrite <- Rinv_1. apply Rinv_lt_contravar; lra.
Qed.
Example C81_rule : exists r : GaussLegendre RA, legendre_new target64 (Z.of_nat 7) = Ok r.
Proof. eexists. reflexivity. Qed.
