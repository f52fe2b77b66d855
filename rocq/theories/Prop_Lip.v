(** Property C88: integrands of which only a bound K on the slope is known (they may have kinks everywhere).
    The error of every rule on a bounded interval is at most a constant times (b-a)^2 K / n, for every degree.
    Exact arithmetic. Vocabulary: LipSpec.v ([lipschitz_on]), TransferSpec.v ([weighted_integral]), WeightSpec.v,
    NCSpec.v, RuleSpec.v. *)
From Coq Require Import Reals List ZArith Lra.
From Coquelicot Require Import Coquelicot.
From Verif Require Import Arith RInst Machine Param Rules PolySpec GolubWelsch GWSpec EigenSpec WeightSpec MassSpec ChebSpec TransferSpec ErrorSpec
  Gamma Jacobi Chebyshev Legendre RuleSpec NCSpec NCShapeEx LipSpec LipRule LipLeg Prop_Legendre.
Local Open Scope R_scope.

(** midpoint, trapezoid and Simpson rules with n cells *)
Theorem C88_newton_cotes : forall (f : R -> R) a b n K, a <= b -> (1 <= n)%nat -> ex_RInt f a b -> lipschitz_on a b K f ->
  Rabs (midpoint_value n a b f - RInt f a b) <= (b - a) ^ 2 / (4 * INR n) * K /\
  Rabs (trapezoid_value n a b f - RInt f a b) <= (b - a) ^ 2 / (4 * INR n) * K /\
  Rabs (simpson_value n a b f - RInt f a b) <= (b - a) ^ 2 / (4 * INR n) * K.
Proof. exact newton_cotes_lip. Qed.
Print Assumptions C88_newton_cotes.

Theorem C88_chebyshev1 : forall t n (r : GaussChebyshevFirstKind RA), (1 <= n < usize_max t)%Z -> chebyshev1_new t n = Ok r ->
  forall a b f K v, a < b -> lipschitz_on a b K f -> weighted_integral (fun x => / sqrt (1 - x * x)) a b f v ->
  Rabs (chebyshev1_value r a b f - v) <= (b - a) ^ 2 / 2 * (PI / IZR n) * K.
Proof. exact chebyshev1_lip. Qed.
Print Assumptions C88_chebyshev1.

Theorem C88_chebyshev2 : forall t n (r : GaussChebyshevSecondKind RA), (1 <= n < usize_max t)%Z -> chebyshev2_new t n = Ok r ->
  forall a b f K v, a < b -> lipschitz_on a b K f -> weighted_integral (fun x => sqrt (1 - x * x)) a b f v ->
  Rabs (chebyshev2_value r a b f - v) <= (b - a) ^ 2 / 2 * (PI / (IZR n + 1)) * K.
Proof. exact chebyshev2_lip. Qed.
Print Assumptions C88_chebyshev2.

(** Jacobi; [k] is any bound on the weights, the factor before [v] is that of C36; the odd degrees with
    alpha <> beta are excluded because of their misplaced middle node (C36) *)
Theorem C88_jacobi : forall t (ext : Linalg RA) n (pa pb : Param RA) (r : GaussJacobi RA), (2 <= n)%Z ->
  -1 < param_get pa -> -1 < param_get pb -> param_get pa + param_get pb <> -1 ->
  ~ delegated (param_get pa) (param_get pb) -> sorts ext ->
  exact_on ext (Z.to_nat n) (@jacobi_diag RA (param_get pa) (param_get pb)) (@jacobi_off_diag RA (param_get pa) (param_get pb)) ->
  jacobi_new t ext n pa pb = Ok r -> (n mod 2 = 0)%Z \/ param_get pa = param_get pb ->
  forall T, jacobi_integral (param_get pa) (param_get pb) (fun _ => 1) T ->
  forall a b f K k v, a < b -> lipschitz_on a b K f ->
  weighted_integral (fun x => Rpower (1 - x) (param_get pa) * Rpower (1 + x) (param_get pb)) a b f v ->
  List.Forall (fun p : R * R => snd p <= k) (jacobi_pairs r) ->
  Rabs (jacobi_value r a b f - jacobi_mass (param_get pa) (param_get pb) / T * v) <= (b - a) ^ 2 / 2 * k * K.
Proof. exact jacobi_lip. Qed.
Print Assumptions C88_jacobi.

(** Legendre, every degree; the last term accounts for the rounding of the stored nodes and weights *)
Theorem C88_legendre : forall (t : Target) (n : nat) (r : GaussLegendre RA),
  (100 <= usize_max t)%Z -> (2 * Z.of_nat n <= usize_max t)%Z -> legendre_new t (Z.of_nat n) = Ok r -> (1 <= n)%nat ->
  forall a b f K M, a < b -> lipschitz_on a b K f -> (forall x, a <= x <= b -> Rabs (f x) <= M) -> ex_RInt f a b ->
  Rabs (legendre_value r a b f - RInt f a b) <= (b - a) ^ 2 / 2 * ((4 + / 10 ^ 11) / INR n) * K + (b - a) * (24 / 10 ^ 14) * M.
Proof. exact legendre_lip. Qed.
Print Assumptions C88_legendre.

(** The absolute value, which has a kink, meets the hypotheses. *)
Example C88_abs : lipschitz_on (-1) 1 1 Rabs /\ ex_RInt Rabs (-1) 1 /\ forall x, -1 <= x <= 1 -> Rabs (Rabs x) <= 1.
Proof.
  split; [intros x y _ _; rewrite Rmult_1_l; apply Rabs_triang_inv2|]. split; [apply shapes_exist|].
  intros x Hx. rewrite Rabs_Rabsolu. apply Rabs_le. lra.
Qed.
Example C88_rule : exists r : GaussLegendre RA, legendre_new target64 (Z.of_nat 7) = Ok r.
Proof. eexists. reflexivity. Qed.
