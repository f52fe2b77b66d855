(** Property C91: integrands of bounded variation (any finite number of jumps and turns, and more). Such an integrand is
    integrable, and the error of every rule is at most its total variation times a length that shrinks with the
    degree: half a cell for the Newton-Cotes rules, the largest weight for the Gauss rules. Exact arithmetic.
    Vocabulary: [varies_at_most] (VarSpec.v), [open_between], [closed_between] (ErrorSpec.v), [weighted_integral]
    (TransferSpec.v), [hermite_integral], [laguerre_integral], [jacobi_integral], [is_Gamma] (WeightSpec.v). *)
From Coq Require Import Reals List ZArith Lra Lia.
From Coquelicot Require Import Coquelicot.
From Verif Require Import Arith RInst Machine Param Rules GolubWelsch GWSpec EigenSpec WeightSpec MassSpec ChebSpec TransferSpec ErrorSpec
  Gamma Hermite Laguerre Jacobi Chebyshev Legendre RuleSpec NCSpec MonoSpec VarSpec Jordan VarRule Prop_Mono Prop_Legendre.
Local Open Scope R_scope.

Theorem C91_newton_cotes : forall (f : R -> R) a b n V, a <= b -> (1 <= n)%nat -> varies_at_most (closed_between a b) f V -> ex_RInt f a b /\
  Rabs (midpoint_value n a b f - RInt f a b) <= (b - a) * V / (2 * INR n) /\
  Rabs (trapezoid_value n a b f - RInt f a b) <= (b - a) * V / (2 * INR n) /\
  Rabs (simpson_value n a b f - RInt f a b) <= (b - a) * V / (2 * INR n).
Proof. exact newton_cotes_var. Qed.
Print Assumptions C91_newton_cotes.

(** every degree; the small term accounts for the rounding of the tables and of the asymptotic formulas *)
Theorem C91_legendre : forall (t : Target) (n : nat) (r : GaussLegendre RA),
  (100 <= usize_max t)%Z -> (2 * Z.of_nat n <= usize_max t)%Z -> legendre_new t (Z.of_nat n) = Ok r -> (1 <= n)%nat ->
  forall a b f V M, a < b -> varies_at_most (closed_between a b) f V -> (forall x, a <= x <= b -> Rabs (f x) <= M) ->
  ex_RInt f a b /\ Rabs (legendre_value r a b f - RInt f a b) <= (b - a) / 2 * ((4 + / 10 ^ 11) / INR n * V + 48 / 10 ^ 14 * (M + V)).
Proof. exact legendre_var. Qed.
Print Assumptions C91_legendre.

Theorem C91_chebyshev1 : forall t n (r : GaussChebyshevFirstKind RA), (1 <= n < usize_max t)%Z -> chebyshev1_new t n = Ok r ->
  forall a b f V, a < b -> varies_at_most (open_between a b) f V ->
  exists v, weighted_integral (fun x => / sqrt (1 - x * x)) a b f v /\ Rabs (chebyshev1_value r a b f - v) <= (b - a) / 2 * (PI / IZR n) * V.
Proof. exact chebyshev1_var. Qed.
Print Assumptions C91_chebyshev1.

Theorem C91_chebyshev2 : forall t n (r : GaussChebyshevSecondKind RA), (1 <= n < usize_max t)%Z -> chebyshev2_new t n = Ok r ->
  forall a b f V, a < b -> varies_at_most (open_between a b) f V ->
  exists v, weighted_integral (fun x => sqrt (1 - x * x)) a b f v /\ Rabs (chebyshev2_value r a b f - v) <= (b - a) / 2 * (PI / (IZR n + 1)) * V.
Proof. exact chebyshev2_var. Qed.
Print Assumptions C91_chebyshev2.

(** [k] is any bound on the weights, the factor before [v] is that of C36; the odd degrees with alpha <> beta are
    excluded because of their misplaced middle node (C36) *)
Theorem C91_jacobi : forall t (ext : Linalg RA) n (pa pb : Param RA) (r : GaussJacobi RA), (2 <= n)%Z ->
  -1 < param_get pa -> -1 < param_get pb -> param_get pa + param_get pb <> -1 ->
  ~ delegated (param_get pa) (param_get pb) -> sorts ext ->
  exact_on ext (Z.to_nat n) (@jacobi_diag RA (param_get pa) (param_get pb)) (@jacobi_off_diag RA (param_get pa) (param_get pb)) ->
  jacobi_new t ext n pa pb = Ok r -> (n mod 2 = 0)%Z \/ param_get pa = param_get pb ->
  forall T, jacobi_integral (param_get pa) (param_get pb) (fun _ => 1) T ->
  forall a b f V k, a < b -> varies_at_most (open_between a b) f V -> List.Forall (fun p : R * R => snd p <= k) (jacobi_pairs r) ->
  exists v, weighted_integral (fun x => Rpower (1 - x) (param_get pa) * Rpower (1 + x) (param_get pb)) a b f v /\
  Rabs (jacobi_value r a b f - jacobi_mass (param_get pa) (param_get pb) / T * v) <= (b - a) / 2 * k * V.
Proof. exact jacobi_var. Qed.
Print Assumptions C91_jacobi.

Theorem C91_hermite : forall (ext : Linalg RA) n (r : GaussHermite RA), (1 <= n)%Z -> sorts ext ->
  exact_on ext (Z.to_nat n) (@hermite_diag RA) (@hermite_off_diag RA) -> hermite_new ext n = Ok r ->
  forall f V k, varies_at_most (fun _ => True) f V -> List.Forall (fun p : R * R => snd p <= k) (hermite_pairs r) ->
  exists v, hermite_integral f v /\ Rabs (hermite_value r f - v) <= k * V.
Proof. exact hermite_var. Qed.
Print Assumptions C91_hermite.

(** [gamma]/G is the relative error of the gamma function of the library (C50) *)
Theorem C91_laguerre : forall (ext : Linalg RA) n (al : Param RA) (r : GaussLaguerre RA) (G : R), (1 <= n)%Z -> -1 < param_get al -> sorts ext ->
  exact_on ext (Z.to_nat n) (@laguerre_diag RA (param_get al)) (@laguerre_off_diag RA (param_get al)) ->
  laguerre_new ext n al = Ok r -> is_Gamma (param_get al + 1) G ->
  forall f V k, varies_at_most (fun x => 0 < x) f V -> List.Forall (fun p : R * R => snd p <= k) (laguerre_pairs r) ->
  exists v, laguerre_integral (param_get al) f v /\ Rabs (laguerre_value r f - @gamma RA (param_get al + 1) / G * v) <= k * V.
Proof. exact laguerre_var. Qed.
Print Assumptions C91_laguerre.

(** Differences of bounded monotone functions are of bounded variation, so a pulse on [1/3, 2/3] is, with variation 2. *)
Example C91_difference : forall D P N bp tp bn tn, rises_between D P bp tp -> rises_between D N bn tn -> varies_at_most D (fun x => P x - N x) (tp - bp + (tn - bn)).
Proof. exact difference. Qed.
Example C91_pulse : forall D, varies_at_most D (fun x => (if Rle_dec (/ 3) x then 1 else 0) - (if Rle_dec (2 / 3) x then 1 else 0)) (1 - 0 + (1 - 0)).
Proof. intros D. apply (difference D (fun x => if Rle_dec (/ 3) x then 1 else 0) (fun x => if Rle_dec (2 / 3) x then 1 else 0)); apply C85_step. Qed.
Example C91_rule : exists r : GaussLegendre RA, legendre_new target64 (Z.of_nat 7) = Ok r.
Proof. eexists. reflexivity. Qed.
