(** Property C85: Gauss rules on integrands that are only known to be monotone, possibly with jumps. Moving
    every node one place to the left or to the right brackets the integral, and the error of the rule is at
    most the largest weight times the rise of the integrand; with the 1/n bound on the weights the rules
    converge for every such integrand. Exact arithmetic. Vocabulary: MonoSpec.v ([rises_between],
    [sum_left], [sum_right], [carried]), ErrorSpec.v ([open_between], [closed_between]), TransferSpec.v
    ([weighted_integral]), WeightSpec.v. *)
From Coq Require Import Reals List ZArith Lra Lia.
From Coquelicot Require Import Coquelicot.
From Verif Require Import Arith RInst Machine Param Rules PolySpec PolyProof GolubWelsch GWSpec EigenSpec WeightSpec MassSpec ChebSpec TransferSpec ErrorSpec
  Gamma Hermite Laguerre Jacobi Chebyshev Legendre RuleSpec GaussExact Gaussian MonoSpec MonoRule MonoLeg LegWeight Prop_Legendre.
Local Open Scope R_scope.

(** Hermite; [k] is any bound on the weights *)
Theorem C85_hermite : forall (ext : Linalg RA) n (r : GaussHermite RA), (1 <= n)%Z -> sorts ext ->
  exact_on ext (Z.to_nat n) (@hermite_diag RA) (@hermite_off_diag RA) -> hermite_new ext n = Ok r ->
  forall f bot top k v, rises_between (fun _ => True) f bot top -> hermite_integral f v -> List.Forall (fun p : R * R => snd p <= k) (hermite_pairs r) ->
  sum_left bot f (hermite_pairs r) <= v <= sum_right top f (hermite_pairs r) /\ Rabs (hermite_value r f - v) <= k * (top - bot).
Proof. exact hermite_mono. Qed.
Print Assumptions C85_hermite.

(** Laguerre; [gamma]/G is the relative error of the library's gamma function (C50) *)
Theorem C85_laguerre : forall (ext : Linalg RA) n (al : Param RA) (r : GaussLaguerre RA) (G : R), (1 <= n)%Z -> -1 < param_get al -> sorts ext ->
  exact_on ext (Z.to_nat n) (@laguerre_diag RA (param_get al)) (@laguerre_off_diag RA (param_get al)) ->
  laguerre_new ext n al = Ok r -> is_Gamma (param_get al + 1) G ->
  forall f bot top k v, rises_between (fun x => 0 < x) f bot top -> laguerre_integral (param_get al) f v -> List.Forall (fun p : R * R => snd p <= k) (laguerre_pairs r) ->
  sum_left bot f (laguerre_pairs r) <= @gamma RA (param_get al + 1) / G * v <= sum_right top f (laguerre_pairs r) /\
  Rabs (laguerre_value r f - @gamma RA (param_get al + 1) / G * v) <= k * (top - bot).
Proof. exact laguerre_mono. Qed.
Print Assumptions C85_laguerre.

(** Jacobi; the odd degrees with alpha <> beta are excluded because of their misplaced middle node (C36) *)
Theorem C85_jacobi : forall t (ext : Linalg RA) n (pa pb : Param RA) (r : GaussJacobi RA), (2 <= n)%Z ->
  -1 < param_get pa -> -1 < param_get pb -> param_get pa + param_get pb <> -1 ->
  ~ delegated (param_get pa) (param_get pb) -> sorts ext ->
  exact_on ext (Z.to_nat n) (@jacobi_diag RA (param_get pa) (param_get pb)) (@jacobi_off_diag RA (param_get pa) (param_get pb)) ->
  jacobi_new t ext n pa pb = Ok r -> (n mod 2 = 0)%Z \/ param_get pa = param_get pb ->
  forall T, jacobi_integral (param_get pa) (param_get pb) (fun _ => 1) T ->
  forall a b f bot top k v, a < b -> rises_between (open_between a b) f bot top ->
  weighted_integral (fun x => Rpower (1 - x) (param_get pa) * Rpower (1 + x) (param_get pb)) a b f v ->
  List.Forall (fun p : R * R => snd p <= k) (jacobi_pairs r) ->
  sum_left bot f (carried a b (jacobi_pairs r)) <= jacobi_mass (param_get pa) (param_get pb) / T * v <= sum_right top f (carried a b (jacobi_pairs r)) /\
  Rabs (jacobi_value r a b f - jacobi_mass (param_get pa) (param_get pb) / T * v) <= (b - a) / 2 * k * (top - bot).
Proof. exact jacobi_mono. Qed.
Print Assumptions C85_jacobi.

(** Chebyshev; here the weights are at most pi/n and pi/(n+1) *)
Theorem C85_chebyshev1 : forall t n (r : GaussChebyshevFirstKind RA), (1 <= n < usize_max t)%Z -> chebyshev1_new t n = Ok r ->
  forall a b f bot top v, a < b -> rises_between (open_between a b) f bot top -> weighted_integral (fun x => / sqrt (1 - x * x)) a b f v ->
  sum_left bot f (carried a b (chebyshev1_pairs r)) <= v <= sum_right top f (carried a b (chebyshev1_pairs r)) /\
  Rabs (chebyshev1_value r a b f - v) <= (b - a) / 2 * (PI / IZR n) * (top - bot).
Proof. exact chebyshev1_mono. Qed.
Print Assumptions C85_chebyshev1.

Theorem C85_chebyshev2 : forall t n (r : GaussChebyshevSecondKind RA), (1 <= n < usize_max t)%Z -> chebyshev2_new t n = Ok r ->
  forall a b f bot top v, a < b -> rises_between (open_between a b) f bot top -> weighted_integral (fun x => sqrt (1 - x * x)) a b f v ->
  sum_left bot f (carried a b (chebyshev2_pairs r)) <= v <= sum_right top f (carried a b (chebyshev2_pairs r)) /\
  Rabs (chebyshev2_value r a b f - v) <= (b - a) / 2 * (PI / (IZR n + 1)) * (top - bot).
Proof. exact chebyshev2_mono. Qed.
Print Assumptions C85_chebyshev2.

(** Legendre, every degree; the weights are at most 4/n, the small terms account for the rounding of the
    tables and of the asymptotic formulas *)
Theorem C85_legendre : forall (t : Target) (n : nat) (r : GaussLegendre RA),
  (100 <= usize_max t)%Z -> (2 * Z.of_nat n <= usize_max t)%Z -> legendre_new t (Z.of_nat n) = Ok r -> (1 <= n)%nat ->
  List.Forall (fun p : R * R => snd p <= 4 / INR n) (legendre_pairs r) /\
  forall a b f bot top M, a < b -> rises_between (closed_between a b) f bot top -> - M <= bot -> top <= M -> ex_RInt f a b ->
  Rabs (legendre_value r a b f - RInt f a b) <= (b - a) / 2 * ((4 + / 10 ^ 11) / INR n * (top - bot) + 48 / 10 ^ 14 * M).
Proof. exact legendre_mono_all. Qed.
Print Assumptions C85_legendre.

(** A step meets the hypotheses, and so does the identity on a bounded interval. *)
Example C85_step : forall D c, rises_between D (fun x => if Rle_dec c x then 1 else 0) 0 1.
Proof. intros D c. split; [intros x y _ _ L|intros x _]; repeat destruct (Rle_dec c _); lra. Qed.
Example C85_step_integral : ex_RInt (fun x => if Rle_dec (/ 3) x then 1 else 0) 0 1.
Proof.
  apply (ex_RInt_Chasles (V := R_NormedModule) _ 0 (/ 3) 1).
  - apply (ex_RInt_ext (V := R_NormedModule) (fun _ => 0)); [|apply ex_RInt_const]. intros x Hx. rewrite Rmin_left, Rmax_right in Hx by lra. destruct (Rle_dec (/ 3) x); [lra|reflexivity].
  - apply (ex_RInt_ext (V := R_NormedModule) (fun _ => 1)); [|apply ex_RInt_const]. intros x Hx. rewrite Rmin_left, Rmax_right in Hx by lra. destruct (Rle_dec (/ 3) x); [reflexivity|lra].
Qed.
Example C85_line : rises_between (closed_between 1 4) (fun x => x) 1 4.
Proof. split; [intros x y _ _ L; exact L|]. intros x Hx. unfold closed_between in Hx. rewrite Rmin_left, Rmax_right in Hx by lra. lra. Qed.
Example C85_rule : exists r : GaussLegendre RA, legendre_new target64 (Z.of_nat 7) = Ok r.
Proof. eexists. reflexivity. Qed.
Example C85_hermite_integral : exists v, hermite_integral (fun _ => 1) v /\ rises_between (fun _ => True) (fun _ => 1) 0 2.
Proof. eexists. split; [apply (hermite_gen 0), poly_const|]. split; [intros; lra|intros; lra]. Qed.
