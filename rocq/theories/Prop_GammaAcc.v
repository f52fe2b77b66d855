(** Property C50: the library's gamma function, in exact arithmetic, against Euler's
    integral ([is_Gamma], WeightSpec.v), and what it means for the Laguerre and Jacobi
    rules (properties C35, C36 and C39). *)
From Coq Require Import Reals List ZArith Lra Lia.
From Coquelicot Require Import Coquelicot.
From Verif Require Import Arith RInst Machine Param Rules PolySpec GolubWelsch GWSpec EigenSpec WeightSpec MassSpec
  Gamma Laguerre Jacobi RuleSpec GammaProof GammaTrue GamAll GamRule.
Local Open Scope R_scope.

(** Relative error at most 1.2e-13, for every positive argument. *)
Theorem C50_accuracy : forall x G, 0 < x -> is_Gamma x G -> Rabs (@gamma RA x - G) <= 12 / 10 ^ 14 * G.
Proof. exact gamma_accurate. Qed.
Print Assumptions C50_accuracy.

(** The same bound for every other argument at which Gamma is defined.  There Gamma(x)
    is PI / (sin(PI x) Gamma(1-x)), see the next theorem. *)
Theorem C50_accuracy_below_one_half : forall x G, (forall k : Z, x <> IZR k) -> x < / 2 -> is_Gamma (1 - x) G ->
  Rabs (@gamma RA x - PI / (sin (PI * x) * G)) <= 12 / 10 ^ 14 * Rabs (PI / (sin (PI * x) * G)).
Proof. exact gamma_accurate_below. Qed.
Print Assumptions C50_accuracy_below_one_half.

(** Euler's reflection formula for the true function. *)
Theorem C50_true_reflection : forall x G H, 0 < x < 1 -> is_Gamma x G -> is_Gamma (1 - x) H -> G * H = PI / sin (PI * x).
Proof. exact true_reflection. Qed.
Print Assumptions C50_true_reflection.

(** The documented "16 floating point digits" are not reached: at x = 50 the relative
    error exceeds 1e-13, before any rounding. *)
Theorem C50_sixteen_digits_refuted : exists x G, 0 < x /\ is_Gamma x G /\ 1 / 10 ^ 13 * G < Rabs (@gamma RA x - G).
Proof. exact gamma_fifty_wrong. Qed.
Print Assumptions C50_sixteen_digits_refuted.

(** Laguerre rules therefore integrate every polynomial up to degree 2n-1 with a
    relative error of at most 1.2e-13. *)
Theorem C35_laguerre_accurate : forall (ext : Linalg RA) n (al : Param RA) (r : GaussLaguerre RA), (1 <= n)%Z ->
  -1 < param_get al -> sorts ext ->
  exact_on ext (Z.to_nat n) (@laguerre_diag RA (param_get al)) (@laguerre_off_diag RA (param_get al)) ->
  laguerre_new ext n al = Ok r ->
  forall f, polynomial (2 * Z.to_nat n - 1) f ->
  exists v, laguerre_integral (param_get al) f v /\ Rabs (laguerre_value r f - v) <= 12 / 10 ^ 14 * Rabs v.
Proof. exact laguerre_accurate. Qed.
Print Assumptions C35_laguerre_accurate.

(** The total mass of the Jacobi weight (Euler's Beta integral). *)
Theorem C36_true_mass : forall al be M A B C, -1 < al -> -1 < be -> jacobi_integral al be (fun _ => 1) M ->
  is_Gamma (al + 1) A -> is_Gamma (be + 1) B -> is_Gamma (al + be + 2) C -> M = Rpower 2 (al + be + 1) * A * B / C.
Proof. exact jacobi_mass_true. Qed.
Print Assumptions C36_true_mass.

(** Jacobi rules of degree at least two: relative error at most 3.6e-13, for even degrees
    and for odd degrees with alpha = beta. *)
Theorem C36_jacobi_accurate : forall t (ext : Linalg RA) n (pa pb : Param RA) (r : GaussJacobi RA), (2 <= n)%Z ->
  -1 < param_get pa -> -1 < param_get pb -> param_get pa + param_get pb <> -1 ->
  ~ delegated (param_get pa) (param_get pb) -> sorts ext ->
  exact_on ext (Z.to_nat n) (@jacobi_diag RA (param_get pa) (param_get pb)) (@jacobi_off_diag RA (param_get pa) (param_get pb)) ->
  jacobi_new t ext n pa pb = Ok r -> (n mod 2 = 0)%Z \/ param_get pa = param_get pb ->
  forall f, polynomial (2 * Z.to_nat n - 1) f ->
  exists v, jacobi_integral (param_get pa) (param_get pb) f v /\ Rabs (jacobi_value r (-1) 1 f - v) <= 36 / 10 ^ 14 * Rabs v.
Proof. exact jacobi_even_accurate. Qed.
Print Assumptions C36_jacobi_accurate.

Theorem C39_jacobi_degree_one_accurate : forall t (ext : Linalg RA) (pa pb : Param RA) (r : GaussJacobi RA),
  -1 < param_get pa -> -1 < param_get pb -> ~ delegated (param_get pa) (param_get pb) ->
  jacobi_new t ext 1 pa pb = Ok r ->
  forall f, polynomial 1 f -> exists v, jacobi_integral (param_get pa) (param_get pb) f v /\
      Rabs (jacobi_value r (-1) 1 f - v) <= 36 / 10 ^ 14 * Rabs v.
Proof. exact jacobi_one_accurate. Qed.
Print Assumptions C39_jacobi_degree_one_accurate.

(** Euler's integral exists and is positive for every positive argument; at 5 it is 24.
    For the solvers of the rules see the Examples in Prop_Exact.v. *)
Example gamma_hypothesis : forall x, 0 < x -> exists G, is_Gamma x G /\ 0 < G.
Proof. exact gamma_integer. Qed.
Example gamma_at_five : is_Gamma 5 24.
Proof. exact gamma_five. Qed.
Example fraction_not_integer : forall k : Z, -3 / 2 <> IZR k.
Proof. apply (frac_not_int (-3 / 2) (-2)). lra. Qed.
