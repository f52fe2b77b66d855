(** Property C64: the Gauss-Hermite and Gauss-Laguerre rules converge, in exact arithmetic.
    Vocabulary: ConvSpec.v ([continuous_half], [polynomial_growth]), WeightSpec.v
    ([hermite_integral], [laguerre_integral], [is_Gamma]), RuleSpec.v. The eigenvalue solver is assumed to be
    exact on the matrix in question ([sorts], [exact_on], EigenSpec.v). *)
From Coq Require Import Reals List ZArith Lra Lia.
From Coquelicot Require Import Coquelicot.
From Verif Require Import Arith RInst Machine Param Rules GolubWelsch GWSpec EigenSpec WeightSpec
  Gamma Hermite Laguerre RuleSpec ConvSpec ConvRules ConvEx.
Local Open Scope R_scope.

(** Hermite: every continuous integrand of polynomial growth, smooth or not *)
Theorem C64_hermite_converges : forall f, (forall x, continuous f x) -> polynomial_growth (fun _ => True) f ->
  exists v, hermite_integral f v /\
  forall eps, 0 < eps -> exists N, forall (ext : Linalg RA) n (r : GaussHermite RA), (N <= n)%Z -> sorts ext ->
    exact_on ext (Z.to_nat n) (@hermite_diag RA) (@hermite_off_diag RA) -> hermite_new ext n = Ok r ->
    Rabs (hermite_value r f - v) <= eps.
Proof. exact hermite_converges. Qed.
Print Assumptions C64_hermite_converges.

(** Laguerre; [gamma]/G is the relative error of the library's gamma function (C50) *)
Theorem C64_laguerre_converges : forall al : Param RA, -1 < param_get al -> forall G, is_Gamma (param_get al + 1) G ->
  forall f, continuous_half f -> polynomial_growth (fun x => 0 <= x) f ->
  exists v, laguerre_integral (param_get al) f v /\
  forall eps, 0 < eps -> exists N, forall (ext : Linalg RA) n (r : GaussLaguerre RA), (N <= n)%Z -> sorts ext ->
    exact_on ext (Z.to_nat n) (@laguerre_diag RA (param_get al)) (@laguerre_off_diag RA (param_get al)) ->
    laguerre_new ext n al = Ok r ->
    Rabs (laguerre_value r f - @gamma RA (param_get al + 1) / G * v) <= eps.
Proof. exact laguerre_converges. Qed.
Print Assumptions C64_laguerre_converges.

(** The hypotheses hold for integrands without a derivative; rules of every degree exist (Prop_Exact.v). *)
Example C64_half_line : continuous_half sqrt /\ polynomial_growth (fun x => 0 <= x) sqrt.
Proof. exact sqrt_half. Qed.
Example C64_whole_line : (forall x, continuous Rabs x) /\ polynomial_growth (fun _ => True) Rabs.
Proof. exact abs_whole. Qed.
