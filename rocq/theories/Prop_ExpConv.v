(** Property C98: the Gauss-Hermite and Gauss-Laguerre rules converge for integrands of exponential
    and faster growth, in exact arithmetic. Vocabulary: ExpConvSpec.v ([exponential_growth], [gaussian_growth]), ConvSpec.v ([continuous_half]),
    WeightSpec.v ([hermite_integral], [laguerre_integral], [is_Gamma]), RuleSpec.v. The eigenvalue solver is
    assumed to be exact on the matrix in question ([sorts], [exact_on], EigenSpec.v). *)
From Coq Require Import Reals List ZArith Lra Lia.
From Coquelicot Require Import Coquelicot.
From Verif Require Import Arith RInst Machine Param Rules GolubWelsch GWSpec EigenSpec WeightSpec
  Gamma Hermite Laguerre RuleSpec ConvSpec ExpConvSpec ExpConv ExpConvEx.
Local Open Scope R_scope.

(** Hermite: every continuous integrand bounded by a multiple of exp(c x^2) with c below 1 *)
Theorem C98_hermite_converges : forall c f, c < 1 -> (forall x, continuous f x) -> gaussian_growth c f ->
  exists v, hermite_integral f v /\
  forall eps, 0 < eps -> exists N, forall (ext : Linalg RA) n (r : GaussHermite RA), (N <= n)%Z -> sorts ext ->
    exact_on ext (Z.to_nat n) (@hermite_diag RA) (@hermite_off_diag RA) -> hermite_new ext n = Ok r ->
    Rabs (hermite_value r f - v) <= eps.
Proof. exact hermite_gauss_converges. Qed.
Print Assumptions C98_hermite_converges.

(** In particular every continuous integrand bounded by a multiple of exp(c |x|), for any c *)
Theorem C98_hermite_exponential : forall c f, (forall x, continuous f x) -> exponential_growth (fun _ => True) c f ->
  exists v, hermite_integral f v /\
  forall eps, 0 < eps -> exists N, forall (ext : Linalg RA) n (r : GaussHermite RA), (N <= n)%Z -> sorts ext ->
    exact_on ext (Z.to_nat n) (@hermite_diag RA) (@hermite_off_diag RA) -> hermite_new ext n = Ok r ->
    Rabs (hermite_value r f - v) <= eps.
Proof. exact hermite_exp_converges. Qed.
Print Assumptions C98_hermite_exponential.

(** Laguerre: every continuous integrand bounded by a multiple of exp(c x) with c below 1;
    [gamma]/G is the relative error of the library's gamma function (C50) *)
Theorem C98_laguerre_converges : forall al : Param RA, -1 < param_get al -> forall G, is_Gamma (param_get al + 1) G ->
  forall c f, c < 1 -> continuous_half f -> exponential_growth (fun x => 0 <= x) c f ->
  exists v, laguerre_integral (param_get al) f v /\
  forall eps, 0 < eps -> exists N, forall (ext : Linalg RA) n (r : GaussLaguerre RA), (N <= n)%Z -> sorts ext ->
    exact_on ext (Z.to_nat n) (@laguerre_diag RA (param_get al)) (@laguerre_off_diag RA (param_get al)) ->
    laguerre_new ext n al = Ok r ->
    Rabs (laguerre_value r f - @gamma RA (param_get al + 1) / G * v) <= eps.
Proof. exact laguerre_exp_converges. Qed.
Print Assumptions C98_laguerre_converges.

(** The hypotheses hold for integrands that outgrow every polynomial; rules of every degree exist (Prop_Exact.v). *)
Example C98_whole_line : (forall x, continuous (fun x => exp (3 * Rabs x)) x) /\ exponential_growth (fun _ => True) 3 (fun x => exp (3 * Rabs x)).
Proof. exact exp_abs_whole. Qed.
Example C98_half_line : continuous_half (fun x => exp (x / 2) * sqrt x / (1 + x)) /\
  exponential_growth (fun x => 0 <= x) (1 / 2) (fun x => exp (x / 2) * sqrt x / (1 + x)).
Proof. exact exp_half_line. Qed.
Example C98_gaussian : (forall x, continuous (fun x => Rabs x * exp (x * x / 2)) x) /\ gaussian_growth (3 / 4) (fun x => Rabs x * exp (x * x / 2)).
Proof. exact abs_gauss_whole. Qed.

(** c = 1 cannot be allowed: for exp(x^2) and exp(x) there is no integral to converge to. *)
Theorem C98_hermite_limit : forall v, ~ hermite_integral (fun x => exp (1 * (x * x))) v.
Proof. exact hermite_no_int. Qed.
Print Assumptions C98_hermite_limit.
Theorem C98_laguerre_limit : forall v, ~ laguerre_integral 0 (fun x => exp (1 * x)) v.
Proof. exact laguerre_no_int. Qed.
Print Assumptions C98_laguerre_limit.
