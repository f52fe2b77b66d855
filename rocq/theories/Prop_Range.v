(** Property C87: where the Gauss-Hermite and Gauss-Laguerre rules evaluate the integrand. The nodes of the
    n-point rules stay in an explicit range, the range is right up to a constant factor, and nothing the
    integrand does outside it has any influence on the result. Exact arithmetic, exact eigenvalue solver.
    Vocabulary: EigenSpec.v ([exact_on]), GWSpec.v ([sorts]), RuleSpec.v ([hermite_value], [laguerre_value]). *)
From Coq Require Import Reals List ZArith.
From Verif Require Import Arith RInst Machine Param Rules GolubWelsch GWSpec EigenSpec WeightSpec Hermite Laguerre RuleSpec GaussExact JacobiMore NodeRange.
Local Open Scope R_scope.

(** Hermite: all nodes lie in (-sqrt(2n-2), sqrt(2n-2)); the outermost ones lie beyond sqrt(n-3/2) on both sides. *)
Theorem C87_hermite : forall (ext : Linalg RA) n (r : GaussHermite RA), (2 <= n)%Z -> sorts ext ->
  exact_on ext (Z.to_nat n) (@hermite_diag RA) (@hermite_off_diag RA) -> hermite_new ext n = Ok r ->
  (forall xw, In xw (hermite_pairs r) -> Rabs (fst xw) < sqrt (2 * IZR n - 2)) /\
  (exists xw, In xw (hermite_pairs r) /\ sqrt (IZR n - 3 / 2) <= fst xw) /\
  (exists xw, In xw (hermite_pairs r) /\ fst xw <= - sqrt (IZR n - 3 / 2)).
Proof. exact hermite_range. Qed.
Print Assumptions C87_hermite.

(** Laguerre: all nodes lie between (alpha+1)/n and 4n-2+2 alpha; the largest is at least 2n-1+alpha,
    the smallest at most alpha+1. *)
Theorem C87_laguerre : forall (ext : Linalg RA) n (al : Param RA) (r : GaussLaguerre RA), (1 <= n)%Z -> -1 < param_get al -> sorts ext ->
  exact_on ext (Z.to_nat n) (@laguerre_diag RA (param_get al)) (@laguerre_off_diag RA (param_get al)) ->
  laguerre_new ext n al = Ok r ->
  (forall xw, In xw (laguerre_pairs r) -> (param_get al + 1) / IZR n <= fst xw < 4 * IZR n - 2 + 2 * param_get al) /\
  (exists xw, In xw (laguerre_pairs r) /\ 2 * IZR n - 1 + param_get al <= fst xw) /\
  (exists xw, In xw (laguerre_pairs r) /\ fst xw <= param_get al + 1).
Proof. exact laguerre_range. Qed.
Print Assumptions C87_laguerre.

(** Integrands that agree on these ranges get the same result. *)
Theorem C87_hermite_blind : forall (ext : Linalg RA) n (r : GaussHermite RA), (2 <= n)%Z -> sorts ext ->
  exact_on ext (Z.to_nat n) (@hermite_diag RA) (@hermite_off_diag RA) -> hermite_new ext n = Ok r ->
  forall f g : R -> R, (forall x, Rabs x < sqrt (2 * IZR n - 2) -> f x = g x) -> hermite_value r f = hermite_value r g.
Proof. exact hermite_blind. Qed.
Print Assumptions C87_hermite_blind.
Theorem C87_laguerre_blind : forall (ext : Linalg RA) n (al : Param RA) (r : GaussLaguerre RA), (1 <= n)%Z -> -1 < param_get al -> sorts ext ->
  exact_on ext (Z.to_nat n) (@laguerre_diag RA (param_get al)) (@laguerre_off_diag RA (param_get al)) ->
  laguerre_new ext n al = Ok r ->
  forall f g : R -> R, (forall x, (param_get al + 1) / IZR n <= x < 4 * IZR n - 2 + 2 * param_get al -> f x = g x) ->
  laguerre_value r f = laguerre_value r g.
Proof. exact laguerre_blind. Qed.
Print Assumptions C87_laguerre_blind.

(** The hypotheses can be met for every degree and parameter. *)
Example C87_hermite_case : exists (ext : Linalg RA) (r : GaussHermite RA), sorts ext /\
  exact_on ext (Z.to_nat 5) (@hermite_diag RA) (@hermite_off_diag RA) /\ hermite_new ext 5 = Ok r.
Proof. exact (hermite_solver 5 ltac:(discriminate)). Qed.
Example C87_laguerre_case : forall n (al : Param RA), (1 <= n)%Z -> -1 < param_get al ->
  exists (ext : Linalg RA) (r : GaussLaguerre RA) (G : R), sorts ext /\
  exact_on ext (Z.to_nat n) (@laguerre_diag RA (param_get al)) (@laguerre_off_diag RA (param_get al)) /\
  laguerre_new ext n al = Ok r /\ is_Gamma (param_get al + 1) G.
Proof. exact laguerre_solver. Qed.
