(** C49 for the rules whose weights were a hypothesis in Prop_Float.v: Legendre of every number of points up to
    2^40, Jacobi, and Laguerre with an accurate library. Double arithmetic.
    Vocabulary: SignSpec.v ([not_negative], [weights_not_negative]), TrigSpec.v ([accurate_trig]), GamFloatSpec.v ([accurate_math]). *)
From Coq Require Import Reals ZArith List Lra Lia.
From Flocq Require Import Core IEEE754.Binary.
From Verif Require Import Arith F64 F64Spec Machine Param Rules GolubWelsch GWSpec Gamma Laguerre Legendre Jacobi SignSpec TrigSpec GamFloatSpec
  SignMore TrigEx GamFloatEx Prop_Legendre Prop_GamFloat.
Local Open Scope R_scope.

Theorem C49_legendre_weights : forall (be : Backend) kappa, accurate_trig be kappa ->
  forall t n (r : GaussLegendre (F64 be)), (100 <= usize_max t)%Z -> (1 <= n <= 2 ^ 40)%Z -> (2 * n <= usize_max t)%Z -> legendre_new t n = Ok r ->
  weights_not_negative (legendre_pairs r).
Proof. exact legendre_weights_nn. Qed.
Print Assumptions C49_legendre_weights.

(** for all branches of the constructor, with any eigenvalue solver; the two scale factors are positive in the ranges of C74 *)
Theorem C49_jacobi_weights : forall (be : Backend) kappa, accurate_trig be kappa ->
  forall t (ext : Linalg (F64 be)) n (pa pb : Param (F64 be)) (r : GaussJacobi (F64 be)), (100 <= usize_max t)%Z -> (1 <= n <= 2 ^ 40)%Z -> (2 * n <= usize_max t)%Z -> sorts ext ->
  not_negative (jacobi_scale (param_get pa) (param_get pb)) -> not_negative (jacobi_one_weight (param_get pa) (param_get pb)) ->
  jacobi_new t ext n pa pb = Ok r -> weights_not_negative (jacobi_pairs r).
Proof. exact jacobi_weights_nn. Qed.
Print Assumptions C49_jacobi_weights.

Theorem C49_laguerre_weights_accurate : forall (be : Backend) kappa, accurate_math be kappa -> forall (ext : Linalg (F64 be)) n (al : Param (F64 be)) (r : GaussLaguerre (F64 be)),
  ffin (param_get al) -> / 10 ^ 18 <= fval (param_get al) + 1 <= 1689 / 10 -> sorts ext -> laguerre_new ext n al = Ok r -> weights_not_negative (laguerre_pairs r).
Proof. exact laguerre_weights_math. Qed.
Print Assumptions C49_laguerre_weights_accurate.

Example C49_libraries : accurate_trig correct_library (bpow radix2 (-53)) /\ accurate_math correct_library (bpow radix2 (-53)).
Proof. split; [exact correct_accurate|exact (proj1 C74_correct_library)]. Qed.
Example C49_rule : exists r : GaussLegendre (F64 correct_library), legendre_new target64 7 = Ok r.
Proof. eexists. reflexivity. Qed.
