(** Properties C44 and C45: the library's gamma function in exact arithmetic. *)
From Coq Require Import Reals ZArith.
From Verif Require Import Arith RInst Gamma MassSpec GammaProof GaussExact.
Local Open Scope R_scope.

Theorem C44_reflection : forall x, (forall k : Z, x <> IZR k) -> x <> / 2 ->
  @gamma RA x * @gamma RA (1 - x) = PI / sin (PI * x).
Proof. exact gamma_reflect. Qed.
Print Assumptions C44_reflection.

(** At x = 1/2, where both factors use the same branch, the identity is only approximate. *)
Theorem C44_one_half_refuted : exists x, (forall k : Z, x <> IZR k) /\
  @gamma RA x * @gamma RA (1 - x) < PI / sin (PI * x).
Proof. exact (ex_intro _ (/ 2) (conj half_not_integer gamma_half_wrong)). Qed.
Print Assumptions C44_one_half_refuted.

Theorem C45_gamma_positive : forall x, 0 < x -> 0 < @gamma RA x.
Proof. exact gamma_pos. Qed.
Print Assumptions C45_gamma_positive.

Theorem C45_gamma_negative : forall x, -1 < x < 0 -> @gamma RA x < 0.
Proof. exact gamma_neg. Qed.
Print Assumptions C45_gamma_negative.

(** so the Jacobi scale factor is positive *)
Theorem C45_jacobi_scale_positive : forall alpha beta, -1 < alpha -> -1 < beta -> alpha + beta <> -1 ->
  0 < jacobi_mass alpha beta.
Proof. exact jacobi_mass_pos. Qed.
Print Assumptions C45_jacobi_scale_positive.
