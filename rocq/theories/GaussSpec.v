(** Specification vocabulary for Gauss rules: where integrate calls the
    integrand and which sum it returns. *)
From Coq Require Import List ZArith.
From Verif Require Import Arith IntegrateSpec.
Import ListNotations.
Local Open Scope num_scope.

(** The affine map from [-1,1] to [a,b] and the factor of the integral. *)
Definition to_interval {A : Arith} (a b x : A) : A := lit_half [*] ((b [-] a) [*] x [+] (b [+] a)).
Definition half_width {A : Arith} (a b : A) : A := lit_half [*] (b [-] a).
(** Sum of value * weight, from left to right. *)
Definition weighted_sum {A : Arith} (vs ws : list A) : A :=
  float_sum (map (fun vw => fst vw [*] snd vw) (combine vs ws)).
