(** Property C22 in double arithmetic.  [inside a b x] (InsideSpec.v): x is finite and lies
    between a and b. *)
From Coq Require Import Reals ZArith List.
From Flocq Require Import Core IEEE754.Bits.
From Verif Require Import Arith F64 F64Spec Machine Rules NewtonCotes Chebyshev Legendre Jacobi IntegrateSpec InsideSpec InsideProof InsideGauss InsideExamples.
Import ListNotations.
Local Open Scope R_scope.

(** Newton-Cotes rules: inside, if b - a does not overflow and the subintervals are not subnormal. *)
Theorem C22_midpoint_float : forall (be : Backend) n (a b : F64 be), (1 <= n < 2 ^ 32)%Z -> ffin a -> ffin b ->
  no_overflow (fval b - fval a) -> wide n (fval a) (fval b) ->
  forall g, Forall (inside a b) (snd (midpoint_integrate (A := F64 be) (traced g) (midpoint_new n) a b [])).
Proof. exact midpoint_float. Qed.
Print Assumptions C22_midpoint_float.
Theorem C22_trapezoid_float : forall (be : Backend) n (a b : F64 be), (1 <= n < 2 ^ 32)%Z -> ffin a -> ffin b ->
  no_overflow (fval b - fval a) -> wide n (fval a) (fval b) ->
  forall g, Forall (inside a b) (snd (trapezoid_integrate (A := F64 be) (traced g) (trapezoid_new n) a b [])).
Proof. exact trapezoid_float. Qed.
Print Assumptions C22_trapezoid_float.
Theorem C22_simpson_float : forall (be : Backend) n (a b : F64 be), (1 <= n < 2 ^ 32)%Z -> ffin a -> ffin b ->
  no_overflow (fval b - fval a) -> wide n (fval a) (fval b) -> Rabs (fval b - fval a) <= bpow radix2 1022 ->
  forall g, Forall (inside a b) (snd (simpson_integrate (A := F64 be) (traced g) (simpson_new n) a b [])).
Proof. exact simpson_float. Qed.
Print Assumptions C22_simpson_float.

(** Gauss rules: inside, if (1-|x|) |b-a| is at least 2^-51 (|a|+|b|) + 2^-1075 for every node x. *)
Theorem C22_gauss_float : forall (be : Backend) (g : F64 be -> F64 be) (a b : F64 be), ffin a -> ffin b ->
  Rabs (fval a) <= bpow radix2 1022 -> Rabs (fval b) <= bpow radix2 1022 ->
  (forall r : GaussLegendre (F64 be), clear_nodes a b (legendre_pairs r) -> Forall (inside a b) (snd (legendre_integrate (traced g) r a b []))) /\
  (forall r : GaussJacobi (F64 be), clear_nodes a b (jacobi_pairs r) -> Forall (inside a b) (snd (jacobi_integrate (traced g) r a b []))) /\
  (forall r : GaussChebyshevFirstKind (F64 be), clear_nodes a b (chebyshev1_pairs r) -> Forall (inside a b) (snd (chebyshev1_integrate (traced g) r a b []))) /\
  (forall r : GaussChebyshevSecondKind (F64 be), clear_nodes a b (chebyshev2_pairs r) -> Forall (inside a b) (snd (chebyshev2_integrate (traced g) r a b []))).
Proof. exact gauss_float. Qed.
Print Assumptions C22_gauss_float.

(** Without these conditions it fails: on the interval from 0 to the third positive double ... *)
Theorem C22_subnormal_refuted : forall be : Backend, exists (n : Z) (a b : F64 be), (1 <= n)%Z /\ ffin a /\ ffin b /\ fval a < fval b /\ forall g,
  (exists x, In x (snd (midpoint_integrate (A := F64 be) (traced g) (midpoint_new n) a b [])) /\ ~ inside a b x) /\
  (exists x, In x (snd (trapezoid_integrate (A := F64 be) (traced g) (trapezoid_new n) a b [])) /\ ~ inside a b x) /\
  (exists x, In x (snd (simpson_integrate (A := F64 be) (traced g) (simpson_new n) a b [])) /\ ~ inside a b x).
Proof. exact subnormal_outside. Qed.
Print Assumptions C22_subnormal_refuted.
(** ... where b - a overflows, and for Simpson already on [0, f64::MAX] ... *)
Theorem C22_overflow_refuted : forall be : Backend, exists a z b : F64 be, ffin a /\ ffin z /\ ffin b /\ fval a < fval z < fval b /\ forall g,
  (exists x, In x (snd (midpoint_integrate (A := F64 be) (traced g) (midpoint_new 1) a b [])) /\ ~ ffin x) /\
  (exists x, In x (snd (trapezoid_integrate (A := F64 be) (traced g) (trapezoid_new 2) a b [])) /\ ~ ffin x) /\
  (exists x, In x (snd (simpson_integrate (A := F64 be) (traced g) (simpson_new 2) z b [])) /\ ~ ffin x).
Proof. exact overflow_outside. Qed.
Print Assumptions C22_overflow_refuted.
(** ... and for every Gauss rule with a node in [-1,-1/2) on the interval from 1 to the next double. *)
Theorem C22_narrow_refuted : forall be : Backend, exists a b : F64 be, ffin a /\ ffin b /\ fval a < fval b /\ forall g,
  (forall (r : GaussLegendre (F64 be)) xw, In xw (legendre_pairs r) -> ffin (fst xw) -> -1 <= fval (fst xw) < - / 2 ->
     exists p, In p (snd (legendre_integrate (traced g) r a b [])) /\ ~ inside a b p) /\
  (forall (r : GaussJacobi (F64 be)) xw, In xw (jacobi_pairs r) -> ffin (fst xw) -> -1 <= fval (fst xw) < - / 2 ->
     exists p, In p (snd (jacobi_integrate (traced g) r a b [])) /\ ~ inside a b p) /\
  (forall (r : GaussChebyshevFirstKind (F64 be)) xw, In xw (chebyshev1_pairs r) -> ffin (fst xw) -> -1 <= fval (fst xw) < - / 2 ->
     exists p, In p (snd (chebyshev1_integrate (traced g) r a b [])) /\ ~ inside a b p) /\
  (forall (r : GaussChebyshevSecondKind (F64 be)) xw, In xw (chebyshev2_pairs r) -> ffin (fst xw) -> -1 <= fval (fst xw) < - / 2 ->
     exists p, In p (snd (chebyshev2_integrate (traced g) r a b [])) /\ ~ inside a b p).
Proof. exact narrow_outside. Qed.
Print Assumptions C22_narrow_refuted.

(** * Concrete cases *)
Example C22_unit_interval : ffin (f64_of_Z 0) /\ ffin (f64_of_Z 1) /\ no_overflow (fval (f64_of_Z 1) - fval (f64_of_Z 0)) /\
  wide 1000 (fval (f64_of_Z 0)) (fval (f64_of_Z 1)) /\ Rabs (fval (f64_of_Z 0)) <= bpow radix2 1022 /\
  Rabs (fval (f64_of_Z 1)) <= bpow radix2 1022 /\ Rabs (fval (f64_of_Z 1) - fval (f64_of_Z 0)) <= bpow radix2 1022.
Proof. exact unit_wide. Qed.
Example C22_legendre2 : exists r : GaussLegendre (F64 coarse), legendre_new target 2 = Ok r /\ legendre_pairs r = pairs2.
Proof. exact legendre2. Qed.
Example C22_legendre2_clear : clear_nodes (f64_of_Z 0) (f64_of_Z 1) pairs2. Proof. exact clear2. Qed.
Example C22_legendre2_low : exists xw, In xw pairs2 /\ ffin (fst xw) /\ -1 <= fval (fst xw) < - / 2. Proof. exact low2. Qed.
