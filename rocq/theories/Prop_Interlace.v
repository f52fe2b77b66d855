(** Property C89: raising the degree by one. Between any two neighbouring nodes of the rule with n+1 points lies
    exactly one node of the rule with n points, and that rule has no other nodes; so the two rules have no point in
    common and the nodes of the larger rule reach further out on both sides. Exact arithmetic; for Hermite,
    Laguerre and Jacobi any two exact eigenvalue solvers. Legendre: the tabulated degrees.
    Vocabulary: [interlaced] (InterSpec.v), [strictly_ascending] (MassSpec.v), [exact_on] (EigenSpec.v), [sorts] (GWSpec.v). *)
From Coq Require Import Reals List ZArith Lia.
From Verif Require Import Arith RInst Machine Param Rules GolubWelsch GWSpec EigenSpec WeightSpec MassSpec Hermite Laguerre Jacobi Chebyshev Legendre
  RuleSpec SizeProof GaussExact JacobiMore InterSpec Interlace Prop_Legendre.
Local Open Scope R_scope.

Theorem C89_hermite : forall (ext ext' : Linalg RA) n (r r' : GaussHermite RA), (1 <= n)%Z -> sorts ext -> sorts ext' ->
  exact_on ext (Z.to_nat n) (@hermite_diag RA) (@hermite_off_diag RA) -> exact_on ext' (Z.to_nat (n + 1)) (@hermite_diag RA) (@hermite_off_diag RA) ->
  hermite_new ext n = Ok r -> hermite_new ext' (n + 1) = Ok r' -> interlaced (hermite_pairs r) (hermite_pairs r').
Proof. exact hermite_interlaced. Qed.
Print Assumptions C89_hermite.
Theorem C89_laguerre : forall (ext ext' : Linalg RA) n (al : Param RA) (r r' : GaussLaguerre RA), (1 <= n)%Z -> -1 < param_get al -> sorts ext -> sorts ext' ->
  exact_on ext (Z.to_nat n) (@laguerre_diag RA (param_get al)) (@laguerre_off_diag RA (param_get al)) ->
  exact_on ext' (Z.to_nat (n + 1)) (@laguerre_diag RA (param_get al)) (@laguerre_off_diag RA (param_get al)) ->
  laguerre_new ext n al = Ok r -> laguerre_new ext' (n + 1) al = Ok r' -> interlaced (laguerre_pairs r) (laguerre_pairs r').
Proof. exact laguerre_interlaced. Qed.
Print Assumptions C89_laguerre.
(** Jacobi with equal parameters; one of n and n+1 is odd, and with different parameters a rule of odd degree is not
    the Gauss rule (see C36). *)
Theorem C89_jacobi : forall t (ext ext' : Linalg RA) n (pa pb : Param RA) (r r' : GaussJacobi RA), (2 <= n)%Z ->
  -1 < param_get pa -> param_get pa = param_get pb -> ~ delegated (param_get pa) (param_get pb) -> sorts ext -> sorts ext' ->
  exact_on ext (Z.to_nat n) (@jacobi_diag RA (param_get pa) (param_get pb)) (@jacobi_off_diag RA (param_get pa) (param_get pb)) ->
  exact_on ext' (Z.to_nat (n + 1)) (@jacobi_diag RA (param_get pa) (param_get pb)) (@jacobi_off_diag RA (param_get pa) (param_get pb)) ->
  jacobi_new t ext n pa pb = Ok r -> jacobi_new t ext' (n + 1) pa pb = Ok r' -> interlaced (jacobi_pairs r) (jacobi_pairs r').
Proof. exact jacobi_interlaced. Qed.
Print Assumptions C89_jacobi.
Theorem C89_chebyshev1 : forall t n (r r' : GaussChebyshevFirstKind RA), (1 <= n)%Z -> (n + 1 < usize_max t)%Z ->
  chebyshev1_new t n = Ok r -> chebyshev1_new t (n + 1) = Ok r' -> interlaced (chebyshev1_pairs r) (chebyshev1_pairs r').
Proof. exact chebyshev1_interlaced. Qed.
Print Assumptions C89_chebyshev1.
Theorem C89_chebyshev2 : forall t n (r r' : GaussChebyshevSecondKind RA), (1 <= n)%Z -> (n + 1 < usize_max t)%Z ->
  chebyshev2_new t n = Ok r -> chebyshev2_new t (n + 1) = Ok r' -> interlaced (chebyshev2_pairs r) (chebyshev2_pairs r').
Proof. exact chebyshev2_interlaced. Qed.
Print Assumptions C89_chebyshev2.
Theorem C89_legendre : forall t n (r r' : GaussLegendre RA), (100 <= usize_max t)%Z -> (1 <= n <= 99)%Z -> (2 * (n + 1) <= usize_max t)%Z ->
  legendre_new t n = Ok r -> legendre_new t (n + 1) = Ok r' -> interlaced (legendre_pairs r) (legendre_pairs r').
Proof. exact legendre_interlaced. Qed.
Print Assumptions C89_legendre.
(** Interlacing rules have no point in common: every evaluation of the larger rule is a new one. *)
Theorem C89_new_points : forall l m : list (R * R), strictly_ascending m -> interlaced l m -> forall p q, In p l -> In q m -> fst p <> fst q.
Proof. exact interlaced_new_points. Qed.
Print Assumptions C89_new_points.

(** The hypotheses can be met for every degree and parameter, and they can be met for two neighbouring degrees. *)
Example C89_hermite_case : forall n, (1 <= n)%Z -> exists (ext : Linalg RA) (r : GaussHermite RA), sorts ext /\
  exact_on ext (Z.to_nat n) (@hermite_diag RA) (@hermite_off_diag RA) /\ hermite_new ext n = Ok r.
Proof. exact hermite_solver. Qed.
Example C89_laguerre_case : forall n (al : Param RA), (1 <= n)%Z -> -1 < param_get al ->
  exists (ext : Linalg RA) (r : GaussLaguerre RA) (G : R), sorts ext /\
  exact_on ext (Z.to_nat n) (@laguerre_diag RA (param_get al)) (@laguerre_off_diag RA (param_get al)) /\
  laguerre_new ext n al = Ok r /\ is_Gamma (param_get al + 1) G.
Proof. exact laguerre_solver. Qed.
Example C89_legendre_case : exists r r' : GaussLegendre RA, legendre_new target64 7 = Ok r /\ legendre_new target64 (7 + 1) = Ok r'.
Proof.
  destruct (legendre_new_ok (A := RA) target64 7) as (r & E & _); [vm_compute; discriminate|lia|vm_compute; discriminate|].
  destruct (legendre_new_ok (A := RA) target64 (7 + 1)) as (r' & E' & _); [vm_compute; discriminate|lia|vm_compute; discriminate|].
  exists r, r'. split; assumption.
Qed.
