(** Properties C25 (change of interval), C29, C30, C31 and C12 for the two
    Gauss-Chebyshev rules, in exact arithmetic.  Vocabulary: ChebSpec (the two weighted
    integrals), TransferSpec ([weighted_integral], [exact_against]), PolySpec
    ([polynomial], [apply_rule]), RuleSpec, MassSpec. *)
From Coq Require Import Reals List ZArith.
From Coquelicot Require Import Coquelicot.
From Verif Require Import Arith RInst Machine Rules Par Chebyshev Legendre Jacobi RSum PolySpec RuleSpec MassSpec ChebSpec TransferSpec
  TransferProof ChebRule.
Import ListNotations.
Local Open Scope R_scope.

(** C25: improper integrals over the open interval, either orientation. *)
Theorem C25_change_of_interval : forall (w : R -> R) d (a b : R) f, a <> b -> polynomial d f ->
  (forall r : GaussLegendre RA, exact_against w d (legendre_pairs r) -> weighted_integral w a b f (legendre_value r a b f)) /\
  (forall r : GaussJacobi RA, exact_against w d (jacobi_pairs r) -> weighted_integral w a b f (jacobi_value r a b f)) /\
  (forall r : GaussChebyshevFirstKind RA, exact_against w d (chebyshev1_pairs r) -> weighted_integral w a b f (chebyshev1_value r a b f)) /\
  (forall r : GaussChebyshevSecondKind RA, exact_against w d (chebyshev2_pairs r) -> weighted_integral w a b f (chebyshev2_value r a b f)).
Proof. exact transfer_values. Qed.
Print Assumptions C25_change_of_interval.
(** C25: proper integrals over the closed interval, a = b included. *)
Theorem C25_change_of_interval_proper : forall (w : R -> R) d (a b : R) f, polynomial d f ->
  (forall r : GaussLegendre RA, properly_exact_against w d (legendre_pairs r) ->
     is_RInt (fun x => w (to_unit a b x) * f x) a b (legendre_value r a b f)) /\
  (forall r : GaussJacobi RA, properly_exact_against w d (jacobi_pairs r) ->
     is_RInt (fun x => w (to_unit a b x) * f x) a b (jacobi_value r a b f)) /\
  (forall r : GaussChebyshevFirstKind RA, properly_exact_against w d (chebyshev1_pairs r) ->
     is_RInt (fun x => w (to_unit a b x) * f x) a b (chebyshev1_value r a b f)) /\
  (forall r : GaussChebyshevSecondKind RA, properly_exact_against w d (chebyshev2_pairs r) ->
     is_RInt (fun x => w (to_unit a b x) * f x) a b (chebyshev2_value r a b f)).
Proof. exact transfer_values_proper. Qed.
Print Assumptions C25_change_of_interval_proper.
Example C25_example : properly_exact_against (fun _ => 1) 1 [(-1, /3); (0, 4/3); (1, /3)].
Proof. exact simpson_proper. Qed.

(** C29 *)
Theorem C29_chebyshev1_exact : forall t n (r : GaussChebyshevFirstKind RA), (1 <= n < usize_max t)%Z ->
  chebyshev1_new t n = Ok r ->
  forall f, polynomial (2 * Z.to_nat n - 1) f -> chebyshev1_integral f (chebyshev1_value r (-1) 1 f).
Proof. exact cheb1_exact. Qed.
Print Assumptions C29_chebyshev1_exact.
Theorem C29_chebyshev1_exact_on_interval : forall t n (r : GaussChebyshevFirstKind RA), (1 <= n < usize_max t)%Z ->
  chebyshev1_new t n = Ok r -> forall a b f, a <> b -> polynomial (2 * Z.to_nat n - 1) f ->
  weighted_integral (fun x => / sqrt (1 - x * x)) a b f (chebyshev1_value r a b f).
Proof. exact cheb1_interval. Qed.
Print Assumptions C29_chebyshev1_exact_on_interval.

(** C30 *)
Theorem C30_chebyshev2_exact : forall t n (r : GaussChebyshevSecondKind RA), (1 <= n < usize_max t)%Z ->
  chebyshev2_new t n = Ok r ->
  forall f, polynomial (2 * Z.to_nat n - 1) f -> chebyshev2_integral f (chebyshev2_value r (-1) 1 f).
Proof. exact cheb2_exact. Qed.
Print Assumptions C30_chebyshev2_exact.
Theorem C30_chebyshev2_exact_on_interval : forall t n (r : GaussChebyshevSecondKind RA), (1 <= n < usize_max t)%Z ->
  chebyshev2_new t n = Ok r -> forall a b f, polynomial (2 * Z.to_nat n - 1) f ->
  is_RInt (fun x => sqrt (1 - to_unit a b x * to_unit a b x) * f x) a b (chebyshev2_value r a b f).
Proof. exact cheb2_interval. Qed.
Print Assumptions C30_chebyshev2_exact_on_interval.

(** C31 (and C12 for these rules): strictly ascending, symmetric, inside (-1,1),
    positive weights with the right sum. *)
Theorem C31_chebyshev1_shape : forall t n (r : GaussChebyshevFirstKind RA), (1 <= n < usize_max t)%Z ->
  chebyshev1_new t n = Ok r ->
  strictly_ascending (chebyshev1_pairs r) /\ symmetric_rule (chebyshev1_pairs r) /\
  List.Forall (fun xw : R * R => -1 < fst xw < 1 /\ 0 < snd xw) (chebyshev1_pairs r) /\
  lsum (map snd (chebyshev1_pairs r)) = PI.
Proof. exact cheb1_shape. Qed.
Print Assumptions C31_chebyshev1_shape.
Theorem C31_chebyshev2_shape : forall t n (r : GaussChebyshevSecondKind RA), (1 <= n < usize_max t)%Z ->
  chebyshev2_new t n = Ok r ->
  strictly_ascending (chebyshev2_pairs r) /\ symmetric_rule (chebyshev2_pairs r) /\
  List.Forall (fun xw : R * R => -1 < fst xw < 1 /\ 0 < snd xw) (chebyshev2_pairs r) /\
  lsum (map snd (chebyshev2_pairs r)) = PI / 2.
Proof. exact cheb2_shape. Qed.
Print Assumptions C31_chebyshev2_shape.
Example chebyshev_rules_exist : exists (t : Target) (r1 : GaussChebyshevFirstKind RA) (r2 : GaussChebyshevSecondKind RA),
  (1 <= 3 < usize_max t)%Z /\ chebyshev1_new t 3 = Ok r1 /\ chebyshev2_new t 3 = Ok r2.
Proof. exact cheb_rules_exist. Qed.
