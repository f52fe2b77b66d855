(** Property C73, and C12 in double arithmetic for the rules that are not built with an eigenvalue
    solver.  Vocabulary: [separated] (SepSpec.v; finite nodes strictly between -1 and 1 in strictly
    ascending order, finite positive weights), [ascending] (GWSpec.v; the order of f64::total_cmp),
    [accurate_trig be kappa] (TrigSpec.v; the library's sine and cosine have the relative error
    kappa), [falling_cos] (SepSpec.v; the library's cosine does not increase between 0 and pi). *)
From Coq Require Import Reals ZArith List Lra Lia.
From Flocq Require Import Core.
From Verif Require Import Arith F64 F64Spec Machine Rules Par Legendre Chebyshev GWSpec TrigSpec TrigEx SepSpec SepCheb SepLeg SepEx SepEnd SizeProof Prop_Legendre.
Local Open Scope R_scope.

(** * C73 *)
Theorem C73_chebyshev1 : forall (be : Backend) t n, (1 <= n <= 2 ^ 40)%Z -> (n < usize_max t)%Z ->
  forall kappa, accurate_trig be kappa -> IZR n * IZR n * (10 * kappa + 2 / 10 ^ 14) <= 1 ->
  forall r : GaussChebyshevFirstKind (F64 be), chebyshev1_new t n = Ok r -> separated (chebyshev1_pairs r) /\ @ascending (F64 be) (chebyshev1_pairs r).
Proof. exact cheb1_strict. Qed.
Print Assumptions C73_chebyshev1.
Theorem C73_chebyshev2 : forall (be : Backend) t n, (1 <= n <= 2 ^ 40)%Z -> (n < usize_max t)%Z ->
  forall kappa, accurate_trig be kappa -> IZR n * IZR n * (10 * kappa + 2 / 10 ^ 14) <= 1 ->
  forall r : GaussChebyshevSecondKind (F64 be), chebyshev2_new t n = Ok r -> separated (chebyshev2_pairs r) /\ @ascending (F64 be) (chebyshev2_pairs r).
Proof. exact cheb2_strict. Qed.
Print Assumptions C73_chebyshev2.
Theorem C73_legendre : forall (be : Backend) kappa, accurate_trig be kappa ->
  forall t (n : nat) (r : GaussLegendre (F64 be)), (100 <= usize_max t)%Z -> (2 * Z.of_nat n <= usize_max t)%Z -> legendre_new t (Z.of_nat n) = Ok r -> (1 <= n <= 100)%nat ->
  separated (legendre_pairs r) /\ @ascending (F64 be) (legendre_pairs r).
Proof. exact small_strict. Qed.
Print Assumptions C73_legendre.
Theorem C73_legendre_big : forall (be : Backend) kappa, accurate_trig be kappa ->
  forall t (n : nat) (r : GaussLegendre (F64 be)), (100 <= usize_max t)%Z -> (2 * Z.of_nat n <= usize_max t)%Z -> legendre_new t (Z.of_nat n) = Ok r -> (100 < n)%nat -> (Z.of_nat n <= 2 ^ 40)%Z ->
  INR n * INR n * (10 * kappa + 2 / 10 ^ 14) <= 1 ->
  separated (legendre_pairs r) /\ @ascending (F64 be) (legendre_pairs r).
Proof. exact big_strict. Qed.
Print Assumptions C73_legendre_big.

(** The condition on the degree: with a library that rounds correctly it holds up to a million points. *)
Example C73_library : accurate_trig correct_library (bpow radix2 (-53)).
Proof. exact correct_accurate. Qed.
Example C73_million : IZR (10 ^ 6) * IZR (10 ^ 6) * (10 * bpow radix2 (-53) + 2 / 10 ^ 14) <= 1.
Proof. simpl. lra. Qed.
Example C73_rule : exists r : GaussChebyshevFirstKind (F64 correct_library), chebyshev1_new target64 (10 ^ 6) = Ok r.
Proof. unfold chebyshev1_new. rewrite usize_add_ok; [eexists; reflexivity|split; discriminate]. Qed.

(** Without such a condition the property fails, whatever the accuracy of the library: with a
    library that rounds correctly, all rules of 2^30 to 2^40 points have two nodes equal to 1. *)
Theorem C73_chebyshev1_large_degree_ends_in_ones : forall t n (r : GaussChebyshevFirstKind (F64 correct_library)), (2 ^ 30 <= n <= 2 ^ 40)%Z -> (n < usize_max t)%Z ->
  chebyshev1_new t n = Ok r -> ends_in_ones (chebyshev1_pairs r).
Proof. exact cheb1_ends. Qed.
Print Assumptions C73_chebyshev1_large_degree_ends_in_ones.
Theorem C73_chebyshev2_large_degree_ends_in_ones : forall t n (r : GaussChebyshevSecondKind (F64 correct_library)), (2 ^ 30 <= n <= 2 ^ 40)%Z -> (n < usize_max t)%Z ->
  chebyshev2_new t n = Ok r -> ends_in_ones (chebyshev2_pairs r).
Proof. exact cheb2_ends. Qed.
Print Assumptions C73_chebyshev2_large_degree_ends_in_ones.
Theorem C73_legendre_large_degree_ends_in_ones : forall t (n : nat) (r : GaussLegendre (F64 correct_library)), (100 <= usize_max t)%Z -> (2 ^ 30 <= Z.of_nat n <= 2 ^ 40)%Z -> (2 * Z.of_nat n <= usize_max t)%Z ->
  legendre_new t (Z.of_nat n) = Ok r -> ends_in_ones (legendre_pairs r).
Proof. exact legendre_ends. Qed.
Print Assumptions C73_legendre_large_degree_ends_in_ones.

(** * C12: sorted, for all degrees, if the library's cosine falls *)
Theorem C12_chebyshev1_double : forall (be : Backend) t n, (1 <= n <= 2 ^ 40)%Z -> (n < usize_max t)%Z -> falling_cos be ->
  forall r : GaussChebyshevFirstKind (F64 be), chebyshev1_new t n = Ok r -> @ascending (F64 be) (chebyshev1_pairs r).
Proof. exact cheb1_weak. Qed.
Print Assumptions C12_chebyshev1_double.
Theorem C12_chebyshev2_double : forall (be : Backend) t n, (1 <= n <= 2 ^ 40)%Z -> (n < usize_max t)%Z -> falling_cos be ->
  forall r : GaussChebyshevSecondKind (F64 be), chebyshev2_new t n = Ok r -> @ascending (F64 be) (chebyshev2_pairs r).
Proof. exact cheb2_weak. Qed.
Print Assumptions C12_chebyshev2_double.
Theorem C12_legendre_double : forall (be : Backend) t (n : nat) (r : GaussLegendre (F64 be)), (100 <= usize_max t)%Z -> (2 * Z.of_nat n <= usize_max t)%Z ->
  legendre_new t (Z.of_nat n) = Ok r -> (1 <= n <= 100)%nat -> falling_cos be -> @ascending (F64 be) (legendre_pairs r).
Proof. exact small_weak. Qed.
Print Assumptions C12_legendre_double.
Theorem C12_legendre_big_double : forall (be : Backend) kappa, accurate_trig be kappa ->
  forall t (n : nat) (r : GaussLegendre (F64 be)), (100 <= usize_max t)%Z -> (2 * Z.of_nat n <= usize_max t)%Z -> legendre_new t (Z.of_nat n) = Ok r -> (100 < n)%nat -> (Z.of_nat n <= 2 ^ 40)%Z ->
  INR n * kappa <= 1 -> falling_cos be -> @ascending (F64 be) (legendre_pairs r).
Proof. exact big_weak. Qed.
Print Assumptions C12_legendre_big_double.
Example C12_falling : falling_cos correct_library.
Proof. exact correct_falling. Qed.
