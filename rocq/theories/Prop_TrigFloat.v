(** Properties C70 and C71: the Gauss-Chebyshev and Gauss-Legendre rules in double arithmetic.  Vocabulary (TrigSpec.v): [accurate_trig be kappa] (the library's sine and
    cosine have the relative error kappa on [0,4]), [close_pairs dx dw] (finite nodes and weights
    within dx and dw of the exact ones), [usable a b] (finite bounds, at most 2^1000),
    [computes_near] (the doubles returned by the integrand are within e of G, which has the
    Lipschitz constant L and the bound B), [gauss_excess] (the sum of all effects of rounding). *)
From Coq Require Import Reals ZArith List.
From Coquelicot Require Import Coquelicot.
From Flocq Require Import Core.
From Verif Require Import Arith RInst F64 F64Spec Machine Rules Par Legendre Chebyshev IntegrateSpec RoundSpec RuleSpec PolySpec ChebSpec
  ErrorSpec TransferSpec TrigSpec ChebFloat LegFloat GaussFloatRules LegBigRule Prop_Legendre LegBigEx TrigEx.
Local Open Scope R_scope.

(** * C70: nodes and weights. *)
Theorem C70_chebyshev1 : forall (be : Backend) kappa, accurate_trig be kappa ->
  forall t n (r : GaussChebyshevFirstKind (F64 be)) (q : GaussChebyshevFirstKind RA), (1 <= n <= 2 ^ 52)%Z -> (n < usize_max t)%Z ->
  chebyshev1_new t n = Ok r -> chebyshev1_new t n = Ok q ->
  close_pairs (kappa + 1 / 10 ^ 15) (5 / 10 ^ 16 / IZR n) (chebyshev1_pairs r) (chebyshev1_pairs q).
Proof. exact chebyshev1_rule_close. Qed.
Print Assumptions C70_chebyshev1.
Theorem C70_chebyshev2 : forall (be : Backend) kappa, accurate_trig be kappa ->
  forall t n (r : GaussChebyshevSecondKind (F64 be)) (q : GaussChebyshevSecondKind RA), (1 <= n < 2 ^ 53)%Z -> (n < usize_max t)%Z ->
  chebyshev2_new t n = Ok r -> chebyshev2_new t n = Ok q ->
  close_pairs (kappa + 12 / 10 ^ 16) ((7 * kappa + 1 / 10 ^ 14) / IZR n) (chebyshev2_pairs r) (chebyshev2_pairs q).
Proof. exact chebyshev2_rule_close. Qed.
Print Assumptions C70_chebyshev2.
(** [q] uses the decimal table values of the source and exact arithmetic. *)
Theorem C70_legendre : forall (be : Backend) kappa, accurate_trig be kappa ->
  forall t n (r : GaussLegendre (F64 be)) (q : GaussLegendre RA), (100 <= usize_max t)%Z -> (1 <= n <= 100)%Z -> (2 * n <= usize_max t)%Z ->
  legendre_new t n = Ok r -> legendre_new t n = Ok q ->
  close_pairs (kappa + 8 / 10 ^ 16) (2 / 10 ^ 15 / IZR n) (legendre_pairs r) (legendre_pairs q).
Proof. exact tabulated_rule_close. Qed.
Print Assumptions C70_legendre.
Theorem C70_legendre_big : forall (be : Backend) kappa, accurate_trig be kappa ->
  forall t (n : nat) (r : GaussLegendre (F64 be)) (q : GaussLegendre RA), (100 <= usize_max t)%Z -> (100 < n)%nat -> (Z.of_nat n <= 2 ^ 40)%Z -> (2 * Z.of_nat n <= usize_max t)%Z ->
  legendre_new t (Z.of_nat n) = Ok r -> legendre_new t (Z.of_nat n) = Ok q ->
  close_pairs (102 / 100 * kappa + 3 / 10 ^ 15) ((2 / 10 ^ 14 + 5 * kappa) / INR n) (legendre_pairs r) (legendre_pairs q).
Proof. exact big_rule_close. Qed.
Print Assumptions C70_legendre_big.

(** A library that rounds correctly *)
Example C70_library : accurate_trig correct_library (bpow radix2 (-53)).
Proof. exact correct_accurate. Qed.
Example C70_big_rules : forall be : Backend, exists (r : GaussLegendre (F64 be)) (q : GaussLegendre RA),
  legendre_new target64 (Z.of_nat 1000) = Ok r /\ legendre_new target64 (Z.of_nat 1000) = Ok q.
Proof. exact both_rules_1000. Qed.

(** * C71: integrate and par_integrate. *)
(** Distance to the value of the rule in exact arithmetic *)
Theorem C71_chebyshev1 : forall (be : Backend) kappa, accurate_trig be kappa ->
  forall t n (r : GaussChebyshevFirstKind (F64 be)) (q : GaussChebyshevFirstKind RA) (a b : F64 be) (g : F64 be -> F64 be) G e L B (result : F64 be),
  (1 <= n <= 2 ^ 40)%Z -> (n < usize_max t)%Z -> chebyshev1_new t n = Ok r -> chebyshev1_new t n = Ok q ->
  usable a b -> computes_near g G (fval a) (fval b) (kappa + 1 / 10 ^ 15) e L B ->
  (result = fst (chebyshev1_integrate (pure g) r a b tt) \/ exists s, result = chebyshev1_par_integrate s g r a b) -> ffin result ->
  Rabs (fval result - chebyshev1_value q (fval a) (fval b) G) <= gauss_excess (IZR n) (fval a) (fval b) PI (kappa + 1 / 10 ^ 15) (5 / 10 ^ 16 / IZR n) e L B.
Proof. exact chebyshev1_close. Qed.
Print Assumptions C71_chebyshev1.
Theorem C71_chebyshev2 : forall (be : Backend) kappa, accurate_trig be kappa ->
  forall t n (r : GaussChebyshevSecondKind (F64 be)) (q : GaussChebyshevSecondKind RA) (a b : F64 be) (g : F64 be -> F64 be) G e L B (result : F64 be),
  (1 <= n <= 2 ^ 40)%Z -> (n < usize_max t)%Z -> chebyshev2_new t n = Ok r -> chebyshev2_new t n = Ok q ->
  usable a b -> computes_near g G (fval a) (fval b) (kappa + 12 / 10 ^ 16) e L B ->
  (result = fst (chebyshev2_integrate (pure g) r a b tt) \/ exists s, result = chebyshev2_par_integrate s g r a b) -> ffin result ->
  Rabs (fval result - chebyshev2_value q (fval a) (fval b) G) <=
    gauss_excess (IZR n) (fval a) (fval b) (PI / 2) (kappa + 12 / 10 ^ 16) ((7 * kappa + 1 / 10 ^ 14) / IZR n) e L B.
Proof. exact chebyshev2_close. Qed.
Print Assumptions C71_chebyshev2.
Theorem C71_legendre : forall (be : Backend) kappa, accurate_trig be kappa ->
  forall t (n : nat) (r : GaussLegendre (F64 be)) (q : GaussLegendre RA) (a b : F64 be) (g : F64 be -> F64 be) G e L B (result : F64 be),
  (100 <= usize_max t)%Z -> (1 <= n <= 100)%nat -> (2 * Z.of_nat n <= usize_max t)%Z -> legendre_new t (Z.of_nat n) = Ok r -> legendre_new t (Z.of_nat n) = Ok q ->
  usable a b -> computes_near g G (fval a) (fval b) (kappa + 8 / 10 ^ 16) e L B ->
  (result = fst (legendre_integrate (pure g) r a b tt) \/ exists s, result = legendre_par_integrate s g r a b) -> ffin result ->
  Rabs (fval result - legendre_value q (fval a) (fval b) G) <= gauss_excess (INR n) (fval a) (fval b) (2 + 1 / 10 ^ 15) (kappa + 8 / 10 ^ 16) (2 / 10 ^ 15 / INR n) e L B.
Proof. exact tabulated_legendre_close. Qed.
Print Assumptions C71_legendre.
Theorem C71_legendre_big : forall (be : Backend) kappa, accurate_trig be kappa ->
  forall t (n : nat) (r : GaussLegendre (F64 be)) (q : GaussLegendre RA) (a b : F64 be) (g : F64 be -> F64 be) G e L B (result : F64 be),
  (100 <= usize_max t)%Z -> (100 < n)%nat -> (Z.of_nat n <= 2 ^ 40)%Z -> (2 * Z.of_nat n <= usize_max t)%Z -> legendre_new t (Z.of_nat n) = Ok r -> legendre_new t (Z.of_nat n) = Ok q ->
  usable a b -> computes_near g G (fval a) (fval b) (102 / 100 * kappa + 3 / 10 ^ 15) e L B ->
  (result = fst (legendre_integrate (pure g) r a b tt) \/ exists s, result = legendre_par_integrate s g r a b) -> ffin result ->
  Rabs (fval result - legendre_value q (fval a) (fval b) G) <=
    gauss_excess (INR n) (fval a) (fval b) (2 + 14 / INR n) (102 / 100 * kappa + 3 / 10 ^ 15) ((2 / 10 ^ 14 + 5 * kappa) / INR n) e L B.
Proof. exact big_legendre_close. Qed.
Print Assumptions C71_legendre_big.

(** Distance to the integral of an integrand with a bounded 2n-th derivative *)
Theorem C71_chebyshev1_integral : forall (be : Backend) kappa, accurate_trig be kappa ->
  forall t n (r : GaussChebyshevFirstKind (F64 be)) (a b : F64 be) (g : F64 be -> F64 be) (F : nat -> R -> R) e L B M v (result : F64 be),
  (1 <= n <= 2 ^ 40)%Z -> (n < usize_max t)%Z -> chebyshev1_new t n = Ok r ->
  usable a b -> fval a <> fval b -> computes_near g (F O) (fval a) (fval b) (kappa + 1 / 10 ^ 15) e L B ->
  let m := Z.to_nat n in
  has_derivatives (open_between (fval a) (fval b)) (2 * m) F -> (forall x, open_between (fval a) (fval b) x -> Rabs (F (2 * m)%nat x) <= M) ->
  weighted_integral (fun x => / sqrt (1 - x * x)) (fval a) (fval b) (F O) v ->
  (result = fst (chebyshev1_integrate (pure g) r a b tt) \/ exists s, result = chebyshev1_par_integrate s g r a b) -> ffin result ->
  Rabs (fval result - v) <= M * (Rabs (fval b - fval a) / 2) ^ (2 * m + 1) / INR (fact (2 * m)) * (PI / 2 ^ (2 * m - 1)) +
    gauss_excess (IZR n) (fval a) (fval b) PI (kappa + 1 / 10 ^ 15) (5 / 10 ^ 16 / IZR n) e L B.
Proof. exact chebyshev1_end. Qed.
Print Assumptions C71_chebyshev1_integral.
Theorem C71_chebyshev2_integral : forall (be : Backend) kappa, accurate_trig be kappa ->
  forall t n (r : GaussChebyshevSecondKind (F64 be)) (a b : F64 be) (g : F64 be -> F64 be) (F : nat -> R -> R) e L B M v (result : F64 be),
  (1 <= n <= 2 ^ 40)%Z -> (n < usize_max t)%Z -> chebyshev2_new t n = Ok r ->
  usable a b -> fval a <> fval b -> computes_near g (F O) (fval a) (fval b) (kappa + 12 / 10 ^ 16) e L B ->
  let m := Z.to_nat n in
  has_derivatives (open_between (fval a) (fval b)) (2 * m) F -> (forall x, open_between (fval a) (fval b) x -> Rabs (F (2 * m)%nat x) <= M) ->
  weighted_integral (fun x => sqrt (1 - x * x)) (fval a) (fval b) (F O) v ->
  (result = fst (chebyshev2_integrate (pure g) r a b tt) \/ exists s, result = chebyshev2_par_integrate s g r a b) -> ffin result ->
  Rabs (fval result - v) <= M * (Rabs (fval b - fval a) / 2) ^ (2 * m + 1) / INR (fact (2 * m)) * (PI / 2 ^ (2 * m + 1)) +
    gauss_excess (IZR n) (fval a) (fval b) (PI / 2) (kappa + 12 / 10 ^ 16) ((7 * kappa + 1 / 10 ^ 14) / IZR n) e L B.
Proof. exact chebyshev2_end. Qed.
Print Assumptions C71_chebyshev2_integral.
Theorem C71_legendre_integral : forall (be : Backend) kappa, accurate_trig be kappa ->
  forall t (n : nat) (r : GaussLegendre (F64 be)) (a b : F64 be) (g : F64 be -> F64 be) (F : nat -> R -> R) e L B M0 M (result : F64 be),
  (100 <= usize_max t)%Z -> (1 <= n <= 100)%nat -> (2 * Z.of_nat n <= usize_max t)%Z -> legendre_new t (Z.of_nat n) = Ok r ->
  usable a b -> fval a <> fval b -> computes_near g (F O) (fval a) (fval b) (kappa + 8 / 10 ^ 16) e L B ->
  has_derivatives (closed_between (fval a) (fval b)) (2 * n) F -> (forall x, closed_between (fval a) (fval b) x -> Rabs (F O x) <= M0) ->
  (forall x, closed_between (fval a) (fval b) x -> Rabs (F (2 * n)%nat x) <= M) ->
  (result = fst (legendre_integrate (pure g) r a b tt) \/ exists s, result = legendre_par_integrate s g r a b) -> ffin result ->
  Rabs (fval result - RInt (F O) (fval a) (fval b)) <=
    (3 / 10 ^ 14 * M0 + 20 * M * (Rabs (fval b - fval a) / 4) ^ (2 * n) / INR (fact (2 * n))) * (Rabs (fval b - fval a) / 2) +
    gauss_excess (INR n) (fval a) (fval b) (2 + 1 / 10 ^ 15) (kappa + 8 / 10 ^ 16) (2 / 10 ^ 15 / INR n) e L B.
Proof. exact tabulated_end. Qed.
Print Assumptions C71_legendre_integral.
(** An integrand that some polynomial of degree at most 2n-1 approximates to within E *)
Theorem C71_legendre_any : forall (be : Backend) kappa, accurate_trig be kappa ->
  forall t (n : nat) (r : GaussLegendre (F64 be)) (a b : F64 be) (g : F64 be -> F64 be) (f p : R -> R) e L B E (result : F64 be),
  (100 <= usize_max t)%Z -> (1 <= n <= 100)%nat -> (2 * Z.of_nat n <= usize_max t)%Z -> legendre_new t (Z.of_nat n) = Ok r ->
  usable a b -> computes_near g f (fval a) (fval b) (kappa + 8 / 10 ^ 16) e L B ->
  polynomial (2 * n - 1) p -> ex_RInt f (fval a) (fval b) ->
  (forall x, Rmin (fval a) (fval b) <= x <= Rmax (fval a) (fval b) -> Rabs (f x - p x) <= E) ->
  (result = fst (legendre_integrate (pure g) r a b tt) \/ exists s, result = legendre_par_integrate s g r a b) -> ffin result ->
  Rabs (fval result - RInt f (fval a) (fval b)) <= (3 / 10 ^ 14 * B + 5 * E) * (Rabs (fval b - fval a) / 2) +
    gauss_excess (INR n) (fval a) (fval b) (2 + 1 / 10 ^ 15) (kappa + 8 / 10 ^ 16) (2 / 10 ^ 15 / INR n) e L B.
Proof. exact tabulated_end_any. Qed.
Print Assumptions C71_legendre_any.
(** More than 100 points: the distance to the integral of a Lipschitz integrand *)
Theorem C71_legendre_big_integral : forall (be : Backend) kappa, accurate_trig be kappa ->
  forall t (n : nat) (r : GaussLegendre (F64 be)) (a b : F64 be) (g : F64 be -> F64 be) (f : R -> R) e L B (result : F64 be),
  (100 <= usize_max t)%Z -> (100 < n)%nat -> (Z.of_nat n <= 2 ^ 40)%Z -> (2 * Z.of_nat n <= usize_max t)%Z -> legendre_new t (Z.of_nat n) = Ok r ->
  usable a b -> fval a <> fval b -> computes_near g f (fval a) (fval b) (102 / 100 * kappa + 3 / 10 ^ 15) e L B ->
  (result = fst (legendre_integrate (pure g) r a b tt) \/ exists s, result = legendre_par_integrate s g r a b) -> ffin result ->
  Rabs (fval result - RInt f (fval a) (fval b)) <= ((8 / 5 * L * Rabs (fval b - fval a) + 7 * B) / INR n + 1 / 10 ^ 15 * B) * Rabs (fval b - fval a) +
    gauss_excess (INR n) (fval a) (fval b) (2 + 14 / INR n) (102 / 100 * kappa + 3 / 10 ^ 15) ((2 / 10 ^ 14 + 5 * kappa) / INR n) e L B.
Proof. exact big_end. Qed.
Print Assumptions C71_legendre_big_integral.

(** x * x between 1 and 2 *)
Example C71_bounds : forall be : Backend, usable (@lit1 (F64 be)) (@lit2 (F64 be)) /\ fval (@lit1 (F64 be)) <> fval (@lit2 (F64 be)).
Proof. exact one_two_usable. Qed.
Example C71_integrand : forall (be : Backend) dx, 0 <= dx <= 1 / 1000 ->
  computes_near (fun x => @nmul (F64 be) x x) (fun x => x ^ 2) (fval (@lit1 (F64 be))) (fval (@lit2 (F64 be))) dx (bpow radix2 (-48)) 6 9.
Proof. exact square_near. Qed.
