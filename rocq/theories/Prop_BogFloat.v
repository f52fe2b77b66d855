(** Property C76, continued (smooth and continuous integrands), and property C77: Gauss-Legendre
    rules of more than 100 points in double arithmetic against the exact Gauss rule and the integral.
    Vocabulary: GaussRuleSpec.v, ErrorSpec.v, PolySpec.v, TrigSpec.v (see Prop_TrigFloat.v). *)
From Coq Require Import Reals ZArith List.
From Coquelicot Require Import Coquelicot.
From Flocq Require Import Core.
From Verif Require Import Arith RInst F64 F64Spec Machine Rules Par Legendre IntegrateSpec RoundSpec RuleSpec PolySpec PolyProof ErrorSpec ErrConv TrigSpec
  GaussRuleSpec BogFloat Prop_Legendre LegBigEx TrigEx Prop_Error.
Local Open Scope R_scope.

(** Integrands with a bounded 2n-th derivative: the error of the exact Gauss rule and 10^-12. *)
Theorem C76_derivatives : forall (t : Target) (n : nat) (r : GaussLegendre RA),
  (100 <= usize_max t)%Z -> (100 < n)%nat -> (2 * Z.of_nat n <= usize_max t)%Z -> legendre_new t (Z.of_nat n) = Ok r ->
  forall a b (F : nat -> R -> R) M0 M, a <> b -> has_derivatives (closed_between a b) (2 * n) F ->
  (forall x, closed_between a b x -> Rabs (F O x) <= M0) -> (forall x, closed_between a b x -> Rabs (F (2 * n)%nat x) <= M) ->
  Rabs (legendre_value r a b (F O) - RInt (F O) a b) <=
    (105 / 10 ^ 14 * M0 + 20 * M * (Rabs (b - a) / 4) ^ (2 * n) / INR (fact (2 * n))) * (Rabs (b - a) / 2).
Proof. exact big_derivatives. Qed.
Print Assumptions C76_derivatives.
(** Integrands that are only continuous *)
Theorem C76_continuous : forall (t : Target) (n : nat) (r : GaussLegendre RA),
  (100 <= usize_max t)%Z -> (100 < n)%nat -> (2 * Z.of_nat n <= usize_max t)%Z -> legendre_new t (Z.of_nat n) = Ok r ->
  forall a b f M delta omega, a <> b -> ex_RInt f a b -> (forall x, closed_between a b x -> Rabs (f x) <= M) ->
  0 < delta -> oscillation a b f delta omega ->
  Rabs (legendre_value r a b f - RInt f a b) <=
    (105 / 10 ^ 14 * M + 5 * ((1 + (b - a) * (b - a) / (4 * INR (2 * n - 1) * (delta * delta))) * omega)) * (Rabs (b - a) / 2).
Proof. exact big_modulus. Qed.
Print Assumptions C76_continuous.

(** * C77: nodes and weights. *)
Theorem C77_nodes_and_weights : forall (be : Backend) kappa, accurate_trig be kappa ->
  forall t (n : nat) (r : GaussLegendre (F64 be)), (100 <= usize_max t)%Z -> (100 < n)%nat -> (Z.of_nat n <= 2 ^ 40)%Z -> (2 * Z.of_nat n <= usize_max t)%Z ->
  legendre_new t (Z.of_nat n) = Ok r -> forall l, gauss_rule n l ->
  Forall2 (fun p q => (ffin (fst p) /\ Rabs (fval (fst p) - fst q) <= 102 / 100 * kappa + 4 / 10 ^ 15) /\
    (ffin (snd p) /\ Rabs (fval (snd p) - snd q) <= (2 / 10 ^ 14 + 5 * kappa) / INR n + 24 / 10 ^ 14 * snd q)) (legendre_pairs r) l.
Proof. exact big_gauss_close. Qed.
Print Assumptions C77_nodes_and_weights.

(** integrate and par_integrate against the integral of an integrand that some polynomial of
    degree at most 2n-1 approximates to within E *)
Theorem C77_integrands : forall (be : Backend) kappa, accurate_trig be kappa ->
  forall t (n : nat) (r : GaussLegendre (F64 be)) (a b : F64 be) (g : F64 be -> F64 be) (f p : R -> R) e L B E (result : F64 be),
  (100 <= usize_max t)%Z -> (100 < n)%nat -> (Z.of_nat n <= 2 ^ 40)%Z -> (2 * Z.of_nat n <= usize_max t)%Z -> legendre_new t (Z.of_nat n) = Ok r ->
  usable a b -> computes_near g f (fval a) (fval b) (102 / 100 * kappa + 3 / 10 ^ 15) e L B ->
  polynomial (2 * n - 1) p -> ex_RInt f (fval a) (fval b) ->
  (forall x, Rmin (fval a) (fval b) <= x <= Rmax (fval a) (fval b) -> Rabs (f x - p x) <= E) ->
  (result = fst (legendre_integrate (pure g) r a b tt) \/ exists s, result = legendre_par_integrate s g r a b) -> ffin result ->
  Rabs (fval result - RInt f (fval a) (fval b)) <= (105 / 10 ^ 14 * B + 5 * E) * (Rabs (fval b - fval a) / 2) +
    gauss_excess (INR n) (fval a) (fval b) (2 + 48 / 10 ^ 14) (102 / 100 * kappa + 3 / 10 ^ 15) ((2 / 10 ^ 14 + 5 * kappa) / INR n) e L B.
Proof. exact big_end_any. Qed.
Print Assumptions C77_integrands.
(** and of an integrand with a bounded 2n-th derivative *)
Theorem C77_derivatives : forall (be : Backend) kappa, accurate_trig be kappa ->
  forall t (n : nat) (r : GaussLegendre (F64 be)) (a b : F64 be) (g : F64 be -> F64 be) (F : nat -> R -> R) e L B M0 M (result : F64 be),
  (100 <= usize_max t)%Z -> (100 < n)%nat -> (Z.of_nat n <= 2 ^ 40)%Z -> (2 * Z.of_nat n <= usize_max t)%Z -> legendre_new t (Z.of_nat n) = Ok r ->
  usable a b -> fval a <> fval b -> computes_near g (F O) (fval a) (fval b) (102 / 100 * kappa + 3 / 10 ^ 15) e L B ->
  has_derivatives (closed_between (fval a) (fval b)) (2 * n) F -> (forall x, closed_between (fval a) (fval b) x -> Rabs (F O x) <= M0) ->
  (forall x, closed_between (fval a) (fval b) x -> Rabs (F (2 * n)%nat x) <= M) ->
  (result = fst (legendre_integrate (pure g) r a b tt) \/ exists s, result = legendre_par_integrate s g r a b) -> ffin result ->
  Rabs (fval result - RInt (F O) (fval a) (fval b)) <=
    (105 / 10 ^ 14 * M0 + 20 * M * (Rabs (fval b - fval a) / 4) ^ (2 * n) / INR (fact (2 * n))) * (Rabs (fval b - fval a) / 2) +
    gauss_excess (INR n) (fval a) (fval b) (2 + 48 / 10 ^ 14) (102 / 100 * kappa + 3 / 10 ^ 15) ((2 / 10 ^ 14 + 5 * kappa) / INR n) e L B.
Proof. exact big_end_smooth. Qed.
Print Assumptions C77_derivatives.

(** The square function between 1 and 2, at 1000 points, with correctly rounded sine and cosine. *)
Example C77_rule : forall be : Backend, exists (r : GaussLegendre (F64 be)) (q : GaussLegendre RA),
  legendre_new target64 (Z.of_nat 1000) = Ok r /\ legendre_new target64 (Z.of_nat 1000) = Ok q.
Proof. exact both_rules_1000. Qed.
Example C77_library : accurate_trig correct_library (bpow radix2 (-53)).
Proof. exact correct_accurate. Qed.
Example C77_integrand : forall (be : Backend) dx, 0 <= dx <= 1 / 1000 ->
  computes_near (fun x => @nmul (F64 be) x x) (fun x => x ^ 2) (fval (@lit1 (F64 be))) (fval (@lit2 (F64 be))) dx (bpow radix2 (-48)) 6 9.
Proof. exact square_near. Qed.
Example C77_bounds : forall be : Backend, usable (@lit1 (F64 be)) (@lit2 (F64 be)) /\ fval (@lit1 (F64 be)) <> fval (@lit2 (F64 be)).
Proof. exact one_two_usable. Qed.
Example C77_polynomial : polynomial 2 (fun x => x ^ 2).
Proof. exact (poly_pow 2). Qed.
Example C77_smooth : forall D m, has_derivatives D m (fun i x => sin (x + INR i * (PI / 2))).
Proof. exact smooth_integrand. Qed.
