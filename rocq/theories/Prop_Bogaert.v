(** Property C76: Gauss-Legendre rules of more than 100 points, in exact arithmetic, are Gauss
    rules to within 10^-12. Vocabulary: GaussRuleSpec.v ([gauss_rule]), PolySpec.v,
    ErrorSpec.v ([closed_between], [oscillation]), RuleSpec.v ([legendre_value]). *)
From Coq Require Import Reals List ZArith Lra Lia.
From Coquelicot Require Import Coquelicot.
From Verif Require Import Arith RInst Machine Rules LegendreData Legendre RSum PolySpec PolyProof RuleSpec ErrorSpec GaussRuleSpec BogRule BogUse Prop_Legendre.
Import ListNotations.
Local Open Scope R_scope.

(** There is exactly one Gauss rule with n points. *)
Theorem C76_gauss_rule : forall n, (1 <= n)%nat -> exists l, gauss_rule n l /\ forall m, gauss_rule n m -> m = l.
Proof. exact gauss_rule_exists. Qed.
Print Assumptions C76_gauss_rule.

(** The i-th node lies within 7.1e-14/(n+1/2) of the i-th node of the Gauss rule, also when both
    are measured as angles, and its weight within the relative distance 2.4e-13. *)
Theorem C76_nodes_and_weights : forall (t : Target) (n : nat),
  (100 <= usize_max t)%Z -> (100 < n)%nat -> (2 * Z.of_nat n <= usize_max t)%Z ->
  forall r : GaussLegendre RA, legendre_new t (Z.of_nat n) = Ok r -> forall l, gauss_rule n l ->
  Forall2 (fun computed exact : R * R =>
    Rabs (acos (fst computed) - acos (fst exact)) <= 71 / 10 ^ 15 / (INR n + / 2) /\
    Rabs (fst computed - fst exact) <= 71 / 10 ^ 15 / (INR n + / 2) /\
    Rabs (snd computed - snd exact) <= 24 / 10 ^ 14 * snd exact) (legendre_pairs r) l.
Proof. exact pairs_close. Qed.
Print Assumptions C76_nodes_and_weights.

Theorem C76_total_weight : forall (t : Target) (n : nat) (r : GaussLegendre RA),
  (100 <= usize_max t)%Z -> (100 < n)%nat -> (2 * Z.of_nat n <= usize_max t)%Z -> legendre_new t (Z.of_nat n) = Ok r ->
  Rabs (lsum (map snd (legendre_pairs r)) - 2) <= 48 / 10 ^ 14.
Proof. exact big_weights. Qed.
Print Assumptions C76_total_weight.

(** Polynomials of degree at most 2n-1, on every interval *)
Theorem C76_polynomials : forall (t : Target) (n : nat) (r : GaussLegendre RA),
  (100 <= usize_max t)%Z -> (100 < n)%nat -> (2 * Z.of_nat n <= usize_max t)%Z -> legendre_new t (Z.of_nat n) = Ok r ->
  forall a b (p : R -> R) M, polynomial (2 * n - 1) p -> (forall x, Rmin a b <= x <= Rmax a b -> Rabs (p x) <= M) ->
  Rabs (legendre_value r a b p - RInt p a b) <= 105 / 10 ^ 14 * M * (Rabs (b - a) / 2).
Proof. exact big_poly. Qed.
Print Assumptions C76_polynomials.

(** Integrands that a polynomial of degree at most 2n-1 approximates to within E *)
Theorem C76_integrands : forall (t : Target) (n : nat) (r : GaussLegendre RA),
  (100 <= usize_max t)%Z -> (100 < n)%nat -> (2 * Z.of_nat n <= usize_max t)%Z -> legendre_new t (Z.of_nat n) = Ok r ->
  forall a b (f p : R -> R) M E, polynomial (2 * n - 1) p -> ex_RInt f a b ->
  (forall x, Rmin a b <= x <= Rmax a b -> Rabs (f x) <= M) -> (forall x, Rmin a b <= x <= Rmax a b -> Rabs (f x - p x) <= E) ->
  Rabs (legendre_value r a b f - RInt f a b) <= (105 / 10 ^ 14 * M + 5 * E) * (Rabs (b - a) / 2).
Proof. exact big_any. Qed.
Print Assumptions C76_integrands.

(** Any integrand at all: the value of the exact Gauss rule *)
Theorem C76_same_as_gauss : forall (t : Target) (n : nat) (r : GaussLegendre RA),
  (100 <= usize_max t)%Z -> (100 < n)%nat -> (2 * Z.of_nat n <= usize_max t)%Z -> legendre_new t (Z.of_nat n) = Ok r ->
  forall l, gauss_rule n l -> forall a b f M omega, (forall x, closed_between a b x -> Rabs (f x) <= M) ->
  oscillation a b f (Rabs (b - a) / INR n / 10 ^ 13) omega ->
  Rabs (legendre_value r a b f - (b - a) / 2 * apply_rule l (fun x => f ((b - a) / 2 * x + (a + b) / 2)))
    <= (omega + 24 / 10 ^ 14 * M) * Rabs (b - a).
Proof. exact big_same. Qed.
Print Assumptions C76_same_as_gauss.

Example C76_degree : exists r : GaussLegendre RA, legendre_new target64 (Z.of_nat 1000) = Ok r.
Proof. exact degree_1000. Qed.
Example C76_polynomial : polynomial (2 * 1000 - 1) (fun x => x ^ 200 - x) /\ forall x, Rmin 0 1 <= x <= Rmax 0 1 -> Rabs (x ^ 200 - x) <= 1.
Proof.
  split.
  - apply (poly_weaken 200); [lia|]. apply poly_sub; [apply poly_pow|apply (poly_weaken 1); [lia|exact poly_id]].
  - intros x Hx. rewrite Rmin_left, Rmax_right in Hx by lra. assert (0 <= x ^ 200) by (apply pow_le; lra). assert (x ^ 200 <= 1) by (rewrite <- (pow1 200); apply pow_incr; lra). apply Rabs_le. lra.
Qed.
Example C76_oscillation : oscillation 0 1 sin (Rabs (1 - 0) / INR 1000 / 10 ^ 13) (Rabs (1 - 0) / INR 1000 / 10 ^ 13).
Proof. intros x y _ _ H. eapply Rle_trans; [apply LegBig.sin_lipschitz|exact H]. Qed.
