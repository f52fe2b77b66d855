(** Properties C21, C22, C24, C26, C28: integrate and par_integrate of the Gauss
    rules, par_new.  Vocabulary: IntegrateSpec ([call_all], [traced], [pure]),
    GaussSpec ([to_interval], [half_width], [weighted_sum]), RuleSpec, and FreeSpec
    (formal expressions, to observe the calls a parallel computation makes). *)
From Coq Require Import Reals ZArith List.
From Verif Require Import Arith RInst Machine Rules Par Chebyshev GolubWelsch Hermite Laguerre Legendre Jacobi NewtonCotes
  IntegrateSpec GaussSpec RuleSpec NCSpec GaussProof TraceProof FreeSpec FreeProof.
Import ListNotations.
Local Open Scope num_scope.

(** C24: one call per node, in stored order, and the weighted sum, in any
    arithmetic and for any stateful integrand. *)
Theorem C24_legendre_calls : forall (A : Arith) S (f : S -> A -> A * S) r a b s,
  legendre_integrate f r a b s =
  let '(vs, s') := call_all f (map (to_interval a b) (map fst (legendre_pairs r))) s in
  (half_width a b [*] weighted_sum vs (map snd (legendre_pairs r)), s').
Proof. exact @legendre_calls. Qed.
Print Assumptions C24_legendre_calls.
Theorem C24_jacobi_calls : forall (A : Arith) S (f : S -> A -> A * S) r a b s,
  jacobi_integrate f r a b s =
  let '(vs, s') := call_all f (map (to_interval a b) (map fst (jacobi_pairs r))) s in
  (half_width a b [*] weighted_sum vs (map snd (jacobi_pairs r)), s').
Proof. exact @jacobi_calls. Qed.
Print Assumptions C24_jacobi_calls.
Theorem C24_chebyshev1_calls : forall (A : Arith) S (f : S -> A -> A * S) r a b s,
  chebyshev1_integrate f r a b s =
  let '(vs, s') := call_all f (map (to_interval a b) (map fst (chebyshev1_pairs r))) s in
  (weighted_sum vs (map snd (chebyshev1_pairs r)) [*] half_width a b, s').
Proof. exact @chebyshev1_calls. Qed.
Print Assumptions C24_chebyshev1_calls.
Theorem C24_chebyshev2_calls : forall (A : Arith) S (f : S -> A -> A * S) r a b s,
  chebyshev2_integrate f r a b s =
  let '(vs, s') := call_all f (map (to_interval a b) (map fst (chebyshev2_pairs r))) s in
  (weighted_sum vs (map snd (chebyshev2_pairs r)) [*] half_width a b, s').
Proof. exact @chebyshev2_calls. Qed.
Print Assumptions C24_chebyshev2_calls.
Theorem C24_hermite_calls : forall (A : Arith) S (f : S -> A -> A * S) r s,
  hermite_integrate f r s =
  let '(vs, s') := call_all f (map fst (hermite_pairs r)) s in
  (weighted_sum vs (map snd (hermite_pairs r)), s').
Proof. exact @hermite_calls. Qed.
Print Assumptions C24_hermite_calls.
Theorem C24_laguerre_calls : forall (A : Arith) S (f : S -> A -> A * S) r s,
  laguerre_integrate f r s =
  let '(vs, s') := call_all f (map fst (laguerre_pairs r)) s in
  (weighted_sum vs (map snd (laguerre_pairs r)), s').
Proof. exact @laguerre_calls. Qed.
Print Assumptions C24_laguerre_calls.

Local Open Scope R_scope.
Local Close Scope num_scope.
(** C21: linearity, antisymmetry, empty interval for the Gauss rules. *)
Theorem C21_gauss_linear : forall (c d : R) (f g : R -> R),
  (forall r a b, legendre_value r a b (fun x => c * f x + d * g x) =
     c * legendre_value r a b f + d * legendre_value r a b g) /\
  (forall r a b, jacobi_value r a b (fun x => c * f x + d * g x) =
     c * jacobi_value r a b f + d * jacobi_value r a b g) /\
  (forall r a b, chebyshev1_value r a b (fun x => c * f x + d * g x) =
     c * chebyshev1_value r a b f + d * chebyshev1_value r a b g) /\
  (forall r a b, chebyshev2_value r a b (fun x => c * f x + d * g x) =
     c * chebyshev2_value r a b f + d * chebyshev2_value r a b g) /\
  (forall r, hermite_value r (fun x => c * f x + d * g x) = c * hermite_value r f + d * hermite_value r g) /\
  (forall r, laguerre_value r (fun x => c * f x + d * g x) = c * laguerre_value r f + d * laguerre_value r g).
Proof. exact @gauss_linear. Qed.
Print Assumptions C21_gauss_linear.
Theorem C21_symmetric_gauss_antisymmetric : forall (a b : R) (g : R -> R),
  (forall r : GaussLegendre RA, symmetric_rule (legendre_pairs r) -> legendre_value r b a g = - legendre_value r a b g) /\
  (forall r : GaussJacobi RA, symmetric_rule (jacobi_pairs r) -> jacobi_value r b a g = - jacobi_value r a b g) /\
  (forall r : GaussChebyshevFirstKind RA, symmetric_rule (chebyshev1_pairs r) -> chebyshev1_value r b a g = - chebyshev1_value r a b g) /\
  (forall r : GaussChebyshevSecondKind RA, symmetric_rule (chebyshev2_pairs r) -> chebyshev2_value r b a g = - chebyshev2_value r a b g).
Proof. exact @gauss_antisym. Qed.
Print Assumptions C21_symmetric_gauss_antisymmetric.
Example C21_example : symmetric_rule [(-1, 3); (0, 4); (1, 3)].
Proof. exact symmetric_example. Qed.
Theorem C21_gauss_empty_interval : forall (a : R) (g : R -> R),
  (forall r, legendre_value r a a g = 0) /\ (forall r, jacobi_value r a a g = 0) /\
  (forall r, chebyshev1_value r a a g = 0) /\ (forall r, chebyshev2_value r a a g = 0).
Proof. exact @gauss_empty. Qed.
Print Assumptions C21_gauss_empty_interval.

(** C22: nodes in [-1,1] are mapped into the interval. *)
Theorem C22_gauss_points_inside : forall (g : R -> R) (a b : R),
  (forall r : GaussLegendre RA, nodes_in_unit (legendre_pairs r) ->
     Forall (between a b) (snd (legendre_integrate (A := RA) (traced g) r a b []))) /\
  (forall r : GaussJacobi RA, nodes_in_unit (jacobi_pairs r) ->
     Forall (between a b) (snd (jacobi_integrate (A := RA) (traced g) r a b []))) /\
  (forall r : GaussChebyshevFirstKind RA, nodes_in_unit (chebyshev1_pairs r) ->
     Forall (between a b) (snd (chebyshev1_integrate (A := RA) (traced g) r a b []))) /\
  (forall r : GaussChebyshevSecondKind RA, nodes_in_unit (chebyshev2_pairs r) ->
     Forall (between a b) (snd (chebyshev2_integrate (A := RA) (traced g) r a b []))).
Proof. exact @gauss_unit_inside. Qed.
Print Assumptions C22_gauss_points_inside.

(** C26: the same value for every schedule, in exact arithmetic. *)
Theorem C26_legendre_par_value : forall t g r a b,
  legendre_par_integrate (A := RA) t g r a b = fst (legendre_integrate (A := RA) (pure g) r a b tt).
Proof. exact @legendre_par_R. Qed.
Print Assumptions C26_legendre_par_value.
Theorem C26_jacobi_par_value : forall t g r a b,
  jacobi_par_integrate (A := RA) t g r a b = fst (jacobi_integrate (A := RA) (pure g) r a b tt).
Proof. exact @jacobi_par_R. Qed.
Print Assumptions C26_jacobi_par_value.
Theorem C26_chebyshev1_par_value : forall t g r a b,
  chebyshev1_par_integrate (A := RA) t g r a b = fst (chebyshev1_integrate (A := RA) (pure g) r a b tt).
Proof. exact @chebyshev1_par_R. Qed.
Print Assumptions C26_chebyshev1_par_value.
Theorem C26_chebyshev2_par_value : forall t g r a b,
  chebyshev2_par_integrate (A := RA) t g r a b = fst (chebyshev2_integrate (A := RA) (pure g) r a b tt).
Proof. exact @chebyshev2_par_R. Qed.
Print Assumptions C26_chebyshev2_par_value.
Theorem C26_hermite_par_value : forall t g r,
  hermite_par_integrate (A := RA) t g r = fst (hermite_integrate (A := RA) (pure g) r tt).
Proof. exact @hermite_par_R. Qed.
Print Assumptions C26_hermite_par_value.
Theorem C26_laguerre_par_value : forall t g r,
  laguerre_par_integrate (A := RA) t g r = fst (laguerre_integrate (A := RA) (pure g) r tt).
Proof. exact @laguerre_par_R. Qed.
Print Assumptions C26_laguerre_par_value.
Theorem C26_midpoint_par_value : forall t g n a b,
  midpoint_par_integrate (A := RA) g t (midpoint_new n) a b
  = fst (midpoint_integrate (A := RA) (pure g) (midpoint_new n) a b tt).
Proof. exact @midpoint_par_R. Qed.
Print Assumptions C26_midpoint_par_value.
Theorem C26_trapezoid_par_value : forall t g n a b, (1 <= n)%Z ->
  trapezoid_par_integrate (A := RA) g t (trapezoid_new n) a b
  = fst (trapezoid_integrate (A := RA) (pure g) (trapezoid_new n) a b tt).
Proof. exact @trapezoid_par_R. Qed.
Print Assumptions C26_trapezoid_par_value.
Theorem C26_simpson_par_value : forall t1 t2 g n a b, (1 <= n)%Z ->
  simpson_par_integrate (A := RA) g t1 t2 (simpson_new n) a b
  = fst (simpson_integrate (A := RA) (pure g) (simpson_new n) a b tt).
Proof. exact @simpson_par_R. Qed.
Print Assumptions C26_simpson_par_value.
(** C26: the same calls of the integrand, once each, for every schedule. *)
Theorem C26_legendre_par_calls : forall (t : Sched) (a b : expr) (r : GaussLegendre FA), calls a = [] -> calls b = [] ->
  call_free (legendre_pairs r) ->
  calls (legendre_par_integrate (A := FA) t Call r a b) =
  snd (legendre_integrate (A := FA) (traced Call) r a b []).
Proof. exact (fun t a b n Ha Hb => legendre_par_points t a b Ha Hb n). Qed.
Print Assumptions C26_legendre_par_calls.
Theorem C26_jacobi_par_calls : forall (t : Sched) (a b : expr) (r : GaussJacobi FA), calls a = [] -> calls b = [] ->
  call_free (jacobi_pairs r) ->
  calls (jacobi_par_integrate (A := FA) t Call r a b) =
  snd (jacobi_integrate (A := FA) (traced Call) r a b []).
Proof. exact (fun t a b n Ha Hb => jacobi_par_points t a b Ha Hb n). Qed.
Print Assumptions C26_jacobi_par_calls.
Theorem C26_chebyshev1_par_calls : forall (t : Sched) (a b : expr) (r : GaussChebyshevFirstKind FA), calls a = [] -> calls b = [] ->
  call_free (chebyshev1_pairs r) ->
  calls (chebyshev1_par_integrate (A := FA) t Call r a b) =
  snd (chebyshev1_integrate (A := FA) (traced Call) r a b []).
Proof. exact (fun t a b n Ha Hb => chebyshev1_par_points t a b Ha Hb n). Qed.
Print Assumptions C26_chebyshev1_par_calls.
Theorem C26_chebyshev2_par_calls : forall (t : Sched) (a b : expr) (r : GaussChebyshevSecondKind FA), calls a = [] -> calls b = [] ->
  call_free (chebyshev2_pairs r) ->
  calls (chebyshev2_par_integrate (A := FA) t Call r a b) =
  snd (chebyshev2_integrate (A := FA) (traced Call) r a b []).
Proof. exact (fun t a b n Ha Hb => chebyshev2_par_points t a b Ha Hb n). Qed.
Print Assumptions C26_chebyshev2_par_calls.
Theorem C26_hermite_par_calls : forall (t : Sched) (r : GaussHermite FA), call_free (hermite_pairs r) ->
  calls (hermite_par_integrate (A := FA) t Call r) = snd (hermite_integrate (A := FA) (traced Call) r []).
Proof. exact hermite_par_points. Qed.
Print Assumptions C26_hermite_par_calls.
Theorem C26_laguerre_par_calls : forall (t : Sched) (r : GaussLaguerre FA), call_free (laguerre_pairs r) ->
  calls (laguerre_par_integrate (A := FA) t Call r) = snd (laguerre_integrate (A := FA) (traced Call) r []).
Proof. exact laguerre_par_points. Qed.
Print Assumptions C26_laguerre_par_calls.
Theorem C26_midpoint_par_calls : forall (t : Sched) (a b : expr) n, calls a = [] -> calls b = [] ->
  (1 <= n)%Z ->
  calls (midpoint_par_integrate (A := FA) Call t (midpoint_new n) a b) =
  snd (midpoint_integrate (A := FA) (traced Call) (midpoint_new n) a b []).
Proof. exact (fun t a b n Ha Hb => midpoint_par_points t a b Ha Hb n). Qed.
Print Assumptions C26_midpoint_par_calls.
Theorem C26_trapezoid_par_calls : forall (t : Sched) (a b : expr) n, calls a = [] -> calls b = [] ->
  (1 <= n)%Z ->
  calls (trapezoid_par_integrate (A := FA) Call t (trapezoid_new n) a b) =
  snd (trapezoid_integrate (A := FA) (traced Call) (trapezoid_new n) a b []).
Proof. exact (fun t a b n Ha Hb => trapezoid_par_points t a b Ha Hb n). Qed.
Print Assumptions C26_trapezoid_par_calls.
Theorem C26_simpson_par_calls : forall (t : Sched) (a b : expr) t2 n, calls a = [] -> calls b = [] ->
  (1 <= n)%Z ->
  calls (simpson_par_integrate (A := FA) Call t t2 (simpson_new n) a b) =
  snd (simpson_integrate (A := FA) (traced Call) (simpson_new n) a b []).
Proof. exact (fun t a b t2 n Ha Hb => simpson_par_points t a b Ha Hb t2 n). Qed.
Print Assumptions C26_simpson_par_calls.
Example C26_example : call_free [(Const 0 0, Const 2 0)] /\ calls (Fun2 0 (Call (Const 1 0)) (Call (Const 2 0))) = [Const 1 0; Const 2 0].
Proof. split; [repeat constructor | reflexivity]. Qed.

(** C28: par_new builds the rule of new, bit for bit, for every schedule. *)
Theorem C28_legendre_par_new : forall (A : Arith) t sch n, legendre_par_new (A := A) t sch n = legendre_new t n.
Proof. exact @legendre_par_new_eq. Qed.
Print Assumptions C28_legendre_par_new.
Theorem C28_chebyshev1_par_new : forall (A : Arith) t sch n, chebyshev1_par_new (A := A) t sch n = chebyshev1_new t n.
Proof. exact @chebyshev1_par_new_eq. Qed.
Print Assumptions C28_chebyshev1_par_new.
Theorem C28_chebyshev2_par_new : forall (A : Arith) t sch n, chebyshev2_par_new (A := A) t sch n = chebyshev2_new t n.
Proof. exact @chebyshev2_par_new_eq. Qed.
Print Assumptions C28_chebyshev2_par_new.
