(** Properties C27 and C53: rounding errors of integrate and par_integrate in
    double arithmetic, for every rule contents, integrand, schedule and degree.
    The only hypothesis is that the result is finite.  Vocabulary: F64Spec
    ([fval], the real value of a double, and [ffin]), IntegrateSpec ([call_all]:
    the integrand values), GaussSpec and RoundSpec ([exact_sum], [abs_sum], [total],
    [abs_total] and the bounds). *)
From Coq Require Import Reals ZArith List.
From Verif Require Import Arith F64 F64Spec Machine Rules Par Chebyshev Hermite Laguerre Legendre Jacobi NewtonCotes
  IntegrateSpec GaussSpec RoundSpec RoundRules RoundNC RoundExamples.
Import ListNotations.
Local Open Scope R_scope.

Theorem C27_legendre_round : forall (be : Backend) S (f : S -> F64 be -> F64 be * S) (r : GaussLegendre (F64 be)) (a b : F64 be) s,
  let vs := fst (call_all f (map (to_interval a b) (map fst (legendre_pairs r))) s) in
  let ws := map snd (legendre_pairs r) in let result := fst (legendre_integrate f r a b s) in
  ffin result -> Rabs (fval result - fval (half_width a b) * exact_sum vs ws) <= scaled_bound (length (legendre_pairs r)) (fval (half_width a b)) (abs_sum vs ws).
Proof. exact @legendre_round. Qed.
Print Assumptions C27_legendre_round.

Theorem C27_legendre_par_round : forall (be : Backend) t (f : F64 be -> F64 be) (r : GaussLegendre (F64 be)) (a b : F64 be),
  let vs := map f (map (to_interval a b) (map fst (legendre_pairs r))) in
  let ws := map snd (legendre_pairs r) in let result := legendre_par_integrate t f r a b in
  ffin result -> Rabs (fval result - fval (half_width a b) * exact_sum vs ws) <= scaled_bound (length (legendre_pairs r)) (fval (half_width a b)) (abs_sum vs ws).
Proof. exact @legendre_par_round. Qed.
Print Assumptions C27_legendre_par_round.

Theorem C27_legendre_par_close : forall (be : Backend) t (f : F64 be -> F64 be) (r : GaussLegendre (F64 be)) (a b : F64 be),
  let vs := map f (map (to_interval a b) (map fst (legendre_pairs r))) in let ws := map snd (legendre_pairs r) in
  let p := legendre_par_integrate t f r a b in let q := fst (legendre_integrate (pure f) r a b tt) in
  ffin p -> ffin q -> Rabs (fval p - fval q) <= 2 * scaled_bound (length (legendre_pairs r)) (fval (half_width a b)) (abs_sum vs ws).
Proof. exact @legendre_par_close. Qed.
Print Assumptions C27_legendre_par_close.

Theorem C27_jacobi_round : forall (be : Backend) S (f : S -> F64 be -> F64 be * S) (r : GaussJacobi (F64 be)) (a b : F64 be) s,
  let vs := fst (call_all f (map (to_interval a b) (map fst (jacobi_pairs r))) s) in
  let ws := map snd (jacobi_pairs r) in let result := fst (jacobi_integrate f r a b s) in
  ffin result -> Rabs (fval result - fval (half_width a b) * exact_sum vs ws) <= scaled_bound (length (jacobi_pairs r)) (fval (half_width a b)) (abs_sum vs ws).
Proof. exact @jacobi_round. Qed.
Print Assumptions C27_jacobi_round.

Theorem C27_jacobi_par_round : forall (be : Backend) t (f : F64 be -> F64 be) (r : GaussJacobi (F64 be)) (a b : F64 be),
  let vs := map f (map (to_interval a b) (map fst (jacobi_pairs r))) in
  let ws := map snd (jacobi_pairs r) in let result := jacobi_par_integrate t f r a b in
  ffin result -> Rabs (fval result - fval (half_width a b) * exact_sum vs ws) <= scaled_bound (length (jacobi_pairs r)) (fval (half_width a b)) (abs_sum vs ws).
Proof. exact @jacobi_par_round. Qed.
Print Assumptions C27_jacobi_par_round.

Theorem C27_jacobi_par_close : forall (be : Backend) t (f : F64 be -> F64 be) (r : GaussJacobi (F64 be)) (a b : F64 be),
  let vs := map f (map (to_interval a b) (map fst (jacobi_pairs r))) in let ws := map snd (jacobi_pairs r) in
  let p := jacobi_par_integrate t f r a b in let q := fst (jacobi_integrate (pure f) r a b tt) in
  ffin p -> ffin q -> Rabs (fval p - fval q) <= 2 * scaled_bound (length (jacobi_pairs r)) (fval (half_width a b)) (abs_sum vs ws).
Proof. exact @jacobi_par_close. Qed.
Print Assumptions C27_jacobi_par_close.

Theorem C27_chebyshev1_round : forall (be : Backend) S (f : S -> F64 be -> F64 be * S) (r : GaussChebyshevFirstKind (F64 be)) (a b : F64 be) s,
  let vs := fst (call_all f (map (to_interval a b) (map fst (chebyshev1_pairs r))) s) in
  let ws := map snd (chebyshev1_pairs r) in let result := fst (chebyshev1_integrate f r a b s) in
  ffin result -> Rabs (fval result - fval (half_width a b) * exact_sum vs ws) <= scaled_bound (length (chebyshev1_pairs r)) (fval (half_width a b)) (abs_sum vs ws).
Proof. exact @chebyshev1_round. Qed.
Print Assumptions C27_chebyshev1_round.

Theorem C27_chebyshev1_par_round : forall (be : Backend) t (f : F64 be -> F64 be) (r : GaussChebyshevFirstKind (F64 be)) (a b : F64 be),
  let vs := map f (map (to_interval a b) (map fst (chebyshev1_pairs r))) in
  let ws := map snd (chebyshev1_pairs r) in let result := chebyshev1_par_integrate t f r a b in
  ffin result -> Rabs (fval result - fval (half_width a b) * exact_sum vs ws) <= scaled_bound (length (chebyshev1_pairs r)) (fval (half_width a b)) (abs_sum vs ws).
Proof. exact @chebyshev1_par_round. Qed.
Print Assumptions C27_chebyshev1_par_round.

Theorem C27_chebyshev1_par_close : forall (be : Backend) t (f : F64 be -> F64 be) (r : GaussChebyshevFirstKind (F64 be)) (a b : F64 be),
  let vs := map f (map (to_interval a b) (map fst (chebyshev1_pairs r))) in let ws := map snd (chebyshev1_pairs r) in
  let p := chebyshev1_par_integrate t f r a b in let q := fst (chebyshev1_integrate (pure f) r a b tt) in
  ffin p -> ffin q -> Rabs (fval p - fval q) <= 2 * scaled_bound (length (chebyshev1_pairs r)) (fval (half_width a b)) (abs_sum vs ws).
Proof. exact @chebyshev1_par_close. Qed.
Print Assumptions C27_chebyshev1_par_close.

Theorem C27_chebyshev2_round : forall (be : Backend) S (f : S -> F64 be -> F64 be * S) (r : GaussChebyshevSecondKind (F64 be)) (a b : F64 be) s,
  let vs := fst (call_all f (map (to_interval a b) (map fst (chebyshev2_pairs r))) s) in
  let ws := map snd (chebyshev2_pairs r) in let result := fst (chebyshev2_integrate f r a b s) in
  ffin result -> Rabs (fval result - fval (half_width a b) * exact_sum vs ws) <= scaled_bound (length (chebyshev2_pairs r)) (fval (half_width a b)) (abs_sum vs ws).
Proof. exact @chebyshev2_round. Qed.
Print Assumptions C27_chebyshev2_round.

Theorem C27_chebyshev2_par_round : forall (be : Backend) t (f : F64 be -> F64 be) (r : GaussChebyshevSecondKind (F64 be)) (a b : F64 be),
  let vs := map f (map (to_interval a b) (map fst (chebyshev2_pairs r))) in
  let ws := map snd (chebyshev2_pairs r) in let result := chebyshev2_par_integrate t f r a b in
  ffin result -> Rabs (fval result - fval (half_width a b) * exact_sum vs ws) <= scaled_bound (length (chebyshev2_pairs r)) (fval (half_width a b)) (abs_sum vs ws).
Proof. exact @chebyshev2_par_round. Qed.
Print Assumptions C27_chebyshev2_par_round.

Theorem C27_chebyshev2_par_close : forall (be : Backend) t (f : F64 be -> F64 be) (r : GaussChebyshevSecondKind (F64 be)) (a b : F64 be),
  let vs := map f (map (to_interval a b) (map fst (chebyshev2_pairs r))) in let ws := map snd (chebyshev2_pairs r) in
  let p := chebyshev2_par_integrate t f r a b in let q := fst (chebyshev2_integrate (pure f) r a b tt) in
  ffin p -> ffin q -> Rabs (fval p - fval q) <= 2 * scaled_bound (length (chebyshev2_pairs r)) (fval (half_width a b)) (abs_sum vs ws).
Proof. exact @chebyshev2_par_close. Qed.
Print Assumptions C27_chebyshev2_par_close.

Theorem C27_hermite_round : forall (be : Backend) S (f : S -> F64 be -> F64 be * S) (r : GaussHermite (F64 be)) s,
  let vs := fst (call_all f (map fst (hermite_pairs r)) s) in
  let ws := map snd (hermite_pairs r) in let result := fst (hermite_integrate f r s) in
  ffin result -> Rabs (fval result - exact_sum vs ws) <= sum_bound (length (hermite_pairs r)) (abs_sum vs ws).
Proof. exact @hermite_round. Qed.
Print Assumptions C27_hermite_round.

Theorem C27_hermite_par_round : forall (be : Backend) t (f : F64 be -> F64 be) (r : GaussHermite (F64 be)),
  let vs := map f (map fst (hermite_pairs r)) in
  let ws := map snd (hermite_pairs r) in let result := hermite_par_integrate t f r in
  ffin result -> Rabs (fval result - exact_sum vs ws) <= sum_bound (length (hermite_pairs r)) (abs_sum vs ws).
Proof. exact @hermite_par_round. Qed.
Print Assumptions C27_hermite_par_round.

Theorem C27_hermite_par_close : forall (be : Backend) t (f : F64 be -> F64 be) (r : GaussHermite (F64 be)),
  let vs := map f (map fst (hermite_pairs r)) in let ws := map snd (hermite_pairs r) in
  let p := hermite_par_integrate t f r in let q := fst (hermite_integrate (pure f) r tt) in
  ffin p -> ffin q -> Rabs (fval p - fval q) <= 2 * sum_bound (length (hermite_pairs r)) (abs_sum vs ws).
Proof. exact @hermite_par_close. Qed.
Print Assumptions C27_hermite_par_close.

Theorem C27_laguerre_round : forall (be : Backend) S (f : S -> F64 be -> F64 be * S) (r : GaussLaguerre (F64 be)) s,
  let vs := fst (call_all f (map fst (laguerre_pairs r)) s) in
  let ws := map snd (laguerre_pairs r) in let result := fst (laguerre_integrate f r s) in
  ffin result -> Rabs (fval result - exact_sum vs ws) <= sum_bound (length (laguerre_pairs r)) (abs_sum vs ws).
Proof. exact @laguerre_round. Qed.
Print Assumptions C27_laguerre_round.

Theorem C27_laguerre_par_round : forall (be : Backend) t (f : F64 be -> F64 be) (r : GaussLaguerre (F64 be)),
  let vs := map f (map fst (laguerre_pairs r)) in
  let ws := map snd (laguerre_pairs r) in let result := laguerre_par_integrate t f r in
  ffin result -> Rabs (fval result - exact_sum vs ws) <= sum_bound (length (laguerre_pairs r)) (abs_sum vs ws).
Proof. exact @laguerre_par_round. Qed.
Print Assumptions C27_laguerre_par_round.

Theorem C27_laguerre_par_close : forall (be : Backend) t (f : F64 be -> F64 be) (r : GaussLaguerre (F64 be)),
  let vs := map f (map fst (laguerre_pairs r)) in let ws := map snd (laguerre_pairs r) in
  let p := laguerre_par_integrate t f r in let q := fst (laguerre_integrate (pure f) r tt) in
  ffin p -> ffin q -> Rabs (fval p - fval q) <= 2 * sum_bound (length (laguerre_pairs r)) (abs_sum vs ws).
Proof. exact @laguerre_par_close. Qed.
Print Assumptions C27_laguerre_par_close.

Theorem C27_half_width : forall (be : Backend) (a b : F64 be), ffin (half_width a b) ->
  Rabs (fval (half_width a b) - (fval b - fval a) / 2) <= uro * (Rabs (fval b - fval a) / 2) + 2 * eta.
Proof. exact @half_width_err. Qed.
Print Assumptions C27_half_width.

(** The size of the relative error bound: about n times 2^-53. *)
Theorem C27_bound_size : forall n, INR n * uro <= / 100 -> (1 + uro) ^ n - 1 <= 102 / 100 * (INR n * uro).
Proof. exact bound_size. Qed.
Print Assumptions C27_bound_size.

Example C27_example : forall be : Backend, let r := {| hermite_pairs := [(nlit (-5) (-1), nlit 1 0); (nlit 3 (-1), nlit 2 0)] |} in
  ffin (fst (hermite_integrate (A := F64 be) (pure (fun x => nmul x x)) r tt)) /\
  ffin (hermite_par_integrate (A := F64 be) (Split 1 Seq Seq) (fun x => nmul x x) r).
Proof. exact ex_hermite. Qed.
Example C27_example_scaled : forall be : Backend, let r := {| legendre_pairs := [(nlit (-5) (-1), nlit 1 0); (nlit 3 (-1), nlit 2 0)] |} in
  ffin (fst (legendre_integrate (A := F64 be) (pure (fun x => nmul x x)) r lit1 lit2 tt)) /\
  ffin (legendre_par_integrate (A := F64 be) (Split 1 Seq Seq) (fun x => nmul x x) r lit1 lit2).
Proof. exact ex_legendre. Qed.
Example C27_example_size : INR 1000 * uro <= / 100.
Proof. exact ex_size. Qed.

(** C53: the same for the Newton-Cotes rules. *)
Theorem C53_midpoint_round : forall (be : Backend) S (f : S -> F64 be -> F64 be * S) n (a b : F64 be) s, (1 <= n)%Z ->
  let h := ndiv (nsub b a) (nofZ n) in
  let vs := fst (call_all f (map (fun i => nadd a (nmul h (nadd lit_half (nofZ i)))) (ints 0 (Z.to_nat n))) s) in
  let result := fst (midpoint_integrate f (midpoint_new n) a b s) in
  ffin result -> Rabs (fval result - fval h * total vs) <= rule_bound (Z.to_nat n) 0 (fval h) (abs_total vs).
Proof. exact @midpoint_round. Qed.
Print Assumptions C53_midpoint_round.

Theorem C53_midpoint_par_round : forall (be : Backend) t (f : F64 be -> F64 be) n (a b : F64 be), (1 <= n)%Z ->
  let h := ndiv (nsub b a) (nofZ n) in
  let vs := map f (map (fun i => nadd a (nmul h (nadd lit_half (nofZ i)))) (ints 0 (Z.to_nat n))) in
  let result := midpoint_par_integrate f t (midpoint_new n) a b in
  ffin result -> Rabs (fval result - fval h * total vs) <= rule_bound (Z.to_nat n) 0 (fval h) (abs_total vs).
Proof. exact @midpoint_par_round. Qed.
Print Assumptions C53_midpoint_par_round.

Theorem C53_trapezoid_round : forall (be : Backend) S (f : S -> F64 be -> F64 be * S) n (a b : F64 be) s, (1 <= n)%Z ->
  let h := ndiv (nsub b a) (nofZ n) in
  let ends := call_all f [a; b] s in
  let vs := fst (call_all f (map (fun i => nadd a (nmul (nofZ i) h)) (ints 1 (Z.to_nat (n - 1)))) (snd ends)) in
  let fa := nth 0 (fst ends) a in let fb := nth 1 (fst ends) a in
  let result := fst (trapezoid_integrate f (trapezoid_new n) a b s) in
  ffin result -> Rabs (fval result - fval h * ((fval fa + fval fb) / 2 + total vs)) <=
    rule_bound (Z.to_nat n + 2) ((1 + uro) ^ 2) (fval h) ((Rabs (fval fa) + Rabs (fval fb)) / 2 + abs_total vs).
Proof. exact @trapezoid_round. Qed.
Print Assumptions C53_trapezoid_round.

Theorem C53_trapezoid_par_round : forall (be : Backend) t (f : F64 be -> F64 be) n (a b : F64 be), (1 <= n)%Z ->
  let h := ndiv (nsub b a) (nofZ n) in
  let vs := map f (map (fun i => nadd a (nmul (nofZ i) h)) (ints 1 (Z.to_nat (n - 1)))) in
  let result := trapezoid_par_integrate f t (trapezoid_new n) a b in
  ffin result -> Rabs (fval result - fval h * ((fval (f a) + fval (f b)) / 2 + total vs)) <=
    rule_bound (Z.to_nat n + 2) ((1 + uro) ^ 2) (fval h) ((Rabs (fval (f a)) + Rabs (fval (f b))) / 2 + abs_total vs).
Proof. exact @trapezoid_par_round. Qed.
Print Assumptions C53_trapezoid_par_round.

Theorem C53_simpson_round : forall (be : Backend) S (f : S -> F64 be -> F64 be * S) n (a b : F64 be) s, (1 <= n)%Z ->
  let h := ndiv (nsub b a) (nofZ n) in let c := ndiv h (nlit 6 0) in
  let c1 := call_all f (map (fun i => nadd a (nmul (nofZ i) h)) (ints 1 (Z.to_nat (n - 1)))) s in
  let c2 := call_all f (map (fun i => nadd a (ndiv (nmul (nsub (nmul lit2 (nofZ i)) lit1) h) lit2)) (ints 1 (Z.to_nat (n - 1)))) (snd c1) in
  let c3 := fst (call_all f [nadd a (ndiv (nmul (nsub (nmul lit2 (nofZ n)) lit1) h) lit2); a; b] (snd c2)) in
  let fl := nth 0 c3 a in let fa := nth 1 c3 a in let fb := nth 2 c3 a in
  let result := fst (simpson_integrate f (simpson_new n) a b s) in
  ffin result -> Rabs (fval result - fval c * (2 * total (fst c1) + 4 * total (fst c2) + 4 * fval fl + fval fa + fval fb)) <=
    rule_bound (Z.to_nat n + 4) 0 (fval c) (2 * abs_total (fst c1) + 4 * abs_total (fst c2) + 4 * Rabs (fval fl) + Rabs (fval fa) + Rabs (fval fb)).
Proof. exact @simpson_round. Qed.
Print Assumptions C53_simpson_round.

Theorem C53_simpson_par_round : forall (be : Backend) t1 t2 (f : F64 be -> F64 be) n (a b : F64 be), (1 <= n)%Z ->
  let h := ndiv (nsub b a) (nofZ n) in let c := ndiv h (nlit 6 0) in
  let v1 := map f (map (fun i => nadd a (nmul (nofZ i) h)) (ints 1 (Z.to_nat (n - 1)))) in
  let v2 := map f (map (fun i => nadd a (ndiv (nmul (nsub (nmul lit2 (nofZ i)) lit1) h) lit2)) (ints 1 (Z.to_nat (n - 1)))) in
  let fl := f (nadd a (ndiv (nmul (nsub (nmul lit2 (nofZ n)) lit1) h) lit2)) in
  let result := simpson_par_integrate f t1 t2 (simpson_new n) a b in
  ffin result -> Rabs (fval result - fval c * (2 * total v1 + 4 * total v2 + 4 * fval fl + fval (f a) + fval (f b))) <=
    rule_bound (Z.to_nat n + 4) 0 (fval c) (2 * abs_total v1 + 4 * abs_total v2 + 4 * Rabs (fval fl) + Rabs (fval (f a)) + Rabs (fval (f b))).
Proof. exact @simpson_par_round. Qed.
Print Assumptions C53_simpson_par_round.

Example C53_example : forall be : Backend,
  ffin (fst (midpoint_integrate (A := F64 be) (pure (fun x => nmul x x)) (midpoint_new 3) lit1 lit2 tt)) /\
  ffin (fst (trapezoid_integrate (A := F64 be) (pure (fun x => nmul x x)) (trapezoid_new 3) lit1 lit2 tt)) /\
  ffin (fst (simpson_integrate (A := F64 be) (pure (fun x => nmul x x)) (simpson_new 3) lit1 lit2 tt)) /\
  ffin (midpoint_par_integrate (A := F64 be) (fun x => nmul x x) (Split 1 Seq Seq) (midpoint_new 3) lit1 lit2) /\
  ffin (trapezoid_par_integrate (A := F64 be) (fun x => nmul x x) (Split 1 Seq Seq) (trapezoid_new 3) lit1 lit2) /\
  ffin (simpson_par_integrate (A := F64 be) (fun x => nmul x x) (Split 1 Seq Seq) Seq (simpson_new 3) lit1 lit2).
Proof. exact ex_nc. Qed.
