(** Property C72: integrate and par_integrate return finite doubles if the integrand's values are
    finite and of moderate size.  Vocabulary (FinSpec.v): [moderate vs ws] (at most 2^40 finite values
    and weights whose products sum up to at most 2^1000 in absolute value), [moderate_values vs],
    [room a b S] (finite bounds with |b - a| S <= 2^1000), [tame P g] (at doubles x with P x, the
    integrand is finite and at most 2^900), [moderate_bounds] (at most 2^60), [inside] (InsideSpec.v)
    and [near] (between the bounds, and between them or a little beyond). *)
From Coq Require Import Reals ZArith List.
From Flocq Require Import Core.
From Verif Require Import Arith F64 F64Spec Machine Rules Par Chebyshev Hermite Laguerre Legendre Jacobi NewtonCotes
  IntegrateSpec GaussSpec InsideSpec RoundSpec NCFloatSpec TrigSpec FinSpec FiniteRules FiniteNC FiniteCall FiniteEx.
Import ListNotations.
Local Open Scope R_scope.

(** * Any rule contents, any integrand: sizes of the values decide. *)
Theorem C72_legendre : forall (be : Backend) S (f : S -> F64 be -> F64 be * S) (r : GaussLegendre (F64 be)) (a b : F64 be) s,
  let vs := fst (call_all f (map (to_interval a b) (map fst (legendre_pairs r))) s) in let ws := map snd (legendre_pairs r) in
  moderate vs ws -> room a b (abs_sum vs ws) -> ffin (fst (legendre_integrate f r a b s)).
Proof. exact @legendre_fin. Qed.
Print Assumptions C72_legendre.
Theorem C72_legendre_par : forall (be : Backend) t (f : F64 be -> F64 be) (r : GaussLegendre (F64 be)) (a b : F64 be),
  let vs := map f (map (to_interval a b) (map fst (legendre_pairs r))) in let ws := map snd (legendre_pairs r) in
  moderate vs ws -> room a b (abs_sum vs ws) -> ffin (legendre_par_integrate t f r a b).
Proof. exact @legendre_par_fin. Qed.
Print Assumptions C72_legendre_par.
Theorem C72_jacobi : forall (be : Backend) S (f : S -> F64 be -> F64 be * S) (r : GaussJacobi (F64 be)) (a b : F64 be) s,
  let vs := fst (call_all f (map (to_interval a b) (map fst (jacobi_pairs r))) s) in let ws := map snd (jacobi_pairs r) in
  moderate vs ws -> room a b (abs_sum vs ws) -> ffin (fst (jacobi_integrate f r a b s)).
Proof. exact @jacobi_fin. Qed.
Print Assumptions C72_jacobi.
Theorem C72_jacobi_par : forall (be : Backend) t (f : F64 be -> F64 be) (r : GaussJacobi (F64 be)) (a b : F64 be),
  let vs := map f (map (to_interval a b) (map fst (jacobi_pairs r))) in let ws := map snd (jacobi_pairs r) in
  moderate vs ws -> room a b (abs_sum vs ws) -> ffin (jacobi_par_integrate t f r a b).
Proof. exact @jacobi_par_fin. Qed.
Print Assumptions C72_jacobi_par.
Theorem C72_chebyshev1 : forall (be : Backend) S (f : S -> F64 be -> F64 be * S) (r : GaussChebyshevFirstKind (F64 be)) (a b : F64 be) s,
  let vs := fst (call_all f (map (to_interval a b) (map fst (chebyshev1_pairs r))) s) in let ws := map snd (chebyshev1_pairs r) in
  moderate vs ws -> room a b (abs_sum vs ws) -> ffin (fst (chebyshev1_integrate f r a b s)).
Proof. exact @chebyshev1_fin. Qed.
Print Assumptions C72_chebyshev1.
Theorem C72_chebyshev1_par : forall (be : Backend) t (f : F64 be -> F64 be) (r : GaussChebyshevFirstKind (F64 be)) (a b : F64 be),
  let vs := map f (map (to_interval a b) (map fst (chebyshev1_pairs r))) in let ws := map snd (chebyshev1_pairs r) in
  moderate vs ws -> room a b (abs_sum vs ws) -> ffin (chebyshev1_par_integrate t f r a b).
Proof. exact @chebyshev1_par_fin. Qed.
Print Assumptions C72_chebyshev1_par.
Theorem C72_chebyshev2 : forall (be : Backend) S (f : S -> F64 be -> F64 be * S) (r : GaussChebyshevSecondKind (F64 be)) (a b : F64 be) s,
  let vs := fst (call_all f (map (to_interval a b) (map fst (chebyshev2_pairs r))) s) in let ws := map snd (chebyshev2_pairs r) in
  moderate vs ws -> room a b (abs_sum vs ws) -> ffin (fst (chebyshev2_integrate f r a b s)).
Proof. exact @chebyshev2_fin. Qed.
Print Assumptions C72_chebyshev2.
Theorem C72_chebyshev2_par : forall (be : Backend) t (f : F64 be -> F64 be) (r : GaussChebyshevSecondKind (F64 be)) (a b : F64 be),
  let vs := map f (map (to_interval a b) (map fst (chebyshev2_pairs r))) in let ws := map snd (chebyshev2_pairs r) in
  moderate vs ws -> room a b (abs_sum vs ws) -> ffin (chebyshev2_par_integrate t f r a b).
Proof. exact @chebyshev2_par_fin. Qed.
Print Assumptions C72_chebyshev2_par.
Theorem C72_hermite : forall (be : Backend) S (f : S -> F64 be -> F64 be * S) (r : GaussHermite (F64 be)) s,
  let vs := fst (call_all f (map fst (hermite_pairs r)) s) in
  moderate vs (map snd (hermite_pairs r)) -> ffin (fst (hermite_integrate f r s)).
Proof. exact @hermite_fin. Qed.
Print Assumptions C72_hermite.
Theorem C72_hermite_par : forall (be : Backend) t (f : F64 be -> F64 be) (r : GaussHermite (F64 be)),
  moderate (map f (map fst (hermite_pairs r))) (map snd (hermite_pairs r)) -> ffin (hermite_par_integrate t f r).
Proof. exact @hermite_par_fin. Qed.
Print Assumptions C72_hermite_par.
Theorem C72_laguerre : forall (be : Backend) S (f : S -> F64 be -> F64 be * S) (r : GaussLaguerre (F64 be)) s,
  let vs := fst (call_all f (map fst (laguerre_pairs r)) s) in
  moderate vs (map snd (laguerre_pairs r)) -> ffin (fst (laguerre_integrate f r s)).
Proof. exact @laguerre_fin. Qed.
Print Assumptions C72_laguerre.
Theorem C72_laguerre_par : forall (be : Backend) t (f : F64 be -> F64 be) (r : GaussLaguerre (F64 be)),
  moderate (map f (map fst (laguerre_pairs r))) (map snd (laguerre_pairs r)) -> ffin (laguerre_par_integrate t f r).
Proof. exact @laguerre_par_fin. Qed.
Print Assumptions C72_laguerre_par.
Theorem C72_midpoint : forall (be : Backend) S (f : S -> F64 be -> F64 be * S) n (a b : F64 be) s, (1 <= n <= 2 ^ 40)%Z -> let h := ndiv (nsub b a) (nofZ n) in
  let vs := fst (call_all f (map (fun i => nadd a (nmul h (nadd lit_half (nofZ i)))) (ints 0 (Z.to_nat n))) s) in
  moderate_values vs -> room a b (abs_total vs) -> ffin (fst (midpoint_integrate f (midpoint_new n) a b s)).
Proof. exact @midpoint_fin. Qed.
Print Assumptions C72_midpoint.
Theorem C72_midpoint_par : forall (be : Backend) t (f : F64 be -> F64 be) n (a b : F64 be), (1 <= n <= 2 ^ 40)%Z -> let h := ndiv (nsub b a) (nofZ n) in
  let vs := map f (map (fun i => nadd a (nmul h (nadd lit_half (nofZ i)))) (ints 0 (Z.to_nat n))) in
  moderate_values vs -> room a b (abs_total vs) -> ffin (midpoint_par_integrate f t (midpoint_new n) a b).
Proof. exact @midpoint_par_fin. Qed.
Print Assumptions C72_midpoint_par.
Theorem C72_trapezoid : forall (be : Backend) S (f : S -> F64 be -> F64 be * S) n (a b : F64 be) s, (1 <= n <= 2 ^ 40)%Z -> let h := ndiv (nsub b a) (nofZ n) in
  let ends := call_all f [a; b] s in
  let inner := fst (call_all f (map (fun i => nadd a (nmul (nofZ i) h)) (ints 1 (Z.to_nat (n - 1)))) (snd ends)) in
  let vs := fst ends ++ inner in
  moderate_values vs -> room a b (abs_total vs) -> ffin (fst (trapezoid_integrate f (trapezoid_new n) a b s)).
Proof. exact @trapezoid_fin. Qed.
Print Assumptions C72_trapezoid.
Theorem C72_trapezoid_par : forall (be : Backend) t (f : F64 be -> F64 be) n (a b : F64 be), (1 <= n <= 2 ^ 40)%Z -> let h := ndiv (nsub b a) (nofZ n) in
  let inner := map f (map (fun i => nadd a (nmul (nofZ i) h)) (ints 1 (Z.to_nat (n - 1)))) in
  let vs := [f a; f b] ++ inner in
  moderate_values vs -> room a b (abs_total vs) -> ffin (trapezoid_par_integrate f t (trapezoid_new n) a b).
Proof. exact @trapezoid_par_fin. Qed.
Print Assumptions C72_trapezoid_par.
Theorem C72_simpson : forall (be : Backend) S (f : S -> F64 be -> F64 be * S) n (a b : F64 be) s, (1 <= n <= 2 ^ 40)%Z -> let h := ndiv (nsub b a) (nofZ n) in
  let c1 := call_all f (map (fun i => nadd a (nmul (nofZ i) h)) (ints 1 (Z.to_nat (n - 1)))) s in
  let c2 := call_all f (map (fun i => nadd a (ndiv (nmul (nsub (nmul lit2 (nofZ i)) lit1) h) lit2)) (ints 1 (Z.to_nat (n - 1)))) (snd c1) in
  let c3 := fst (call_all f [nadd a (ndiv (nmul (nsub (nmul lit2 (nofZ n)) lit1) h) lit2); a; b] (snd c2)) in
  let vs := fst c1 ++ fst c2 ++ c3 in
  moderate_values vs -> room a b (abs_total vs) -> ffin (fst (simpson_integrate f (simpson_new n) a b s)).
Proof. exact @simpson_fin. Qed.
Print Assumptions C72_simpson.
Theorem C72_simpson_par : forall (be : Backend) t1 t2 (f : F64 be -> F64 be) n (a b : F64 be), (1 <= n <= 2 ^ 40)%Z -> let h := ndiv (nsub b a) (nofZ n) in
  let v1 := map f (map (fun i => nadd a (nmul (nofZ i) h)) (ints 1 (Z.to_nat (n - 1)))) in
  let v2 := map f (map (fun i => nadd a (ndiv (nmul (nsub (nmul lit2 (nofZ i)) lit1) h) lit2)) (ints 1 (Z.to_nat (n - 1)))) in
  let vs := v1 ++ v2 ++ [f (nadd a (ndiv (nmul (nsub (nmul lit2 (nofZ n)) lit1) h) lit2)); f a; f b] in
  moderate_values vs -> room a b (abs_total vs) -> ffin (simpson_par_integrate f t1 t2 (simpson_new n) a b).
Proof. exact @simpson_par_fin. Qed.
Print Assumptions C72_simpson_par.

(** * Rules as constructed: an integrand without huge values never gives an overflow. *)
Theorem C72_midpoint_call : forall (be : Backend) n (a b : F64 be) (g : F64 be -> F64 be), plain_interval n a b -> moderate_bounds a b -> tame (inside a b) g -> forall result : F64 be,
  (result = fst (midpoint_integrate (pure g) (midpoint_new n) a b tt) \/ exists t, result = midpoint_par_integrate g t (midpoint_new n) a b) -> ffin result.
Proof. exact midpoint_finite. Qed.
Print Assumptions C72_midpoint_call.
Theorem C72_trapezoid_call : forall (be : Backend) n (a b : F64 be) (g : F64 be -> F64 be), plain_interval n a b -> moderate_bounds a b -> tame (inside a b) g -> forall result : F64 be,
  (result = fst (trapezoid_integrate (pure g) (trapezoid_new n) a b tt) \/ exists t, result = trapezoid_par_integrate g t (trapezoid_new n) a b) -> ffin result.
Proof. exact trapezoid_finite. Qed.
Print Assumptions C72_trapezoid_call.
Theorem C72_simpson_call : forall (be : Backend) n (a b : F64 be) (g : F64 be -> F64 be), plain_interval n a b -> moderate_bounds a b -> tame (inside a b) g -> forall result : F64 be,
  (result = fst (simpson_integrate (pure g) (simpson_new n) a b tt) \/ exists t1 t2, result = simpson_par_integrate g t1 t2 (simpson_new n) a b) -> ffin result.
Proof. exact simpson_finite. Qed.
Print Assumptions C72_simpson_call.
Theorem C72_legendre_call : forall (be : Backend) (a b : F64 be) (g : F64 be -> F64 be), moderate_bounds a b -> tame (near a b (1 / 10 ^ 5)) g ->
  forall kappa, accurate_trig be kappa -> forall t (n : nat) (r : GaussLegendre (F64 be)) (result : F64 be),
  (100 <= usize_max t)%Z -> (1 <= n)%nat -> (Z.of_nat n <= 2 ^ 40)%Z -> (2 * Z.of_nat n <= usize_max t)%Z -> legendre_new t (Z.of_nat n) = Ok r ->
  (result = fst (legendre_integrate (pure g) r a b tt) \/ exists s, result = legendre_par_integrate s g r a b) -> ffin result.
Proof. exact legendre_finite. Qed.
Print Assumptions C72_legendre_call.
Theorem C72_chebyshev1_call : forall (be : Backend) (a b : F64 be) (g : F64 be -> F64 be), moderate_bounds a b -> tame (near a b (1 / 10 ^ 5)) g ->
  forall kappa, accurate_trig be kappa -> forall t n (r : GaussChebyshevFirstKind (F64 be)) (result : F64 be), (1 <= n <= 2 ^ 40)%Z -> (n < usize_max t)%Z -> chebyshev1_new t n = Ok r ->
  (result = fst (chebyshev1_integrate (pure g) r a b tt) \/ exists s, result = chebyshev1_par_integrate s g r a b) -> ffin result.
Proof. exact chebyshev1_finite. Qed.
Print Assumptions C72_chebyshev1_call.
Theorem C72_chebyshev2_call : forall (be : Backend) (a b : F64 be) (g : F64 be -> F64 be), moderate_bounds a b -> tame (near a b (1 / 10 ^ 5)) g ->
  forall kappa, accurate_trig be kappa -> forall t n (r : GaussChebyshevSecondKind (F64 be)) (result : F64 be), (1 <= n <= 2 ^ 40)%Z -> (n < usize_max t)%Z -> chebyshev2_new t n = Ok r ->
  (result = fst (chebyshev2_integrate (pure g) r a b tt) \/ exists s, result = chebyshev2_par_integrate s g r a b) -> ffin result.
Proof. exact chebyshev2_finite. Qed.
Print Assumptions C72_chebyshev2_call.

(** x * x on [1, 2]; and an overflow if the values are too large. *)
Example C72_square : forall be : Backend, moderate_bounds (@lit1 (F64 be)) (@lit2 (F64 be)) /\
  tame (inside (@lit1 (F64 be)) (@lit2 (F64 be))) (fun x => @nmul (F64 be) x x) /\
  tame (near (@lit1 (F64 be)) (@lit2 (F64 be)) (1 / 10 ^ 5)) (fun x => @nmul (F64 be) x x).
Proof. exact square_tame. Qed.
Example C72_sizes_matter : forall be : Backend, ffin huge /\
  ~ ffin (fst (midpoint_integrate (A := F64 be) (pure (fun _ => huge)) (midpoint_new 2) (@lit1 (F64 be)) (@lit2 (F64 be)) tt)).
Proof. exact overflow_possible. Qed.
Example C72_moderate : forall be : Backend, let l := [@lit1 (F64 be); @lit2 (F64 be)] in
  moderate l l /\ moderate_values l /\ room (@lit1 (F64 be)) (@lit2 (F64 be)) (abs_sum l l).
Proof. exact small_moderate. Qed.
