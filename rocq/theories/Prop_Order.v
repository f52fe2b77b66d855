(** Properties C83 and C84: negating the integrand negates the result exactly, and a larger integrand never
    gives a smaller result, in double arithmetic, rounding, overflow, infinities and NaN included.
    For every rule and bounds (a [quadrature], NestSpec.v), whatever its nodes and weights are; [run]: integrate
    with a stateful integrand; [points q]: the points at which it is evaluated; [call_all f (points q) s]: the
    values it returns there; [value]: integrate with a pure integrand; [par_run]: par_integrate (ExcSpec.v), with
    any schedules; [iterated]: nested integrals.  [opposite], [not_above], [forward], [negate]: OrderSpec.v. *)
From Coq Require Import Reals ZArith List.
From Verif Require Import Arith F64 F64Spec Machine Rules Par NewtonCotes Chebyshev Hermite Laguerre Legendre Jacobi
  IntegrateSpec NestSpec ExcSpec OrderSpec OrderUse.
Import ListNotations.

(** C83 *)
Theorem C83_integrate : forall (be : Backend) (q : quadrature (F64 be)) (S S' : Type) (f : S -> F64 be -> F64 be * S) (f' : S' -> F64 be -> F64 be * S') s s',
  usable q -> Forall2 opposite (fst (call_all f (points q) s)) (fst (call_all f' (points q) s')) ->
  opposite (fst (run q f s)) (fst (run q f' s')).
Proof. exact run_opposite. Qed.
Print Assumptions C83_integrate.
Theorem C83_par_integrate : forall (be : Backend) t1 t2 (q : quadrature (F64 be)) (g g' : F64 be -> F64 be),
  usable q -> Forall2 opposite (map g (points q)) (map g' (points q)) -> opposite (par_run t1 t2 q g) (par_run t1 t2 q g').
Proof. exact par_opposite. Qed.
Print Assumptions C83_par_integrate.
(** The closure |x| -g(x) *)
Theorem C83_minus : forall (be : Backend) n t1 t2 (q : quadrature (F64 be)) g, usable q ->
  opposite (value q g) (value q (fun x => negate n (g x))) /\
  opposite (par_run t1 t2 q g) (par_run t1 t2 q (fun x => negate n (g x))).
Proof. exact negate_value. Qed.
Print Assumptions C83_minus.
Theorem C83_nested : forall (be : Backend) (qs : list (list (F64 be) -> quadrature (F64 be))) g g' xs,
  Forall (fun q => forall xs, usable (q xs)) qs -> (forall ys, opposite (g ys) (g' ys)) ->
  opposite (iterated qs g xs) (iterated qs g' xs).
Proof. exact nested_opposite. Qed.
Print Assumptions C83_nested.

(** C84 *)
Theorem C84_integrate : forall (be : Backend) (q : quadrature (F64 be)) (S S' : Type) (f : S -> F64 be -> F64 be * S) (f' : S' -> F64 be -> F64 be * S') s s',
  forward q -> Forall2 not_above (fst (call_all f (points q) s)) (fst (call_all f' (points q) s')) ->
  not_above (fst (run q f s)) (fst (run q f' s')).
Proof. exact run_monotone. Qed.
Print Assumptions C84_integrate.
Theorem C84_par_integrate : forall (be : Backend) t1 t2 (q : quadrature (F64 be)) (g g' : F64 be -> F64 be),
  forward q -> Forall2 not_above (map g (points q)) (map g' (points q)) -> not_above (par_run t1 t2 q g) (par_run t1 t2 q g').
Proof. exact par_monotone. Qed.
Print Assumptions C84_par_integrate.
(** An integrand between two constants has a result between those of the constants. *)
Theorem C84_between : forall (be : Backend) t1 t2 (q : quadrature (F64 be)) (g : F64 be -> F64 be) (lo hi : F64 be),
  forward q -> Forall (fun x => not_above lo (g x) /\ not_above (g x) hi) (points q) ->
  (not_above (value q (fun _ => lo)) (value q g) /\ not_above (value q g) (value q (fun _ => hi))) /\
  (not_above (par_run t1 t2 q (fun _ => lo)) (par_run t1 t2 q g) /\ not_above (par_run t1 t2 q g) (par_run t1 t2 q (fun _ => hi))).
Proof. exact between. Qed.
Print Assumptions C84_between.
Theorem C84_nested : forall (be : Backend) (qs : list (list (F64 be) -> quadrature (F64 be))) g g' xs,
  Forall (fun q => forall xs, forward (q xs)) qs -> (forall ys, not_above (g ys) (g' ys)) ->
  not_above (iterated qs g xs) (iterated qs g' xs).
Proof. exact nested_monotone. Qed.
Print Assumptions C84_nested.

(** Rules that meet the hypotheses *)
Example C84_simpson_case : forall (be : Backend) n, nonzero_u32 n -> forward (QSimpson (A := F64 be) n lit0 lit1).
Proof. exact simpson_forward. Qed.
Example C84_chebyshev_case : forall (be : Backend) t n (r : GaussChebyshevFirstKind (F64 be)), (1 <= n < 2 ^ 64)%Z ->
  chebyshev1_new t n = Ok r -> forward (QChebyshev1 r lit0 lit1).
Proof. exact chebyshev_forward. Qed.
Example C83_opposite_case : forall (be : Backend) n (x : F64 be), opposite x (negate n x).
Proof. exact negate_opposite. Qed.
