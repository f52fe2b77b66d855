(** Property C68: exceptional values of the integrand are never hidden, in double arithmetic,
    for every rule (a [quadrature], NestSpec.v: a rule with the bounds of the call), whatever its
    nodes and weights are.  [points q]: the points at which the integrand is evaluated
    (C46_calls); [call_all f (points q) s]: the values that a stateful integrand returns there;
    [run]: integrate; [par_run]: par_integrate, with any schedules (ExcSpec.v). *)
From Coq Require Import Reals ZArith List.
From Verif Require Import Arith F64 F64Spec Machine Rules Par NewtonCotes Chebyshev Hermite Laguerre Legendre Jacobi
  IntegrateSpec NestSpec ExcSpec Exc ExcExamples.
Import ListNotations.
Local Open Scope R_scope.

(** If one of the values is NaN, so is the result. *)
Theorem C68_nan : forall (be : Backend) (q : quadrature (F64 be)) (S : Type) (f : S -> F64 be -> F64 be * S) s,
  usable q -> Exists fnan (fst (call_all f (points q) s)) -> fnan (fst (run q f s)).
Proof. exact run_nan. Qed.
Print Assumptions C68_nan.
Theorem C68_nan_parallel : forall (be : Backend) (t1 t2 : Sched) (q : quadrature (F64 be)) (g : F64 be -> F64 be),
  usable q -> Exists fnan (map g (points q)) -> fnan (par_run t1 t2 q g).
Proof. exact par_nan. Qed.
Print Assumptions C68_nan_parallel.

(** If the result is finite, then all values, the bounds and the weights are finite. *)
Theorem C68_finite : forall (be : Backend) (q : quadrature (F64 be)) (S : Type) (f : S -> F64 be -> F64 be * S) s,
  usable q -> ffin (fst (run q f s)) ->
  Forall ffin (fst (call_all f (points q) s)) /\ Forall ffin (bounds q) /\ Forall ffin (weights q).
Proof. exact run_finite. Qed.
Print Assumptions C68_finite.
Theorem C68_finite_parallel : forall (be : Backend) (t1 t2 : Sched) (q : quadrature (F64 be)) (g : F64 be -> F64 be),
  usable q -> ffin (par_run t1 t2 q g) ->
  Forall ffin (map g (points q)) /\ Forall ffin (bounds q) /\ Forall ffin (weights q).
Proof. exact par_finite. Qed.
Print Assumptions C68_finite_parallel.

(** If all values are zeros, of either sign, integrate and par_integrate return the same double,
    sign included. *)
Theorem C68_zeros : forall (be : Backend) (t1 t2 : Sched) (q : quadrature (F64 be)) (g : F64 be -> F64 be),
  usable q -> Forall fzero (map g (points q)) -> Forall ffin (weights q) -> par_run t1 t2 q g = value q g.
Proof. exact par_zero. Qed.
Print Assumptions C68_zeros.

(** x / x on [0, 1]: NaN at one of the points of the trapezoidal rule with two intervals. *)
Example C68_nan_case : forall be : Backend, let q := QTrapezoid (A := F64 be) 2 lit0 lit1 in
  usable q /\ Exists fnan (map (fun x : F64 be => ndiv x x) (points q)) /\ ~ Forall fnan (map (fun x : F64 be => ndiv x x) (points q)).
Proof. exact ex_nan. Qed.
Example C68_finite_case : forall be : Backend, let q := QSimpson (A := F64 be) 2 lit0 lit1 in usable q /\ ffin (value q (fun x => x)).
Proof. exact ex_finite. Qed.
Example C68_zeros_case : forall be : Backend, let q := QMidpoint (A := F64 be) 3 lit0 lit1 in
  usable q /\ Forall fzero (map (fun _ => @nnegzero (F64 be)) (points q)) /\ Forall ffin (weights q).
Proof. exact ex_zeros. Qed.
