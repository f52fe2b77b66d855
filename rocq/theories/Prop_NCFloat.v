(** Property C69: the midpoint, trapezoidal and Simpson rules in double arithmetic, from the call
    to the integral.  Vocabulary (NCFloatSpec.v): [plain_interval n a b] (finite bounds, the
    subintervals are not subnormal, n < 2^32), [computes g G a b e L B] (the doubles returned by
    the integrand are within e of G, which has the Lipschitz constant L and the bound B on the
    interval), [float_excess] (the sum of all effects of rounding). *)
From Coq Require Import Reals ZArith List.
From Coquelicot Require Import Coquelicot.
From Flocq Require Import Core.
From Verif Require Import Arith F64 F64Spec Machine Rules Par NewtonCotes IntegrateSpec NCSpec NCFloatSpec NCFloat NCFloatEnd.
Local Open Scope R_scope.

(** Distance to the value of the rule in exact arithmetic, sequential or parallel. *)
Theorem C69_midpoint : forall (be : Backend) n (a b : F64 be) (g : F64 be -> F64 be) G e L B, plain_interval n a b -> computes g G a b e L B -> forall result : F64 be,
  (result = fst (midpoint_integrate (pure g) (midpoint_new n) a b tt) \/ exists t, result = midpoint_par_integrate g t (midpoint_new n) a b) -> ffin result ->
  Rabs (fval result - midpoint_value (Z.to_nat n) (fval a) (fval b) G) <= float_excess n (fval a) (fval b) e L B.
Proof. exact midpoint_close. Qed.
Print Assumptions C69_midpoint.
Theorem C69_trapezoid : forall (be : Backend) n (a b : F64 be) (g : F64 be -> F64 be) G e L B, plain_interval n a b -> computes g G a b e L B -> forall result : F64 be,
  (result = fst (trapezoid_integrate (pure g) (trapezoid_new n) a b tt) \/ exists t, result = trapezoid_par_integrate g t (trapezoid_new n) a b) -> ffin result ->
  Rabs (fval result - trapezoid_value (Z.to_nat n) (fval a) (fval b) G) <= float_excess n (fval a) (fval b) e L B.
Proof. exact trapezoid_close. Qed.
Print Assumptions C69_trapezoid.
Theorem C69_simpson : forall (be : Backend) n (a b : F64 be) (g : F64 be -> F64 be) G e L B, plain_interval n a b -> computes g G a b e L B -> forall result : F64 be,
  (result = fst (simpson_integrate (pure g) (simpson_new n) a b tt) \/ exists t1 t2, result = simpson_par_integrate g t1 t2 (simpson_new n) a b) -> ffin result ->
  Rabs (fval result - simpson_value (Z.to_nat n) (fval a) (fval b) G) <= float_excess n (fval a) (fval b) e L B.
Proof. exact simpson_close. Qed.
Print Assumptions C69_simpson.

(** Distance to the integral of a smooth function. *)
Theorem C69_midpoint_integral : forall (be : Backend) n (a b : F64 be) (g : F64 be -> F64 be) G e L B, plain_interval n a b -> computes g G a b e L B ->
  forall (G1 G2 : R -> R) M (result : F64 be),
  (forall x, Rmin (fval a) (fval b) <= x <= Rmax (fval a) (fval b) -> continuous G x) ->
  (forall x, Rmin (fval a) (fval b) < x < Rmax (fval a) (fval b) -> is_derive G x (G1 x)) ->
  (forall x, Rmin (fval a) (fval b) < x < Rmax (fval a) (fval b) -> is_derive G1 x (G2 x)) ->
  (forall x, Rmin (fval a) (fval b) < x < Rmax (fval a) (fval b) -> Rabs (G2 x) <= M) ->
  (result = fst (midpoint_integrate (pure g) (midpoint_new n) a b tt) \/ exists t, result = midpoint_par_integrate g t (midpoint_new n) a b) -> ffin result ->
  Rabs (fval result - RInt G (fval a) (fval b)) <= M * Rabs (fval b - fval a) ^ 3 / (24 * IZR n ^ 2) + float_excess n (fval a) (fval b) e L B.
Proof. exact @midpoint_end. Qed.
Print Assumptions C69_midpoint_integral.
Theorem C69_trapezoid_integral : forall (be : Backend) n (a b : F64 be) (g : F64 be -> F64 be) G e L B, plain_interval n a b -> computes g G a b e L B ->
  forall (G1 G2 : R -> R) M (result : F64 be),
  (forall x, Rmin (fval a) (fval b) <= x <= Rmax (fval a) (fval b) -> continuous G x) ->
  (forall x, Rmin (fval a) (fval b) < x < Rmax (fval a) (fval b) -> is_derive G x (G1 x)) ->
  (forall x, Rmin (fval a) (fval b) < x < Rmax (fval a) (fval b) -> is_derive G1 x (G2 x)) ->
  (forall x, Rmin (fval a) (fval b) < x < Rmax (fval a) (fval b) -> Rabs (G2 x) <= M) ->
  (result = fst (trapezoid_integrate (pure g) (trapezoid_new n) a b tt) \/ exists t, result = trapezoid_par_integrate g t (trapezoid_new n) a b) -> ffin result ->
  Rabs (fval result - RInt G (fval a) (fval b)) <= M * Rabs (fval b - fval a) ^ 3 / (12 * IZR n ^ 2) + float_excess n (fval a) (fval b) e L B.
Proof. exact @trapezoid_end. Qed.
Print Assumptions C69_trapezoid_integral.
Theorem C69_simpson_integral : forall (be : Backend) n (a b : F64 be) (g : F64 be -> F64 be) G e L B, plain_interval n a b -> computes g G a b e L B ->
  forall (G1 G2 G3 G4 : R -> R) M (result : F64 be),
  (forall x, Rmin (fval a) (fval b) <= x <= Rmax (fval a) (fval b) -> continuous G x) ->
  (forall x, Rmin (fval a) (fval b) < x < Rmax (fval a) (fval b) -> is_derive G x (G1 x)) ->
  (forall x, Rmin (fval a) (fval b) < x < Rmax (fval a) (fval b) -> is_derive G1 x (G2 x)) ->
  (forall x, Rmin (fval a) (fval b) < x < Rmax (fval a) (fval b) -> is_derive G2 x (G3 x)) ->
  (forall x, Rmin (fval a) (fval b) < x < Rmax (fval a) (fval b) -> is_derive G3 x (G4 x)) ->
  (forall x, Rmin (fval a) (fval b) < x < Rmax (fval a) (fval b) -> Rabs (G4 x) <= M) ->
  (result = fst (simpson_integrate (pure g) (simpson_new n) a b tt) \/ exists t1 t2, result = simpson_par_integrate g t1 t2 (simpson_new n) a b) -> ffin result ->
  Rabs (fval result - RInt G (fval a) (fval b)) <= M * Rabs (fval b - fval a) ^ 5 / (2880 * IZR n ^ 4) + float_excess n (fval a) (fval b) e L B.
Proof. exact @simpson_end. Qed.
Print Assumptions C69_simpson_integral.

(** x * x on [1, 2], 1000 subintervals. *)
Example C69_square : forall be : Backend, plain_interval 1000 (@lit1 (F64 be)) (@lit2 (F64 be)) /\
  computes (fun x => @nmul (F64 be) x x) (fun x => x ^ 2) (@lit1 (F64 be)) (@lit2 (F64 be)) (bpow radix2 (-50)) 4 4 /\
  ffin (fst (simpson_integrate (A := F64 be) (pure (fun x => nmul x x)) (simpson_new 3) lit1 lit2 tt)).
Proof. exact ex_plain. Qed.
