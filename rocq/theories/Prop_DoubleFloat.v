(** Property C96: double integrals in double arithmetic, over a rectangle and over the region between two graphs. The integrand of an outer integrate or par_integrate
    call of a Newton-Cotes rule is an inner call of a Newton-Cotes rule (src/lib.rs:163-179), any combination of the three rules.
    If the integrand of two variables is computed up to the error e and has the Lipschitz constants Lx and Ly, then the result
    is a finite double, and its distance from the integral over the rectangle is at most an explicit expression made up of
    the discretisation errors (falling like 1/n and 1/m) and of all effects of rounding in both calls.
    [nc_returns], [computes2], [computes_region]: DoubleFloatSpec.v. [region_integral]: DoubleSpec.v. [plain_interval], [float_excess]: NCFloatSpec.v (see C69).
    [moderate_bounds]: FinSpec.v. [inside]: InsideSpec.v. *)
From Coq Require Import Reals ZArith.
From Flocq Require Import Core.
From Verif Require Import Arith F64 F64Spec InsideSpec NCFloatSpec FinSpec DoubleSpec DoubleFloatSpec DoubleFloat DoubleFloatEx RegionFloat RegionEx.
Local Open Scope R_scope.

Theorem C96_rectangle : forall (be : Backend) V1 V2 n m (a b c d : F64 be) (g : F64 be -> F64 be -> F64 be) G e Lx Ly B (q : F64 be -> F64 be) (result : F64 be),
  plain_interval n a b -> plain_interval m c d -> moderate_bounds a b -> moderate_bounds c d -> fval a <= fval b -> fval c <= fval d ->
  computes2 g G a b c d e Lx Ly B ->
  let W := fval d - fval c in let E := (fval d - fval c) ^ 2 / (4 * IZR m) * Ly + float_excess m (fval c) (fval d) e Ly B in
  B + e <= bpow radix2 900 -> W * B + E <= bpow radix2 900 ->
  (forall x, inside a b x -> nc_returns be V2 m (g x) c d (q x)) -> nc_returns be V1 n q a b result ->
  ffin result /\
  Rabs (fval result - region_integral (fval a) (fval b) (fun _ => fval c) (fun _ => fval d) G) <=
    (fval b - fval a) ^ 2 / (4 * IZR n) * (W * Lx) + float_excess n (fval a) (fval b) E (W * Lx) (W * B).
Proof. exact double_float. Qed.
Print Assumptions C96_rectangle.

(** The bounds of the inner integral depend on the outer variable and are themselves computed, up to the error eb. *)
Theorem C96_region : forall (be : Backend) V1 V2 n m (a b : F64 be) (c d : F64 be -> F64 be) C D (g : F64 be -> F64 be -> F64 be) G lo hi e eb Lx Ly Lb B
  (q : F64 be -> F64 be) (result : F64 be),
  plain_interval n a b -> moderate_bounds a b -> fval a <= fval b ->
  computes_region m c d C D g G a b lo hi e eb Lx Ly Lb B ->
  let W := hi - lo in let E := W ^ 2 / (4 * IZR m) * Ly + float_excess m lo hi e (2 * Ly) B + 2 * B * eb in let L := W * Lx + 2 * B * Lb in
  B + e <= bpow radix2 900 -> W * B + E <= bpow radix2 900 ->
  (forall x, inside a b x -> nc_returns be V2 m (g x) (c x) (d x) (q x)) -> nc_returns be V1 n q a b result ->
  ffin result /\
  Rabs (fval result - region_integral (fval a) (fval b) C D G) <= (fval b - fval a) ^ 2 / (4 * IZR n) * L + float_excess n (fval a) (fval b) E L (W * B).
Proof. exact region_float. Qed.
Print Assumptions C96_region.

(** x * y on the square [1, 2] x [1, 2] with 1000 subintervals in both directions *)
Example C96_product : forall be : Backend, plain_interval 1000 (@lit1 (F64 be)) (@lit2 (F64 be)) /\ moderate_bounds (@lit1 (F64 be)) (@lit2 (F64 be)) /\
  computes2 (fun x y => @nmul (F64 be) x y) (fun x y => x * y) (@lit1 (F64 be)) (@lit2 (F64 be)) (@lit1 (F64 be)) (@lit2 (F64 be)) (bpow radix2 (-50)) 2 2 4 /\
  4 + bpow radix2 (-50) <= bpow radix2 900 /\
  (fval (@lit2 (F64 be)) - fval (@lit1 (F64 be))) * 4 + ((fval (@lit2 (F64 be)) - fval (@lit1 (F64 be))) ^ 2 / (4 * IZR 1000) * 2 +
    float_excess 1000 (fval (@lit1 (F64 be))) (fval (@lit2 (F64 be))) (bpow radix2 (-50)) 2 4) <= bpow radix2 900.
Proof. exact product_square. Qed.
(** x * y on the region 1 <= x <= 2, 0 <= y <= x *)
Example C96_product_region : forall be : Backend,
  computes_region 1000 (fun _ => @lit0 (F64 be)) (fun x => x) (fun _ => 0) (fun x => x) (fun x y => @nmul (F64 be) x y) (fun x y => x * y) (@lit1 (F64 be)) (@lit2 (F64 be))
    0 2 (bpow radix2 (-50)) 0 2 2 1 4 /\
  (2 - 0) * 4 + ((2 - 0) ^ 2 / (4 * IZR 1000) * 2 + float_excess 1000 0 2 (bpow radix2 (-50)) (2 * 2) 4 + 2 * 4 * 0) <= bpow radix2 900.
Proof. exact product_region. Qed.
