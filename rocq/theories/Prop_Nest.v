(** Property C46: double and higher integrals by nested calls of integrate (src/lib.rs:163-179).
    [nested qs f] (NestSpec.v) is the code that a user writes: the integrand of the first rule
    calls integrate of the second rule, and so on; every rule may depend on the variables outside
    of it. *)
From Coq Require Import Reals ZArith List Lia Lra.
From Coquelicot Require Import Coquelicot.
From Verif Require Import Arith RInst Machine Param Rules NewtonCotes Chebyshev Hermite Laguerre Legendre Jacobi GolubWelsch GWSpec EigenSpec
  WeightSpec ChebSpec TransferSpec IntegrateSpec NCSpec RSum PolySpec PolyProof RuleSpec NestSpec SizeProof NestProof.
Import ListNotations.

(** A stateful integrand is called at the points of the grid, in the order of the grid and
    nowhere else, in any arithmetic. *)
Theorem C46_calls : forall (A : Arith) (S : Type) (qs : list (list A -> quadrature A)) (f : S -> list A -> A * S) xs s,
  (forall q ys, In q qs -> usable (q ys)) -> snd (nested qs f xs s) = snd (call_all f (grid qs xs) s).
Proof. exact @nested_state. Qed.
Print Assumptions C46_calls.

(** The value is the iterated sum: each rule applied to the function of its variable that the
    rules inside of it define. *)
Theorem C46_value : forall (A : Arith) (qs : list (list A -> quadrature A)) (g : list A -> A) xs trace,
  (forall q ys, In q qs -> usable (q ys)) -> nested qs (traced g) xs trace = (iterated qs g xs, trace ++ grid qs xs).
Proof. exact @nested_traced. Qed.
Print Assumptions C46_value.

(** Number of evaluations: that of each single rule, and their product for the grid. *)
Theorem C46_single_count : forall (A : Arith) (q : quadrature A), usable q -> length (points q) = evaluations q.
Proof. exact @points_length. Qed.
Print Assumptions C46_single_count.
Theorem C46_count : forall (A : Arith) (qs : list (list A -> quadrature A)) (ms : list nat) xs,
  (forall q ys, In q qs -> usable (q ys)) -> length ms = length qs ->
  (forall i ys, (i < length qs)%nat -> exists q, nth_error qs i = Some q /\ evaluations (q ys) = nth i ms 0%nat) ->
  length (grid qs xs) = fold_right Nat.mul 1%nat ms.
Proof. exact @grid_length. Qed.
Print Assumptions C46_count.

Local Open Scope R_scope.
(** Exact arithmetic, bounds that do not depend on outer variables, any depth: the value of a
    sum of products of functions of one variable is the sum of the products of the values. *)
Theorem C46_products : forall (qs : list (quadrature RA)) (terms : list (list (R -> R))), List.Forall usable qs ->
  List.Forall (fun ps => length ps = length qs) terms ->
  iterated (fixed qs) (fun xs => lsum (map (fun ps => product_function ps xs) terms)) [] =
  lsum (map (fun ps => product (map (fun qp => value (fst qp) (snd qp)) (combine qs ps))) terms).
Proof. exact iterated_products. Qed.
Print Assumptions C46_products.

(** Two exact rules integrate polynomials in two variables exactly; the rules of this crate that
    are exact for polynomials of one variable. *)
Theorem C46_exact : forall (q1 q2 : quadrature RA) d1 d2 J1 J2 c, usable q1 -> usable q2 -> exact_rule q1 d1 J1 -> exact_rule q2 d2 J2 ->
  exists inner, (forall x, J2 (bivariate d1 d2 c x) (inner x)) /\ J1 inner (value q1 (fun x => value q2 (bivariate d1 d2 c x))).
Proof. exact nested_exact. Qed.
Print Assumptions C46_exact.
Theorem C46_exact_rules : forall a b : R,
  (forall n, (1 <= n)%Z -> exact_rule (QMidpoint (A := RA) n a b) 1 (fun f v => is_RInt f a b v) /\
    exact_rule (QTrapezoid (A := RA) n a b) 1 (fun f v => is_RInt f a b v) /\ exact_rule (QSimpson (A := RA) n a b) 3 (fun f v => is_RInt f a b v)) /\
  (forall t n r, (1 <= n < usize_max t)%Z -> chebyshev1_new t n = Ok r -> a <> b ->
    exact_rule (QChebyshev1 (A := RA) r a b) (2 * Z.to_nat n - 1) (weighted_integral (fun x => / sqrt (1 - x * x)) a b)) /\
  (forall t n r, (1 <= n < usize_max t)%Z -> chebyshev2_new t n = Ok r ->
    exact_rule (QChebyshev2 (A := RA) r a b) (2 * Z.to_nat n - 1) (fun f v => is_RInt (fun x => sqrt (1 - to_unit a b x * to_unit a b x) * f x) a b v)) /\
  (forall (ext : Linalg RA) n r, (1 <= n)%Z -> sorts ext -> exact_on ext (Z.to_nat n) (@hermite_diag RA) (@hermite_off_diag RA) ->
    hermite_new ext n = Ok r -> exact_rule (QHermite r) (2 * Z.to_nat n - 1) hermite_integral).
Proof. exact exact_rules. Qed.
Print Assumptions C46_exact_rules.

(** Regions with variable bounds: Simpson, and Gauss-Legendre with the tabulated degrees. *)
Theorem C46_simpson_region : forall (n m : nat) a b (c d : R -> R) (g : R -> R -> R), (1 <= n)%nat -> (1 <= m)%nat ->
  (forall x, polynomial 3 (g x)) -> polynomial 3 (fun x => RInt (g x) (c x) (d x)) ->
  is_RInt (fun x => RInt (g x) (c x) (d x)) a b (simpson_value n a b (fun x => simpson_value m (c x) (d x) (g x))).
Proof. exact simpson_region. Qed.
Print Assumptions C46_simpson_region.
Theorem C46_legendre_region : forall (t : Target) (n m : nat) (r r2 : GaussLegendre RA), (100 <= usize_max t)%Z ->
  (1 <= n <= 100)%nat -> (2 * Z.of_nat n <= usize_max t)%Z -> legendre_new t (Z.of_nat n) = Ok r ->
  (1 <= m <= 100)%nat -> (2 * Z.of_nat m <= usize_max t)%Z -> legendre_new t (Z.of_nat m) = Ok r2 ->
  forall a b (c d : R -> R) (g : R -> R -> R) M L,
  (forall x, Rmin a b <= x <= Rmax a b -> polynomial (2 * m - 1) (g x)) -> polynomial (2 * n - 1) (fun x => RInt (g x) (c x) (d x)) ->
  (forall x y, Rmin a b <= x <= Rmax a b -> Rmin (c x) (d x) <= y <= Rmax (c x) (d x) -> Rabs (g x y) <= M) ->
  (forall x, Rmin a b <= x <= Rmax a b -> Rabs (d x - c x) <= L) ->
  Rabs (legendre_value r a b (fun x => legendre_value r2 (c x) (d x) (g x)) - RInt (fun x => RInt (g x) (c x) (d x)) a b)
  <= 31 / 10 ^ 15 * M * L * Rabs (b - a).
Proof. exact legendre_region. Qed.
Print Assumptions C46_legendre_region.
(** The documented example: x^2 y over the triangle 0 <= y <= x <= 1. *)
Theorem C46_triangle : forall (t : Target) (n : nat) (r : GaussLegendre RA), (100 <= usize_max t)%Z -> (3 <= n <= 100)%nat ->
  (2 * Z.of_nat n <= usize_max t)%Z -> legendre_new t (Z.of_nat n) = Ok r ->
  Rabs (legendre_value r 0 1 (fun x => legendre_value r 0 x (fun y => x * x * y)) - 1 / 10) <= 31 / 10 ^ 15.
Proof. exact triangle. Qed.
Print Assumptions C46_triangle.

(** * The hypotheses can be met *)
Example rules_usable : forall q ys, In q [fun _ => QSimpson (A := RA) 2 0 1; fun xs : list RA => QTrapezoid (A := RA) 3 0 (nth 0 xs 0)] -> usable (q ys).
Proof. intros q ys [<-|[<-|[]]]; simpl; lia. Qed.
Example rules_count : length (grid (A := RA) [fun _ => QSimpson (A := RA) 2 0 1; fun xs : list RA => QTrapezoid (A := RA) 3 0 (nth 0 xs 0)] []) = 20%nat.
Proof.
  refine (eq_trans (C46_count RA _ [5; 4]%nat [] rules_usable eq_refl _) eq_refl).
  intros [|[|i]] ys Hi; [eexists; split; reflexivity|eexists; split; reflexivity|simpl in Hi; lia].
Qed.
Example bicubic : exists inner, (forall x, is_RInt (bivariate 3 3 (fun i j => INR (i + j)) x) 0 2 (inner x)) /\
  is_RInt inner 0 1 (value (QSimpson (A := RA) 1 0 1) (fun x => value (QSimpson (A := RA) 5 0 2) (bivariate 3 3 (fun i j => INR (i + j)) x))).
Proof.
  apply (C46_exact (QSimpson (A := RA) 1 0 1) (QSimpson (A := RA) 5 0 2) 3 3 (fun f v => is_RInt f 0 1 v) (fun f v => is_RInt f 0 2 v)); [cbn; lia|cbn; lia| |];
    apply C46_exact_rules; lia.
Qed.
Example triangle_simpson : (forall x, polynomial 3 (fun y => x * y)) /\ polynomial 3 (fun x => RInt (fun y => x * y) 0 x).
Proof.
  split; [intros x; apply (poly_weaken 1); [lia|]; apply poly_scal, poly_id|].
  apply (poly_ext 3 (fun x => / 2 * x ^ 3)); [|apply poly_scal, poly_pow]. intros x. symmetry. apply (is_RInt_unique (V := R_CompleteNormedModule)).
  replace (/ 2 * x ^ 3) with (minus (x * x ^ 2 / 2) (x * 0 ^ 2 / 2)) by (unfold minus, plus, opp; simpl; field).
  apply (is_RInt_derive (V := R_CompleteNormedModule) (fun y => x * y ^ 2 / 2)).
  - intros y _. auto_derive; [exact I|]. field.
  - intros y _. apply (ex_derive_continuous (V := R_NormedModule)). auto_derive. exact I.
Qed.
Example triangle_rule : exists (t : Target) (r : GaussLegendre RA), (100 <= usize_max t)%Z /\ (2 * Z.of_nat 3 <= usize_max t)%Z /\ legendre_new t (Z.of_nat 3) = Ok r.
Proof.
  exists {| build_mode := Debug; usize_max := 4294967295 |}.
  destruct (legendre_new_ok (A := RA) {| build_mode := Debug; usize_max := 4294967295 |} (Z.of_nat 3)) as (r & E & _); [vm_compute; discriminate|lia|vm_compute; discriminate|].
  exists r. split; [vm_compute; discriminate|]. split; [vm_compute; discriminate|exact E].
Qed.
