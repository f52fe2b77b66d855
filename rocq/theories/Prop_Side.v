(** Property C79: the error of a Gauss rule with n points has the sign of the 2n-th derivative and lies
    between the classical terms for the smallest and the largest value of that derivative; a rule never
    exceeds the integral of a function whose 2n-th derivative is nonnegative. Exact arithmetic.
    Vocabulary: ErrorSpec.v ([has_derivatives], [open_between], [oscillation]), TransferSpec.v
    ([weighted_integral]), WeightSpec.v, SideSpec.v ([leg_const]). *)
From Coq Require Import Reals List ZArith Lra Lia.
From Coquelicot Require Import Coquelicot.
From Verif Require Import Arith RInst Machine Param Rules PolySpec PolyProof GolubWelsch GWSpec EigenSpec WeightSpec MassSpec ChebSpec TransferSpec ErrorSpec
  Gamma Hermite Laguerre Jacobi Chebyshev Legendre RuleSpec GaussExact Gaussian SideSpec GaussSide LegSide Prop_Legendre.
Local Open Scope R_scope.

(** Hermite *)
Theorem C79_hermite : forall (ext : Linalg RA) n (r : GaussHermite RA), (1 <= n)%Z -> sorts ext ->
  exact_on ext (Z.to_nat n) (@hermite_diag RA) (@hermite_off_diag RA) -> hermite_new ext n = Ok r ->
  let m := Z.to_nat n in
  forall (F : nat -> R -> R) v, has_derivatives (fun _ => True) (2 * m) F -> hermite_integral (F O) v ->
  (forall L, (forall x, L <= F (2 * m)%nat x) -> hermite_value r (F O) <= v - L / INR (fact (2 * m)) * (sqrt PI * INR (fact m) / 2 ^ m)) /\
  (forall U, (forall x, F (2 * m)%nat x <= U) -> v - U / INR (fact (2 * m)) * (sqrt PI * INR (fact m) / 2 ^ m) <= hermite_value r (F O)).
Proof. exact hermite_side. Qed.
Print Assumptions C79_hermite.

(** Laguerre; [gamma]/G is the relative error of the library's gamma function (C50) *)
Theorem C79_laguerre : forall (ext : Linalg RA) n (al : Param RA) (r : GaussLaguerre RA) (G : R), (1 <= n)%Z -> -1 < param_get al -> sorts ext ->
  exact_on ext (Z.to_nat n) (@laguerre_diag RA (param_get al)) (@laguerre_off_diag RA (param_get al)) ->
  laguerre_new ext n al = Ok r -> is_Gamma (param_get al + 1) G ->
  let m := Z.to_nat n in
  forall (F : nat -> R -> R) v, has_derivatives (fun x => 0 < x) (2 * m) F -> laguerre_integral (param_get al) (F O) v ->
  (forall L, (forall x, 0 < x -> L <= F (2 * m)%nat x) -> laguerre_value r (F O) <= @gamma RA (param_get al + 1) / G * v - L / INR (fact (2 * m)) * (INR (fact m) * rising (param_get al) m * @gamma RA (param_get al + 1))) /\
  (forall U, (forall x, 0 < x -> F (2 * m)%nat x <= U) -> @gamma RA (param_get al + 1) / G * v - U / INR (fact (2 * m)) * (INR (fact m) * rising (param_get al) m * @gamma RA (param_get al + 1)) <= laguerre_value r (F O)).
Proof. exact laguerre_side. Qed.
Print Assumptions C79_laguerre.

(** Jacobi; the odd degrees with alpha <> beta are excluded because of their misplaced middle node (C36) *)
Theorem C79_jacobi : forall t (ext : Linalg RA) n (pa pb : Param RA) (r : GaussJacobi RA), (2 <= n)%Z ->
  -1 < param_get pa -> -1 < param_get pb -> param_get pa + param_get pb <> -1 ->
  ~ delegated (param_get pa) (param_get pb) -> sorts ext ->
  exact_on ext (Z.to_nat n) (@jacobi_diag RA (param_get pa) (param_get pb)) (@jacobi_off_diag RA (param_get pa) (param_get pb)) ->
  jacobi_new t ext n pa pb = Ok r -> (n mod 2 = 0)%Z \/ param_get pa = param_get pb ->
  forall T, jacobi_integral (param_get pa) (param_get pb) (fun _ => 1) T ->
  let m := Z.to_nat n in
  forall a b (F : nat -> R -> R) v, a < b -> has_derivatives (open_between a b) (2 * m) F ->
  weighted_integral (fun x => Rpower (1 - x) (param_get pa) * Rpower (1 + x) (param_get pb)) a b (F O) v ->
  (forall L, (forall x, open_between a b x -> L <= F (2 * m)%nat x) ->
    jacobi_value r a b (F O) <= jacobi_mass (param_get pa) (param_get pb) / T * v - L * ((b - a) / 2) ^ (2 * m + 1) / INR (fact (2 * m)) *
      (jacobi_norm (param_get pa) (param_get pb) m * jacobi_mass (param_get pa) (param_get pb))) /\
  (forall U, (forall x, open_between a b x -> F (2 * m)%nat x <= U) ->
    jacobi_mass (param_get pa) (param_get pb) / T * v - U * ((b - a) / 2) ^ (2 * m + 1) / INR (fact (2 * m)) *
      (jacobi_norm (param_get pa) (param_get pb) m * jacobi_mass (param_get pa) (param_get pb)) <= jacobi_value r a b (F O)).
Proof. exact jacobi_side. Qed.
Print Assumptions C79_jacobi.

(** Chebyshev *)
Theorem C79_chebyshev1 : forall t n (r : GaussChebyshevFirstKind RA), (1 <= n < usize_max t)%Z -> chebyshev1_new t n = Ok r ->
  let m := Z.to_nat n in
  forall a b (F : nat -> R -> R) v, a < b -> has_derivatives (open_between a b) (2 * m) F -> weighted_integral (fun x => / sqrt (1 - x * x)) a b (F O) v ->
  (forall L, (forall x, open_between a b x -> L <= F (2 * m)%nat x) -> chebyshev1_value r a b (F O) <= v - L * ((b - a) / 2) ^ (2 * m + 1) / INR (fact (2 * m)) * (PI / 2 ^ (2 * m - 1))) /\
  (forall U, (forall x, open_between a b x -> F (2 * m)%nat x <= U) -> v - U * ((b - a) / 2) ^ (2 * m + 1) / INR (fact (2 * m)) * (PI / 2 ^ (2 * m - 1)) <= chebyshev1_value r a b (F O)).
Proof. exact chebyshev1_side. Qed.
Print Assumptions C79_chebyshev1.

Theorem C79_chebyshev2 : forall t n (r : GaussChebyshevSecondKind RA), (1 <= n < usize_max t)%Z -> chebyshev2_new t n = Ok r ->
  let m := Z.to_nat n in
  forall a b (F : nat -> R -> R) v, a < b -> has_derivatives (open_between a b) (2 * m) F -> weighted_integral (fun x => sqrt (1 - x * x)) a b (F O) v ->
  (forall L, (forall x, open_between a b x -> L <= F (2 * m)%nat x) -> chebyshev2_value r a b (F O) <= v - L * ((b - a) / 2) ^ (2 * m + 1) / INR (fact (2 * m)) * (PI / 2 ^ (2 * m + 1))) /\
  (forall U, (forall x, open_between a b x -> F (2 * m)%nat x <= U) -> v - U * ((b - a) / 2) ^ (2 * m + 1) / INR (fact (2 * m)) * (PI / 2 ^ (2 * m + 1)) <= chebyshev2_value r a b (F O)).
Proof. exact chebyshev2_side. Qed.
Print Assumptions C79_chebyshev2.

(** Legendre with tabulated nodes; the last terms account for the rounding of the table *)
Theorem C79_legendre : forall (t : Target) (n : nat) (r : GaussLegendre RA),
  (100 <= usize_max t)%Z -> (2 * Z.of_nat n <= usize_max t)%Z -> legendre_new t (Z.of_nat n) = Ok r -> (1 <= n <= 100)%nat -> forall a b (F : nat -> R -> R) M omega, a < b -> has_derivatives (closed_between a b) (2 * n) F ->
  (forall x, closed_between a b x -> Rabs (F O x) <= M) -> oscillation a b (F O) (21 / 10 ^ 17 * (Rabs (b - a) / 2)) omega ->
  (forall L, (forall x, closed_between a b x -> L <= F (2 * n)%nat x) ->
    legendre_value r a b (F O) <= RInt (F O) a b - L * ((b - a) / 2) ^ (2 * n + 1) / INR (fact (2 * n)) * leg_const n + (omega + 21 / 10 ^ 17 * M) * Rabs (b - a)) /\
  (forall U, (forall x, closed_between a b x -> F (2 * n)%nat x <= U) ->
    RInt (F O) a b - U * ((b - a) / 2) ^ (2 * n + 1) / INR (fact (2 * n)) * leg_const n - (omega + 21 / 10 ^ 17 * M) * Rabs (b - a) <= legendre_value r a b (F O)).
Proof. exact legendre_side. Qed.
Print Assumptions C79_legendre.

(** Legendre above 100 points *)
Theorem C79_legendre_big : forall (t : Target) (n : nat) (r : GaussLegendre RA),
  (100 <= usize_max t)%Z -> (2 * Z.of_nat n <= usize_max t)%Z -> legendre_new t (Z.of_nat n) = Ok r -> (100 < n)%nat -> forall a b (F : nat -> R -> R) M omega, a < b -> has_derivatives (closed_between a b) (2 * n) F ->
  (forall x, closed_between a b x -> Rabs (F O x) <= M) -> oscillation a b (F O) (Rabs (b - a) / INR n / 10 ^ 13) omega ->
  (forall L, (forall x, closed_between a b x -> L <= F (2 * n)%nat x) ->
    legendre_value r a b (F O) <= RInt (F O) a b - L * ((b - a) / 2) ^ (2 * n + 1) / INR (fact (2 * n)) * leg_const n + (omega + 24 / 10 ^ 14 * M) * Rabs (b - a)) /\
  (forall U, (forall x, closed_between a b x -> F (2 * n)%nat x <= U) ->
    RInt (F O) a b - U * ((b - a) / 2) ^ (2 * n + 1) / INR (fact (2 * n)) * leg_const n - (omega + 24 / 10 ^ 14 * M) * Rabs (b - a) <= legendre_value r a b (F O)).
Proof. exact legendre_big_side. Qed.
Print Assumptions C79_legendre_big.

(** Integrands that meet the hypotheses: the exponential function, all of whose derivatives are
    positive, on any interval; a square on the whole line (rules: see Prop_Exact.v, Prop_Chebyshev.v). *)
Example C79_exponential : forall D m, has_derivatives D m (fun _ => exp) /\ forall x, 0 <= exp x.
Proof. split; [intros i x _ _; apply is_derive_exp|intros x; left; apply exp_pos]. Qed.
Example C79_square : has_derivatives (fun _ => True) (2 * 1) (fun i x => match i with O => x * x | 1%nat => 2 * x | _ => 2 end) /\ exists v, hermite_integral (fun x => x * x) v.
Proof.
  split.
  - intros [|[|i]] x Hi _; [| |lia]; auto_derive; (exact I || ring).
  - eexists. apply (hermite_gen 2). apply (poly_mul 1 1 (fun x => x) (fun x => x)); exact poly_id.
Qed.
Example C79_rule : exists r : GaussLegendre RA, legendre_new target64 (Z.of_nat 7) = Ok r.
Proof. eexists. reflexivity. Qed.
Example C79_lipschitz : forall a b delta, 0 <= delta -> oscillation a b sin delta delta.
Proof. intros a b delta _ x y _ _ H. eapply Rle_trans; [apply LegBig.sin_lipschitz|exact H]. Qed.
