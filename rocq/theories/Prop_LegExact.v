(** How accurate the tabulated Gauss-Legendre rules are, in exact arithmetic. *)
From Coq Require Import Reals ZArith List Lia Lra.
From Coquelicot Require Import Coquelicot.
From Verif Require Import Arith RInst Machine Rules Legendre RSum PolySpec PolyProof RuleSpec SizeProof LegPoly LegInt.
Local Open Scope R_scope.

(** For n <= 100 and every polynomial p of degree at most 2n-1: integrate over [-1,1] differs
    from the integral by at most 1.5e-16 times the sum of the absolute values of the coefficients. *)
Theorem C43_coefficients : forall (t : Target) (n : nat) (r : GaussLegendre RA),
  (100 <= usize_max t)%Z -> (1 <= n <= 100)%nat -> (2 * Z.of_nat n <= usize_max t)%Z -> legendre_new t (Z.of_nat n) = Ok r ->
  forall c : nat -> R, let p := fun x => rsum (2 * n) (fun k => c k * x ^ k) in
  Rabs (legendre_value r (-1) 1 p - RInt p (-1) 1) <= 15 / 10 ^ 17 * rsum (2 * n) (fun k => Rabs (c k)).
Proof. exact value_coefficients. Qed.
Print Assumptions C43_coefficients.

(** On every interval, and relative to the size of p rather than of its coefficients: the error
    is at most 3e-14 times the maximum of |p| times half the length of the interval. *)
Theorem C52_polynomials : forall (t : Target) (n : nat) (r : GaussLegendre RA),
  (100 <= usize_max t)%Z -> (1 <= n <= 100)%nat -> (2 * Z.of_nat n <= usize_max t)%Z -> legendre_new t (Z.of_nat n) = Ok r ->
  forall a b (p : R -> R) M, polynomial (2 * n - 1) p -> (forall x, Rmin a b <= x <= Rmax a b -> Rabs (p x) <= M) ->
  Rabs (legendre_value r a b p - RInt p a b) <= 3 / 10 ^ 14 * M * (Rabs (b - a) / 2).
Proof. exact value_max. Qed.
Print Assumptions C52_polynomials.

(** Any integrable f bounded by M that some polynomial of degree at most 2n-1 approximates
    to within E. *)
Theorem C52_integrands : forall (t : Target) (n : nat) (r : GaussLegendre RA),
  (100 <= usize_max t)%Z -> (1 <= n <= 100)%nat -> (2 * Z.of_nat n <= usize_max t)%Z -> legendre_new t (Z.of_nat n) = Ok r ->
  forall a b (f p : R -> R) M E, polynomial (2 * n - 1) p -> ex_RInt f a b ->
  (forall x, Rmin a b <= x <= Rmax a b -> Rabs (f x) <= M) -> (forall x, Rmin a b <= x <= Rmax a b -> Rabs (f x - p x) <= E) ->
  Rabs (legendre_value r a b f - RInt f a b) <= (3 / 10 ^ 14 * M + 5 * E) * (Rabs (b - a) / 2).
Proof. exact value_any. Qed.
Print Assumptions C52_integrands.

(** * A rule, a polynomial and an integrand *)
Example rule_100 : exists (t : Target) (r : GaussLegendre RA), (100 <= usize_max t)%Z /\ (2 * Z.of_nat 100 <= usize_max t)%Z /\ legendre_new t (Z.of_nat 100) = Ok r.
Proof.
  exists {| build_mode := Debug; usize_max := 4294967295 |}.
  destruct (legendre_new_ok (A := RA) {| build_mode := Debug; usize_max := 4294967295 |} (Z.of_nat 100)) as (r & E & _); [vm_compute; discriminate|lia|vm_compute; discriminate|].
  exists r. split; [vm_compute; discriminate|]. split; [vm_compute; discriminate|exact E].
Qed.
Example bounded_power : polynomial (2 * 100 - 1) (fun x => x ^ 199) /\ forall x, Rmin (-1) 1 <= x <= Rmax (-1) 1 -> Rabs (x ^ 199) <= 1.
Proof.
  split; [exact (poly_pow 199)|]. intros x Hx. rewrite Rmin_left, Rmax_right in Hx by lra. rewrite <- RPow_abs. rewrite <- (pow1 199).
  apply pow_incr. split; [apply Rabs_pos|apply Rabs_le; exact Hx].
Qed.
Example near_polynomial : ex_RInt (fun x => x + cos x / 10 ^ 9) 0 1 /\
  (forall x, Rmin 0 1 <= x <= Rmax 0 1 -> Rabs (x + cos x / 10 ^ 9) <= 2) /\
  (forall x, Rmin 0 1 <= x <= Rmax 0 1 -> Rabs (x + cos x / 10 ^ 9 - x) <= / 10 ^ 9).
Proof.
  assert (C : forall x, Rabs (cos x / 10 ^ 9) <= / 10 ^ 9).
  { intros x. unfold Rdiv. rewrite Rabs_mult, (Rabs_pos_eq (/ 10 ^ 9)) by (left; apply Rinv_0_lt_compat; apply pow_lt; lra).
    rewrite <- (Rmult_1_l (/ 10 ^ 9)) at 2. apply Rmult_le_compat_r; [left; apply Rinv_0_lt_compat; apply pow_lt; lra|]. apply Rabs_le. pose proof (COS_bound x). lra. }
  split; [|split].
  - apply (ex_RInt_continuous (V := R_CompleteNormedModule)). intros x _. apply (ex_derive_continuous (V := R_NormedModule)). auto_derive. exact I.
  - intros x Hx. rewrite Rmin_left, Rmax_right in Hx by lra. eapply Rle_trans; [apply Rabs_triang|]. rewrite (Rabs_pos_eq x) by lra. pose proof (C x). assert (/ 10 ^ 9 <= 1) by lra. lra.
  - intros x _. replace (x + cos x / 10 ^ 9 - x) with (cos x / 10 ^ 9) by ring. apply C.
Qed.
