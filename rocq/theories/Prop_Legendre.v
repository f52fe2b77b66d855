(** Gauss-Legendre nodes and weights: symmetry, order, position and sign. *)
From Coq Require Import Reals ZArith List Lia Lra.
From Verif Require Import Arith F64 RInst Machine Rules Legendre RuleSpec MassSpec SizeProof LegSym LegShape.
Import ListNotations.
Local Open Scope R_scope.

(** For every arithmetic (in particular doubles with any platform cosine): the i-th pair from
    the left and the i-th from the right have the same weight, and one node is the cosine of an
    angle theta where the other is the cosine of PI - theta. *)
Theorem C41_mirror_angles : forall (A : Arith) (t : Target) n (r : GaussLegendre A) i,
  (100 <= usize_max t)%Z -> (1 <= n)%Z -> (2 * n <= usize_max t)%Z -> legendre_new t n = Ok r ->
  (2 * i + 1 < Z.to_nat n)%nat -> exists theta w : A,
  nth_error (legendre_pairs r) i = Some (ncos (nsub npi theta), w) /\
  nth_error (legendre_pairs r) (Z.to_nat n - 1 - i) = Some (ncos theta, w).
Proof. exact @legendre_mirror. Qed.
Print Assumptions C41_mirror_angles.
(** The list of weights is a palindrome, bit for bit. *)
Theorem C41_weights_palindrome : forall (A : Arith) (t : Target) n (r : GaussLegendre A),
  (100 <= usize_max t)%Z -> (1 <= n)%Z -> (2 * n <= usize_max t)%Z -> legendre_new t n = Ok r ->
  map snd (legendre_pairs r) = rev (map snd (legendre_pairs r)).
Proof. exact @weights_palindrome. Qed.
Print Assumptions C41_weights_palindrome.
(** The middle node of a tabulated rule of odd degree is cos (PI/2). *)
Theorem C41_middle_node : forall (A : Arith) (t : Target) n (r : GaussLegendre A),
  (100 <= usize_max t)%Z -> (1 <= n <= 100)%Z -> (2 * n <= usize_max t)%Z -> (n mod 2 = 1)%Z -> legendre_new t n = Ok r ->
  exists w : A, nth_error (legendre_pairs r) (Z.to_nat (n / 2)) = Some (ncos (ndiv npi lit2), w).
Proof. exact @legendre_middle. Qed.
Print Assumptions C41_middle_node.
(** In exact arithmetic the rule is symmetric about 0. *)
Theorem C41_symmetric : forall (t : Target) n (r : GaussLegendre RA),
  (100 <= usize_max t)%Z -> (1 <= n)%Z -> (2 * n <= usize_max t)%Z -> legendre_new t n = Ok r ->
  (n <= 100)%Z \/ (n mod 2 = 0)%Z -> symmetric_rule (legendre_pairs r).
Proof. exact legendre_symmetric. Qed.
Print Assumptions C41_symmetric.

(** In exact arithmetic, for every degree: the nodes increase strictly, lie strictly between
    -1 and 1, and every weight is positive. *)
Theorem C42_ascending_inside_positive : forall (t : Target) n (r : GaussLegendre RA),
  (100 <= usize_max t)%Z -> (1 <= n)%Z -> (2 * n <= usize_max t)%Z -> legendre_new t n = Ok r ->
  strictly_ascending (legendre_pairs r) /\
  Forall (fun xw : R * R => -1 < fst xw < 1 /\ 0 < snd xw) (legendre_pairs r).
Proof. exact legendre_shape. Qed.
Print Assumptions C42_ascending_inside_positive.

(** * A 64-bit release target, degrees 7 (tabulated) and 1000 (asymptotic) *)
Definition target64 : Target := {| build_mode := Release; usize_max := 18446744073709551615 |}.
Example degree_7 : exists r : GaussLegendre RA, legendre_new target64 7 = Ok r /\ (2 * 2 + 1 < Z.to_nat 7)%nat.
Proof. destruct (legendre_new_ok (A := RA) target64 7) as (r & E & _); [vm_compute; discriminate|lia|vm_compute; discriminate|]. exists r. split; [exact E|lia]. Qed.
Example degree_1000 : exists r : GaussLegendre RA, legendre_new target64 1000 = Ok r.
Proof. destruct (legendre_new_ok (A := RA) target64 1000) as (r & E & _); [vm_compute; discriminate|lia|vm_compute; discriminate|]. exists r. exact E. Qed.
Example degree_7_float : forall B, exists r : GaussLegendre (F64 B), legendre_new target64 7 = Ok r.
Proof. intros B. destruct (legendre_new_ok (A := F64 B) target64 7) as (r & E & _); [vm_compute; discriminate|lia|vm_compute; discriminate|]. exists r. exact E. Qed.
