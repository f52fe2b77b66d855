(** Rules and functions that meet the hypotheses of C97. *)
From Coq Require Import Reals ZArith List Lra Lia.
From Verif Require Import Arith RInst Machine Rules NewtonCotes Legendre LegShape RSum NCSpec NCExact NestSpec ExcSpec IneqSpec.
Import ListNotations.
Local Open Scope R_scope.

Lemma newton_cotes_forward : forall n a b, (1 <= n)%Z -> a <= b -> forward_exact (QMidpoint (A := RA) n a b) /\ forward_exact (QTrapezoid (A := RA) n a b) /\ forward_exact (QSimpson (A := RA) n a b).
Proof. intros n a b Hn Hab. repeat split; try exact Hn; try exact Hab; constructor. Qed.
Lemma legendre_forward : forall t n (r : GaussLegendre RA) a b, (100 <= usize_max t)%Z -> (1 <= n)%Z -> (2 * n <= usize_max t)%Z -> legendre_new t n = Ok r -> a <= b -> forward_exact (QLegendre r a b).
Proof.
  intros t n r a b Hu Hn H2 Hr Hab. destruct (legendre_shape t n r Hu Hn H2 Hr) as [_ F]. split; [exact I|]. split; [exact Hab|]. cbn [weights].
  induction F as [|p l [_ H] _ IH]; constructor; [left; exact H|exact IH].
Qed.
Lemma square_convex : convex (fun x => x ^ 2).
Proof. intros x y t Ht. assert (0 <= t * (1 - t) * ((x - y) * (x - y))) by (apply Rmult_le_pos; [apply Rmult_le_pos; lra|apply Rle_0_sqr]). lra. Qed.
Lemma midpoint_total : forall n a b, (1 <= n)%Z -> value (QMidpoint (A := RA) n a b) (fun _ => 1) = b - a.
Proof.
  intros n a b Hn. unfold value. cbn [run]. rewrite <- (Z2Nat.id n) by lia. change (midpoint_value (Z.to_nat n) a b (fun _ => 1) = b - a). rewrite midpoint_panels by lia.
  cbv zeta. rewrite rsum_const. field. apply not_0_INR. lia.
Qed.
