(** The error of the Newton-Cotes rules for smooth integrands, and the usual estimate of it. *)
From Coq Require Import Reals Lra Lia.
From Coquelicot Require Import Coquelicot.
From Verif Require Import RSum NCSpec NCReal NCExact NCBound NCMore Lead.
Local Open Scope R_scope.

Lemma derive_int : forall (g g' : R -> R) a b, a < b -> (forall x, a <= x <= b -> is_derive g x (g' x)) -> (forall x, a <= x <= b -> continuous g' x) -> RInt g' a b = g b - g a.
Proof.
  intros g g' a b Hab D C. apply (is_RInt_unique (V := R_CompleteNormedModule)). apply (is_RInt_derive (V := R_CompleteNormedModule) g g'); intros x Hx; rewrite Rmin_left, Rmax_right in Hx by lra; [apply D|apply C]; exact Hx.
Qed.
Section Use.
Variables (f f1 f2 f3 f4 : R -> R) (a b : R).
Hypothesis Hab : a < b.
Hypothesis H1 : forall x, a <= x <= b -> is_derive f x (f1 x).
Hypothesis H2 : forall x, a <= x <= b -> is_derive f1 x (f2 x).
Lemma f_cont : forall x, a <= x <= b -> continuous f x.
Proof. intros x Hx. apply (ex_derive_continuous (V := R_NormedModule)). eexists. apply H1, Hx. Qed.
Lemma midpoint_lead : (forall x, a <= x <= b -> continuous f2 x) -> is_lim_seq (fun n => INR (S n) ^ 2 * (midpoint_value (S n) a b f - RInt f a b)) (- (b - a) ^ 2 / 24 * (f1 b - f1 a)).
Proof.
  intros C. assert (L := lead midpoint_value 2 (- / 24) f f2 a b Hab f_cont C). rewrite (derive_int f1 f2 a b Hab H2 C) in L.
  replace (- (b - a) ^ 2 / 24 * (f1 b - f1 a)) with (- / 24 * (b - a) ^ 2 * (f1 b - f1 a)) by field. apply L.
  - intros n Hn. rewrite <- (Nat.mul_1_r n) at 1. apply (midpoint_composite 1 n a b f ltac:(lia) Hn).
  - intros u v c e Hu Huv Hv He. apply (midpoint_cell f f1 f2 u v c e Huv); intros x Hx; [apply H1|apply H2|apply He]; lra.
Qed.
Lemma trapezoid_lead : (forall x, a <= x <= b -> continuous f2 x) -> is_lim_seq (fun n => INR (S n) ^ 2 * (trapezoid_value (S n) a b f - RInt f a b)) ((b - a) ^ 2 / 12 * (f1 b - f1 a)).
Proof.
  intros C. assert (L := lead trapezoid_value 2 (/ 12) f f2 a b Hab f_cont C). rewrite (derive_int f1 f2 a b Hab H2 C) in L.
  replace ((b - a) ^ 2 / 12 * (f1 b - f1 a)) with (/ 12 * (b - a) ^ 2 * (f1 b - f1 a)) by field. apply L.
  - intros n Hn. rewrite <- (Nat.mul_1_r n) at 1. apply (trapezoid_composite 1 n a b f ltac:(lia) Hn).
  - intros u v c e Hu Huv Hv He. apply (trapezoid_cell f f1 f2 u v c e Huv); intros x Hx; [apply H1|apply H2|apply He]; lra.
Qed.
Lemma simpson_lead : (forall x, a <= x <= b -> is_derive f2 x (f3 x)) -> (forall x, a <= x <= b -> is_derive f3 x (f4 x)) -> (forall x, a <= x <= b -> continuous f4 x) ->
  is_lim_seq (fun n => INR (S n) ^ 4 * (simpson_value (S n) a b f - RInt f a b)) ((b - a) ^ 4 / 2880 * (f3 b - f3 a)).
Proof.
  intros H3 H4 C. assert (L := lead simpson_value 4 (/ 2880) f f4 a b Hab f_cont C). rewrite (derive_int f3 f4 a b Hab H4 C) in L.
  replace ((b - a) ^ 4 / 2880 * (f3 b - f3 a)) with (/ 2880 * (b - a) ^ 4 * (f3 b - f3 a)) by field. apply L.
  - intros n Hn. rewrite <- (Nat.mul_1_r n) at 1. apply (simpson_composite 1 n a b f ltac:(lia) Hn).
  - intros u v c e Hu Huv Hv He. apply (simpson_cell f f1 f2 f3 f4 u v c e Huv); intros x Hx; [apply H1|apply H2|apply H3|apply H4|apply He]; lra.
Qed.
End Use.
(** twice as many cells *)
Lemma doubling : forall (e : nat -> R) k L, (1 <= k)%nat -> L <> 0 -> is_lim_seq (fun n => INR (S n) ^ k * e (S n)) L ->
  is_lim_seq (fun n => e (2 * S n)%nat / e (S n)) (/ 2 ^ k) /\ is_lim_seq (fun n => (e (S n) - e (2 * S n)%nat) / (2 ^ k - 1) / e (2 * S n)%nat) 1.
Proof.
  intros e k L Hk HL U. assert (P2 : 0 < 2 ^ k) by (apply pow_lt; lra).
  assert (P3 : 2 ^ k - 1 <> 0) by (assert (Q := Rle_pow 2 1 k ltac:(lra) Hk); simpl in Q; lra).
  assert (W : is_lim_seq (fun n => INR (2 * S n) ^ k * e (2 * S n)%nat) L).
  { apply (is_lim_seq_ext (fun n => INR (S (2 * n + 1)) ^ k * e (S (2 * n + 1)))); [intros n; replace (S (2 * n + 1)) with (2 * S n)%nat by lia; reflexivity|].
    apply (is_lim_seq_subseq (fun n => INR (S n) ^ k * e (S n)) L (fun n => (2 * n + 1)%nat)); [|exact U]. apply eventually_subseq. intros n. lia. }
  assert (Pn : forall n, 0 < INR (S n) ^ k) by (intros n; apply pow_lt, lt_0_INR; lia).
  assert (E2 : forall n, INR (2 * S n) ^ k = 2 ^ k * INR (S n) ^ k) by (intros n; rewrite mult_INR, Rpow_mult_distr; simpl (INR 2); f_equal; f_equal; ring).
  split.
  - apply (is_lim_seq_ext (fun n => / 2 ^ k * ((INR (2 * S n) ^ k * e (2 * S n)%nat) / (INR (S n) ^ k * e (S n))))).
    + intros n. rewrite E2. unfold Rdiv. rewrite Rinv_mult. specialize (Pn n). generalize dependent (INR (S n) ^ k). generalize (/ e (S n)) (e (2 * S n)%nat). intros i j N HN. field. split; lra.
    + replace (/ 2 ^ k) with (/ 2 ^ k * (L / L)) at 1 by (field; split; [lra|exact HL]). apply (is_lim_seq_scal_l _ (/ 2 ^ k) (L / L)). apply is_lim_seq_div'; assumption.
  - apply (is_lim_seq_ext (fun n => / (2 ^ k - 1) * ((2 ^ k * (INR (S n) ^ k * e (S n)) - INR (2 * S n) ^ k * e (2 * S n)%nat) / (INR (2 * S n) ^ k * e (2 * S n)%nat)))).
    + intros n. rewrite E2. unfold Rdiv. rewrite !Rinv_mult. specialize (Pn n). generalize dependent (INR (S n) ^ k). generalize (/ e (2 * S n)%nat). generalize (e (2 * S n)%nat) (e (S n)). intros j l i N HN. field. repeat split; first [exact P3|lra].
    + replace (Finite 1) with (Finite (/ (2 ^ k - 1) * ((2 ^ k * L - L) / L))) by (f_equal; field; split; [exact HL|exact P3]).
      apply (is_lim_seq_scal_l _ (/ (2 ^ k - 1)) ((2 ^ k * L - L) / L)). apply is_lim_seq_div'; [|exact W|exact HL]. apply is_lim_seq_minus'; [|exact W].
      apply (is_lim_seq_scal_l _ (2 ^ k) L), U.
Qed.
Theorem midpoint_doubling : forall (f f1 f2 : R -> R) a b, a < b ->
  (forall x, a <= x <= b -> is_derive f x (f1 x)) -> (forall x, a <= x <= b -> is_derive f1 x (f2 x)) -> (forall x, a <= x <= b -> continuous f2 x) ->
  f1 b <> f1 a ->
  is_lim_seq (fun n => (midpoint_value (2 * S n) a b f - RInt f a b) / (midpoint_value (S n) a b f - RInt f a b)) (/ 4) /\
  is_lim_seq (fun n => (midpoint_value (S n) a b f - midpoint_value (2 * S n) a b f) / 3 / (midpoint_value (2 * S n) a b f - RInt f a b)) 1.
Proof.
  intros f f1 f2 a b Hab H1 H2 C Ne.
  assert (NZ : - (b - a) ^ 2 / 24 * (f1 b - f1 a) <> 0).
  { apply Rmult_integral_contrapositive_currified; [|lra]. assert (P : 0 < (b - a) ^ 2) by (apply pow_lt; lra). lra. }
  destruct (doubling (fun n => midpoint_value n a b f - RInt f a b) 2 _ ltac:(lia) NZ (midpoint_lead f f1 f2 a b Hab H1 H2 C)) as [D1 D2].
  replace (/ 4) with (/ 2 ^ 2) by (simpl; field). split; [exact D1|]. refine (is_lim_seq_ext _ _ _ _ D2). intros n. cbv beta. f_equal. unfold Rdiv. f_equal; [ring|]. f_equal. simpl. ring.
Qed.
Theorem trapezoid_doubling : forall (f f1 f2 : R -> R) a b, a < b ->
  (forall x, a <= x <= b -> is_derive f x (f1 x)) -> (forall x, a <= x <= b -> is_derive f1 x (f2 x)) -> (forall x, a <= x <= b -> continuous f2 x) ->
  f1 b <> f1 a ->
  is_lim_seq (fun n => (trapezoid_value (2 * S n) a b f - RInt f a b) / (trapezoid_value (S n) a b f - RInt f a b)) (/ 4) /\
  is_lim_seq (fun n => (trapezoid_value (S n) a b f - trapezoid_value (2 * S n) a b f) / 3 / (trapezoid_value (2 * S n) a b f - RInt f a b)) 1.
Proof.
  intros f f1 f2 a b Hab H1 H2 C Ne.
  assert (NZ : (b - a) ^ 2 / 12 * (f1 b - f1 a) <> 0).
  { apply Rmult_integral_contrapositive_currified; [|lra]. assert (P : 0 < (b - a) ^ 2) by (apply pow_lt; lra). lra. }
  destruct (doubling (fun n => trapezoid_value n a b f - RInt f a b) 2 _ ltac:(lia) NZ (trapezoid_lead f f1 f2 a b Hab H1 H2 C)) as [D1 D2].
  replace (/ 4) with (/ 2 ^ 2) by (simpl; field). split; [exact D1|]. refine (is_lim_seq_ext _ _ _ _ D2). intros n. cbv beta. f_equal. unfold Rdiv. f_equal; [ring|]. f_equal. simpl. ring.
Qed.
Theorem simpson_doubling : forall (f f1 f2 f3 f4 : R -> R) a b, a < b ->
  (forall x, a <= x <= b -> is_derive f x (f1 x)) -> (forall x, a <= x <= b -> is_derive f1 x (f2 x)) -> (forall x, a <= x <= b -> is_derive f2 x (f3 x)) ->
  (forall x, a <= x <= b -> is_derive f3 x (f4 x)) -> (forall x, a <= x <= b -> continuous f4 x) ->
  f3 b <> f3 a ->
  is_lim_seq (fun n => (simpson_value (2 * S n) a b f - RInt f a b) / (simpson_value (S n) a b f - RInt f a b)) (/ 16) /\
  is_lim_seq (fun n => (simpson_value (S n) a b f - simpson_value (2 * S n) a b f) / 15 / (simpson_value (2 * S n) a b f - RInt f a b)) 1.
Proof.
  intros f f1 f2 f3 f4 a b Hab H1 H2 H3 H4 C Ne.
  assert (NZ : (b - a) ^ 4 / 2880 * (f3 b - f3 a) <> 0).
  { apply Rmult_integral_contrapositive_currified; [|lra]. assert (P : 0 < (b - a) ^ 4) by (apply pow_lt; lra). lra. }
  destruct (doubling (fun n => simpson_value n a b f - RInt f a b) 4 _ ltac:(lia) NZ (simpson_lead f f1 f2 f3 f4 a b Hab H1 H2 H3 H4 C)) as [D1 D2].
  replace (/ 16) with (/ 2 ^ 4) by (simpl; field). split; [exact D1|]. refine (is_lim_seq_ext _ _ _ _ D2). intros n. cbv beta. f_equal. unfold Rdiv. f_equal; [ring|]. f_equal. simpl. ring.
Qed.
