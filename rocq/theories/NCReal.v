(** Newton-Cotes rules in exact arithmetic: closed forms of the returned value. *)
From Coq Require Import Reals ZArith Lra Lia List.
From Verif Require Import Arith RInst RInstProof RSum Machine Iter Rules Par NewtonCotes
  IntegrateSpec IntegrateProof IterProof NCSpec.
Import ListNotations.
Local Open Scope R_scope.

Lemma IZR_of_nat : forall n, IZR (Z.of_nat n) = INR n.
Proof. intros. symmetry. apply INR_IZR_INZ. Qed.
Lemma IZR_1_of_nat : forall n, IZR (1 + Z.of_nat n) = INR n + 1.
Proof. intros. rewrite plus_IZR, IZR_of_nat. ring. Qed.

Lemma midpoint_value_eq : forall n a b g, (1 <= n)%nat ->
  midpoint_value n a b g =
  (b - a) / INR n * rsum n (fun i => g (a + (b - a) / INR n * (INR i + / 2))).
Proof.
  intros n a b g Hn. unfold midpoint_value.
  rewrite midpoint_calls by lia. rewrite (call_all_pure R R g).
  rewrite Nat2Z.id. simpl fst. rewrite float_sum_R, map_map.
  rewrite (lsum_ints (fun z => g _)).
  ra_simpl. ra_lits. rewrite IZR_of_nat, Rmult_comm. f_equal.
  apply rsum_ext. intros i Hi. f_equal. rewrite Z.add_0_l, IZR_of_nat. ring.
Qed.

Lemma trapezoid_value_eq : forall n a b g, (1 <= n)%nat ->
  trapezoid_value n a b g =
  (b - a) / INR n * ((g a + g b) / 2
     + rsum (n - 1) (fun i => g (a + (b - a) / INR n * INR (S i)))).
Proof.
  intros n a b g Hn. unfold trapezoid_value.
  rewrite trapezoid_calls by lia. rewrite !(call_all_pure R R g).
  simpl fst. rewrite float_sum_R, map_map. rewrite (lsum_ints (fun z => g _)).
  replace (Z.to_nat (Z.of_nat n - 1)) with (n - 1)%nat by lia.
  simpl nth. ra_simpl. ra_lits. rewrite IZR_of_nat, Rmult_comm. f_equal. f_equal.
  apply rsum_ext. intros i Hi. f_equal. rewrite IZR_1_of_nat, S_INR. ring.
Qed.

Lemma simpson_value_eq : forall n a b g, (1 <= n)%nat ->
  let h := (b - a) / INR n in
  simpson_value n a b g =
  h / 6 * (2 * rsum (n - 1) (fun i => g (a + h * INR (S i)))
           + 4 * rsum (n - 1) (fun i => g (a + h * (INR i + / 2)))
           + 4 * g (a + h * (INR (n - 1) + / 2)) + g a + g b).
Proof.
  intros n a b g Hn h. unfold simpson_value.
  rewrite simpson_calls by lia. rewrite !(call_all_pure R R g).
  simpl fst. rewrite !float_sum_R, !map_map. rewrite !(lsum_ints (fun z => g _)).
  replace (Z.to_nat (Z.of_nat n - 1)) with (n - 1)%nat by lia.
  simpl nth. ra_simpl. ra_lits. rewrite IZR_of_nat. fold h.
  f_equal. f_equal. f_equal. f_equal.
  - f_equal.
    + f_equal. apply rsum_ext. intros i Hi. f_equal. rewrite IZR_1_of_nat, S_INR. ring.
    + f_equal. apply rsum_ext. intros i Hi. f_equal. rewrite IZR_1_of_nat. field.
  - f_equal. f_equal. f_equal. rewrite minus_INR by lia. simpl (INR 1). field.
Qed.

(** The same values as sums over panels [x_i, x_{i+1}]. *)
Lemma trapezoid_panels : forall n a b g, (1 <= n)%nat ->
  let h := (b - a) / INR n in
  trapezoid_value n a b g =
  rsum n (fun i => h / 2 * (g (a + h * INR i) + g (a + h * INR (S i)))).
Proof.
  intros n a b g Hn h. rewrite trapezoid_value_eq by assumption. fold h.
  rewrite rsum_scal, rsum_plus. destruct n; [lia|].
  replace (S n - 1)%nat with n by lia.
  rewrite (rsum_first n (fun i => g (a + h * INR i))).
  rewrite (rsum_S n (fun i => g (a + h * INR (S i)))).
  replace (a + h * INR 0) with a by (simpl; ring).
  replace (a + h * INR (S n)) with b.
  - lra.
  - unfold h. field. apply not_0_INR. lia.
Qed.

Lemma simpson_panels : forall n a b g, (1 <= n)%nat ->
  let h := (b - a) / INR n in
  simpson_value n a b g =
  rsum n (fun i => h / 6 * (g (a + h * INR i) + 4 * g (a + h * (INR i + / 2))
                            + g (a + h * INR (S i)))).
Proof.
  intros n a b g Hn h. rewrite simpson_value_eq by assumption. fold h. cbv zeta.
  rewrite rsum_scal, !rsum_plus, rsum_scal. destruct n; [lia|].
  replace (S n - 1)%nat with n by lia.
  rewrite (rsum_first n (fun i => g (a + h * INR i))).
  rewrite (rsum_S n (fun i => g (a + h * INR (S i)))).
  rewrite (rsum_S n (fun i => g (a + h * (INR i + / 2)))).
  replace (a + h * INR 0) with a by (simpl; ring).
  replace (a + h * INR (S n)) with b.
  - lra.
  - unfold h. field. apply not_0_INR. lia.
Qed.
