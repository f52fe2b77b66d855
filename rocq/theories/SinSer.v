(** Partial sums of the sine series as polynomials with rational coefficients. *)
From Coq Require Import Reals ZArith List Lra Lia Psatz.
From Verif Require Import TM.
Import ListNotations.
Local Open Scope R_scope.

Fixpoint zfact (n : nat) : Z := match n with O => 1%Z | S k => (Z.of_nat n * zfact k)%Z end.
Lemma zfact_ok : forall n, IZR (zfact n) = INR (fact n).
Proof. induction n as [|n IH]; [simpl; lra|]. cbn [zfact]. rewrite mult_IZR, <- INR_IZR_INZ, IH. change (fact (S n)) with (S n * fact n)%nat. rewrite mult_INR. reflexivity. Qed.
Lemma zfact_pos : forall n, 0 < IZR (zfact n). Proof. intros n. rewrite zfact_ok. apply INR_fact_lt_0. Qed.
(** coefficients (-1)^k / (2k + c)! from k on *)
Fixpoint alt (c k m : nat) : list (Z * Z) := match m with O => [] | S m => ((if Nat.even k then 1 else -1)%Z, zfact (2 * k + c)) :: alt c (S k) m end.
Lemma sgn : forall k, IZR (if Nat.even k then 1 else -1) = (-1) ^ k.
Proof. induction k as [|k IH]; [reflexivity|]. rewrite Nat.even_succ, <- Nat.negb_even. cbn [pow]. rewrite <- IH. destruct (Nat.even k); simpl; lra. Qed.
Lemma alt_sum : forall c m k y, horner (alt c k (S m)) y = sum_f_R0 (fun i => (-1) ^ (k + i) / INR (fact (2 * (k + i) + c)) * y ^ i) m.
Proof.
  intros c m. induction m as [|m IH]; intros k y.
  - cbn [alt horner sum_f_R0]. rewrite sgn, zfact_ok, Nat.add_0_r. simpl. ring.
  - change (alt c k (S (S m))) with (((if Nat.even k then 1 else -1)%Z, zfact (2 * k + c)) :: alt c (S k) (S m)). cbn [horner]. rewrite IH, sgn, zfact_ok.
    rewrite (decomp_sum _ (S m)) by lia. cbn [pred]. rewrite Nat.add_0_r. simpl (y ^ 0). rewrite Rmult_1_r. f_equal. rewrite scal_sum. apply sum_eq. intros i Hi.
    replace (k + S i)%nat with (S k + i)%nat by lia. simpl (y ^ S i). ring.
Qed.
Lemma alt_app : forall c m k y, horner (alt c k (S m)) y = horner (alt c k m) y + (-1) ^ (k + m) / INR (fact (2 * (k + m) + c)) * y ^ m.
Proof.
  intros c m. induction m as [|m IH]; intros k y; [cbn [alt horner]; rewrite sgn, zfact_ok, Nat.add_0_r; simpl; ring|].
  change (horner (alt c k (S (S m))) y) with (IZR (if Nat.even k then 1 else -1) / IZR (zfact (2 * k + c)) + y * horner (alt c (S k) (S m)) y). rewrite IH.
  change (horner (alt c k (S m)) y) with (IZR (if Nat.even k then 1 else -1) / IZR (zfact (2 * k + c)) + y * horner (alt c (S k) m) y). replace (S k + m)%nat with (k + S m)%nat by lia. simpl (y ^ S m). ring.
Qed.
Lemma sin_alt : forall a m, sin_approx a m = a * horner (alt 1 0 (S m)) (a * a).
Proof.
  intros a m. rewrite alt_sum. unfold sin_approx. rewrite scal_sum. apply sum_eq. intros i Hi. cbn [Nat.add]. unfold sin_term. replace (a * a) with (a ^ 2) by ring. rewrite <- pow_mult. rewrite pow_add. simpl (a ^ 1). unfold Rdiv. ring.
Qed.
Lemma cos_alt : forall a m, cos_approx a m = horner (alt 0 0 (S m)) (a * a).
Proof.
  intros a m. rewrite alt_sum. unfold cos_approx. apply sum_eq. intros i Hi. cbn [Nat.add]. unfold cos_term. replace (a * a) with (a ^ 2) by ring. rewrite <- pow_mult, Nat.add_0_r. unfold Rdiv. ring.
Qed.
(** 14 terms of sin a / a *)
Lemma sinc_close : forall a, 0 < a <= PI -> Rabs (sin a / a - horner (alt 1 0 14) (a * a)) <= (a * a) ^ 14 / IZR (zfact 29).
Proof.
  intros a H. destruct (sin_bound a 6 ltac:(lra) ltac:(lra)) as [L U]. change (2 * 6 + 1)%nat with 13%nat in L. change (2 * (6 + 1))%nat with 14%nat in U. rewrite !sin_alt in *. rewrite alt_app in U.
  change (0 + 14)%nat with 14%nat in U. change (2 * 14 + 1)%nat with 29%nat in U. rewrite <- zfact_ok in U. pose proof (zfact_pos 29) as Z. set (p := horner (alt 1 0 14) (a * a)) in *. set (q := (a * a) ^ 14) in *. set (z := IZR (zfact 29)) in *.
  replace ((-1) ^ 14) with 1 in U by ring. assert (Q : 0 <= q / z) by (apply Rmult_le_pos; [apply pow_le; nra|left; apply Rinv_0_lt_compat; exact Z]).
  replace (sin a / a - p) with ((sin a - a * p) / a) by (field; lra). unfold Rdiv at 1. rewrite Rabs_mult, Rabs_inv, (Rabs_pos_eq a) by lra. apply Rmult_le_reg_r with a; [lra|]. rewrite Rmult_assoc, Rinv_l, Rmult_1_r by lra.
  replace (1 / z * q) with (q / z) in U by (field; lra). rewrite Rabs_pos_eq; nra.
Qed.
(** 13 terms of (1 - sin a / a) / a^2 *)
Lemma sinc1_close : forall a, 0 < a <= PI -> Rabs ((1 - sin a / a) / (a * a) - horner (alt 3 0 13) (a * a)) <= (a * a) ^ 13 / IZR (zfact 29).
Proof.
  intros a H. pose proof (sinc_close a H) as C. assert (P : 0 < a * a) by nra.
  assert (E : horner (alt 1 0 14) (a * a) = 1 - a * a * horner (alt 3 0 13) (a * a)).
  { assert (S : forall m k y, horner (alt 1 (S k) m) y = - horner (alt 3 k m) y).
    { induction m as [|m IH]; intros k y; [cbn; ring|]. cbn [alt horner]. rewrite IH, !sgn. replace (2 * S k + 1)%nat with (2 * k + 3)%nat by lia. cbn [pow]. pose proof (zfact_pos (2 * k + 3)). field. lra. }
    change (horner (alt 1 0 14) (a * a)) with (IZR 1 / IZR (zfact 1) + a * a * horner (alt 1 1 13) (a * a)). rewrite S. simpl zfact. field. }
  rewrite E in C. set (p := horner (alt 3 0 13) (a * a)) in *. pose proof (zfact_pos 29) as Z. set (z := IZR (zfact 29)) in *.
  replace ((1 - sin a / a) / (a * a) - p) with (- (sin a / a - (1 - a * a * p)) / (a * a)) by (field; lra). unfold Rdiv at 1. rewrite Rabs_mult, Rabs_inv, (Rabs_pos_eq (a * a)), Rabs_Ropp by lra.
  apply Rmult_le_reg_r with (a * a); [lra|]. rewrite Rmult_assoc, Rinv_l, Rmult_1_r by lra. replace ((a * a) ^ 13 / z * (a * a)) with ((a * a) ^ 14 / z) by (field; lra). exact C.
Qed.
