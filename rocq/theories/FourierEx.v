(** Instances: cos^2 and the Poisson kernel. *)
From Coq Require Import Reals Lra Lia.
From Coquelicot Require Import Coquelicot.
From Verif Require Import RSum FourierSpec Trig Fourier.
Local Open Scope R_scope.

Lemma turn : forall k x, 2 * PI * INR k / (2 * PI - 0) * x = INR k * x.
Proof. intros k x. pose proof PI_RGT_0. field. lra. Qed.
Lemma square_trig : trig_poly (2 * PI - 0) (3 - 1) (fun x => cos x * cos x) /\ 2 * PI - 0 <> 0.
Proof.
  pose proof PI_RGT_0. split; [|lra]. exists (/ 2), (fun k => if Nat.eqb k 2 then / 2 else 0), (fun _ => 0). intros x. unfold trig, harmonic. change (3 - 1)%nat with 2%nat. rewrite !rsum_S.
  rewrite !turn. simpl Nat.eqb. cbv iota. replace (INR 2 * x) with (2 * x) by (simpl; ring). rewrite cos_2a_cos. simpl. field.
Qed.
(** partial sums of the kernel *)
Lemma poisson_partial : forall r x n, (1 - 2 * r * cos x + r * r) * (1 + rsum n (fun i => 2 * r ^ S i * cos (INR (S i) * x))) =
  1 - r * r - 2 * r ^ S n * cos (INR (S n) * x) + 2 * r ^ S (S n) * cos (INR n * x).
Proof.
  intros r x n. induction n as [|n IH].
  - simpl. rewrite Rmult_0_l, cos_0, Rmult_1_l. ring.
  - rewrite rsum_S. replace (1 + (rsum n (fun i => 2 * r ^ S i * cos (INR (S i) * x)) + 2 * r ^ S n * cos (INR (S n) * x))) with
      ((1 + rsum n (fun i => 2 * r ^ S i * cos (INR (S i) * x))) + 2 * r ^ S n * cos (INR (S n) * x)) by ring.
    rewrite Rmult_plus_distr_l, IH.
    assert (C : cos (INR (S (S n)) * x) + cos (INR n * x) = 2 * cos x * cos (INR (S n) * x)).
    { rewrite !S_INR. replace ((INR n + 1 + 1) * x) with ((INR n + 1) * x + x) by ring. replace (INR n * x) with ((INR n + 1) * x - x) by ring. rewrite cos_plus, cos_minus. ring. }
    replace (cos (INR n * x)) with (2 * cos x * cos (INR (S n) * x) - cos (INR (S (S n)) * x)) by lra. simpl pow. ring.
Qed.
Lemma denom_pos : forall r x, 0 <= r < 1 -> 0 < 1 - 2 * r * cos x + r * r.
Proof. intros r x Hr. pose proof (COS_bound x). nra. Qed.
Lemma poisson : forall r, 0 <= r < 1 -> fourier (2 * PI - 0) 1 2 r (fun x => (1 - r * r) / (1 - 2 * r * cos x + r * r)).
Proof.
  intros r Hr. exists (fun k => 2 * r ^ k), (fun _ => 0). split.
  - intros k. assert (P : 0 <= r ^ k) by (apply pow_le; lra). rewrite Rabs_R0, Rabs_pos_eq by lra. lra.
  - intros x. assert (D := denom_pos r x Hr). set (d := 1 - 2 * r * cos x + r * r) in *.
    apply (is_series_ext (fun i => 2 * r ^ S i * cos (INR (S i) * x))); [intros i; unfold harmonic; rewrite turn; match goal with |- @eq _ ?u ?v => change (@eq R u v) end; ring|].
    assert (L : is_lim_seq (sum_n (fun i => 2 * r ^ S i * cos (INR (S i) * x))) ((1 - r * r) / d - 1)); [|exact L].
    assert (G : is_lim_seq (fun m => r ^ m) 0) by (apply is_lim_seq_geom; rewrite Rabs_pos_eq; lra).
    apply (is_lim_seq_ext (fun m => (1 - r * r) / d - 1 + (- 2 * r ^ S (S m) * cos (INR (S (S m)) * x) + 2 * r ^ S (S (S m)) * cos (INR (S m) * x)) / d)).
    + intros m. rewrite sum_n_rsum. assert (Q := poisson_partial r x (S m)). fold d in Q.
      replace (rsum (S m) (fun i => 2 * r ^ S i * cos (INR (S i) * x))) with ((d * (1 + rsum (S m) (fun i => 2 * r ^ S i * cos (INR (S i) * x)))) / d - 1) by (field; lra).
      rewrite Q. field. lra.
    + replace ((1 - r * r) / d - 1) with ((1 - r * r) / d - 1 + 0) at 1 by ring. apply is_lim_seq_plus'; [apply is_lim_seq_const|].
      apply is_lim_seq_abs_0. apply (is_lim_seq_le_le (fun _ => 0) _ (fun m => 4 / d * r ^ m)).
      * intros m. split; [apply Rabs_pos|]. unfold Rdiv at 1. rewrite Rabs_mult, (Rabs_pos_eq (/ d)) by (left; apply Rinv_0_lt_compat; exact D).
        replace (4 / d * r ^ m) with (4 * r ^ m * / d) by (field; lra). apply Rmult_le_compat_r; [left; apply Rinv_0_lt_compat; exact D|].
        assert (P : 0 <= r ^ m) by (apply pow_le; lra).
        assert (Sh : forall y z, 0 <= y <= z -> 0 <= r * y <= z) by (intros y z Hy; split; [apply Rmult_le_pos; lra|apply Rle_trans with (1 * y); [apply Rmult_le_compat_r; lra|lra]]).
        assert (P2 : 0 <= r ^ S (S m) <= r ^ m) by (simpl; apply Sh, Sh; lra). assert (P3 : 0 <= r ^ S (S (S m)) <= r ^ m) by (simpl; apply Sh, Sh, Sh; lra).
        assert (Bd : forall u y, 0 <= u <= r ^ m -> Rabs (2 * u * cos y) <= 2 * r ^ m).
        { intros u y Hu. rewrite Rabs_mult, (Rabs_pos_eq (2 * u)) by lra. pose proof (COS_bound y). assert (C1 : Rabs (cos y) <= 1) by (apply Rabs_le_between; lra).
          apply Rle_trans with (2 * u * 1); [apply Rmult_le_compat_l; lra|lra]. }
        eapply Rle_trans; [apply Rabs_triang|]. replace (-2 * r ^ S (S m) * cos (INR (S (S m)) * x)) with (- (2 * r ^ S (S m) * cos (INR (S (S m)) * x))) by ring.
        rewrite Rabs_Ropp. pose proof (Bd _ (INR (S (S m)) * x) P2). pose proof (Bd _ (INR (S m) * x) P3). lra.
      * apply is_lim_seq_const.
      * replace 0 with (4 / d * 0) by ring. apply (is_lim_seq_scal_l (fun m => r ^ m) (4 / d) 0), G.
Qed.
