(** Newton-Cotes rules over a full period. *)
From Coq Require Import Reals Lra Lia FunctionalExtensionality.
From Coquelicot Require Import Coquelicot.
From Verif Require Import RSum ChebExact NCSpec NCReal NCExact NCMore FourierSpec.
Local Open Scope R_scope.

Lemma cos_turns : forall x k, cos (x + 2 * PI * INR k) = cos x.
Proof. intros x k. replace (x + 2 * PI * INR k) with (x + 2 * INR k * PI) by ring. apply cos_period. Qed.
Lemma sin_turns : forall x k, sin (x + 2 * PI * INR k) = sin x.
Proof. intros x k. replace (x + 2 * PI * INR k) with (x + 2 * INR k * PI) by ring. apply sin_period. Qed.
(** n equally spaced points on the circle, wound k times *)
Lemma wound_cos : forall n k c, (1 <= k < n)%nat -> rsum n (fun i => cos (c + INR i * (2 * PI * INR k / INR n))) = 0.
Proof.
  intros n k c Hk. assert (N : 0 < INR n) by (apply lt_0_INR; lia). assert (K : 0 < INR k) by (apply lt_0_INR; lia). assert (KN : INR k < INR n) by (apply lt_INR; lia).
  pose proof PI_RGT_0 as P. set (d := 2 * PI * INR k / INR n). assert (C := cos_sum n c d).
  replace (c + INR n * d - d / 2) with (c - d / 2 + 2 * PI * INR k) in C by (unfold d; field; lra). rewrite sin_turns in C.
  assert (S : 0 < sin (d / 2)).
  { replace (d / 2) with (PI * (INR k / INR n)) by (unfold d; field; lra). assert (Q : 0 < INR k / INR n < 1) by (split; [apply Rdiv_lt_0_compat; lra|apply Rlt_div_l; lra]). apply sin_gt_0; nra. }
  apply (Rmult_eq_reg_l (2 * sin (d / 2))); lra.
Qed.
Lemma wound_sin : forall n k c, (1 <= k < n)%nat -> rsum n (fun i => sin (c + INR i * (2 * PI * INR k / INR n))) = 0.
Proof.
  intros n k c Hk. rewrite <- (wound_cos n k (c - PI / 2) Hk). apply rsum_ext. intros i _. rewrite <- cos_shift. rewrite <- cos_neg. f_equal. ring.
Qed.
Section Period.
Variables (a b : R) (n : nat).
Hypothesis Hp : b - a <> 0.
Hypothesis Hn : (1 <= n)%nat.
Notation p := (b - a).
Lemma harmonic_sum : forall k A B s, (1 <= k < n)%nat -> rsum n (fun i => harmonic p k A B (a + p / INR n * (INR i + s))) = 0.
Proof.
  intros k A B s Hk. assert (N : 0 < INR n) by (apply lt_0_INR; lia). unfold harmonic.
  rewrite rsum_plus, !rsum_scal.
  rewrite (rsum_ext n (fun i => cos _) (fun i => cos (2 * PI * INR k / p * (a + p / INR n * s) + INR i * (2 * PI * INR k / INR n)))) by (intros i _; f_equal; field; split; [lra|exact Hp]).
  rewrite (rsum_ext n (fun i => sin _) (fun i => sin (2 * PI * INR k / p * (a + p / INR n * s) + INR i * (2 * PI * INR k / INR n)))) by (intros i _; f_equal; field; split; [lra|exact Hp]).
  rewrite wound_cos, wound_sin by exact Hk. ring.
Qed.
Lemma harmonic_period : forall k A B x, harmonic p k A B (x + p) = harmonic p k A B x.
Proof using Hp.
  intros k A B x. unfold harmonic. replace (2 * PI * INR k / p * (x + p)) with (2 * PI * INR k / p * x + 2 * PI * INR k) by (field; exact Hp).
  rewrite cos_turns, sin_turns. reflexivity.
Qed.
(** the two ends count as one point *)
Lemma trapezoid_periodic : forall f, f b = f a -> trapezoid_value n a b f = p / INR n * rsum n (fun i => f (a + p / INR n * INR i)).
Proof.
  intros f E. rewrite trapezoid_value_eq by exact Hn. f_equal. rewrite E. destruct n as [|m]; [lia|]. rewrite rsum_first. replace (S m - 1)%nat with m by lia.
  replace (a + p / INR (S m) * INR 0) with a by (simpl INR at 2; ring). lra.
Qed.
Lemma harmonic_values : forall k A B, (1 <= k < n)%nat -> midpoint_value n a b (harmonic p k A B) = 0 /\ trapezoid_value n a b (harmonic p k A B) = 0.
Proof.
  intros k A B Hk. split.
  - rewrite midpoint_value_eq by exact Hn. rewrite harmonic_sum by exact Hk. ring.
  - rewrite trapezoid_periodic by (rewrite <- (harmonic_period k A B a); f_equal; ring).
    rewrite (rsum_ext n _ (fun i => harmonic p k A B (a + p / INR n * (INR i + 0)))) by (intros i _; f_equal; ring). rewrite harmonic_sum by exact Hk. ring.
Qed.
Lemma harmonic_integral : forall k A B, (1 <= k)%nat -> is_RInt (harmonic p k A B) a b 0.
Proof using Hp. clear Hn.
  intros k A B Hk. assert (K : 0 < INR k) by (apply lt_0_INR; lia). pose proof PI_RGT_0 as P. set (w := 2 * PI * INR k / p).
  assert (W : w <> 0). { unfold w, Rdiv. apply Rmult_integral_contrapositive_currified; [nra|apply Rinv_neq_0_compat; exact Hp]. }
  pose (F := fun x => (A * sin (w * x) - B * cos (w * x)) / w).
  assert (E : F b - F a = 0).
  { unfold F. replace (w * b) with (w * a + 2 * PI * INR k) by (unfold w; field; exact Hp). rewrite sin_turns, cos_turns. ring. }
  rewrite <- E. apply (is_RInt_derive (V := R_CompleteNormedModule) F (harmonic p k A B)).
  - intros x _. unfold F, harmonic. fold w. auto_derive; [trivial|]. field. exact W.
  - intros x _. unfold harmonic. fold w. apply (ex_derive_continuous (V := R_NormedModule)). auto_derive. trivial.
Qed.
Lemma const_values : forall c, midpoint_value n a b (fun _ => c) = p * c /\ trapezoid_value n a b (fun _ => c) = p * c.
Proof.
  intros c. assert (N : 0 < INR n) by (apply lt_0_INR; lia). split.
  - rewrite midpoint_value_eq, rsum_const by exact Hn. field. lra.
  - rewrite trapezoid_periodic, rsum_const by reflexivity. field. lra.
Qed.
Lemma trig_values : forall m c A B, (m < n)%nat -> midpoint_value n a b (trig p m c A B) = p * c /\ trapezoid_value n a b (trig p m c A B) = p * c.
Proof.
  intros m c A B. induction m as [|m IH]; intros Hm.
  - replace (trig p 0 c A B) with (fun _ : R => c) by (extensionality x; unfold trig; simpl; ring). apply const_values.
  - destruct IH as [I1 I2]; [lia|]. destruct (harmonic_values (S m) (A (S m)) (B (S m))) as [J1 J2]; [lia|].
    replace (trig p (S m) c A B) with (fun x => 1 * trig p m c A B x + 1 * harmonic p (S m) (A (S m)) (B (S m)) x) by (extensionality x; unfold trig; rewrite rsum_S; ring).
    rewrite midpoint_linear, trapezoid_linear by exact Hn. rewrite I1, I2, J1, J2. split; ring.
Qed.
Lemma trig_integral : forall m c A B, is_RInt (trig p m c A B) a b (p * c).
Proof using Hp. clear Hn.
  intros m c A B. induction m as [|m IH].
  - replace (trig p 0 c A B) with (fun _ : R => c) by (extensionality x; unfold trig; simpl; ring). apply (is_RInt_const (V := R_NormedModule)).
  - replace (trig p (S m) c A B) with (fun x => plus (trig p m c A B x) (harmonic p (S m) (A (S m)) (B (S m)) x)) by (extensionality x; unfold trig; rewrite rsum_S; unfold plus; simpl; ring).
    replace (p * c) with (plus (p * c) 0) by (unfold plus; simpl; ring). apply (is_RInt_plus (V := R_NormedModule)); [exact IH|apply harmonic_integral; lia].
Qed.
Theorem trig_exact : forall f, trig_poly p (n - 1) f ->
  is_RInt f a b (midpoint_value n a b f) /\ is_RInt f a b (trapezoid_value n a b f) /\ is_RInt f a b (simpson_value n a b f).
Proof.
  intros f (c & A & B & E). replace f with (trig p (n - 1) c A B) by (extensionality x; symmetry; apply E).
  destruct (trig_values (n - 1) c A B) as [V1 V2]; [lia|]. rewrite simpson_combination, V1, V2 by exact Hn. assert (I := trig_integral (n - 1) c A B).
  split; [exact I|]. split; [exact I|]. replace ((2 * (p * c) + p * c) / 3) with (p * c) by field. exact I.
Qed.
(** the n-th harmonic is not seen *)
Theorem trig_sharp : let f := fun x => cos (2 * PI * INR n / p * (x - a)) in
  trig_poly p n f /\ is_RInt f a b 0 /\ trapezoid_value n a b f = p /\ midpoint_value n a b f = - p /\ simpson_value n a b f = - p / 3.
Proof.
  cbv zeta. set (f := fun x => _). assert (N : 0 < INR n) by (apply lt_0_INR; lia).
  pose (w := 2 * PI * INR n / p). assert (E : forall x, f x = harmonic p n (cos (w * a)) (sin (w * a)) x).
  { intros x. unfold f, harmonic. fold w. rewrite Rmult_minus_distr_l, cos_minus. ring. }
  assert (T : trapezoid_value n a b f = p).
  { rewrite trapezoid_periodic.
    - rewrite (rsum_ext n _ (fun _ => 1)); [rewrite rsum_const; field; lra|]. intros i _. unfold f. replace (2 * PI * INR n / p * (a + p / INR n * INR i - a)) with (0 + 2 * PI * INR i) by (field; repeat split; first [exact Hp|lra]). rewrite cos_turns. apply cos_0.
    - unfold f. replace (2 * PI * INR n / p * (b - a)) with (2 * PI * INR n / p * (a - a) + 2 * PI * INR n) by (field; exact Hp). apply cos_turns. }
  assert (M : midpoint_value n a b f = - p).
  { rewrite midpoint_value_eq by exact Hn. rewrite (rsum_ext n _ (fun _ => -1)); [rewrite rsum_const; field; lra|]. intros i _. unfold f.
    replace (2 * PI * INR n / p * (a + p / INR n * (INR i + / 2) - a)) with (PI + 2 * PI * INR i) by (field; repeat split; first [exact Hp|lra]). rewrite cos_turns. apply cos_PI. }
  split.
  - exists 0, (fun k => if Nat.eqb k n then cos (w * a) else 0), (fun k => if Nat.eqb k n then sin (w * a) else 0). intros x. rewrite E. unfold trig.
    destruct n as [|m] eqn:Em; [lia|]. rewrite rsum_S, rsum_eq0.
    + rewrite Nat.eqb_refl. ring.
    + intros i Hi. destruct (Nat.eqb_spec (S i) (S m)); [lia|]. unfold harmonic. ring.
  - split; [|split; [exact T|split; [exact M|rewrite simpson_combination, M, T by exact Hn; field]]].
    replace f with (harmonic p n (cos (w * a)) (sin (w * a))) by (extensionality x; symmetry; apply E). apply harmonic_integral, Hn.
Qed.
End Period.
