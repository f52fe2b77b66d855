(** Newton-Cotes rules over a period of a function that is close to trigonometric polynomials. *)
From Coq Require Import Reals Lra Lia FunctionalExtensionality.
From Coquelicot Require Import Coquelicot.
From Verif Require Import RSum NCSpec NCReal NCExact NCMore FourierSpec Trig.
Local Open Scope R_scope.

Lemma grid_in : forall a b n s, a < b -> (1 <= n)%nat -> 0 <= s <= INR n -> a <= a + (b - a) / INR n * s <= b.
Proof.
  intros a b n s H Hn Hs. assert (N : 0 < INR n) by (apply lt_0_INR; lia). assert (W : 0 < (b - a) / INR n) by (apply Rdiv_lt_0_compat; lra).
  split; [nra|]. replace b with (a + (b - a) / INR n * INR n) at 2 by (field; lra). nra.
Qed.
Lemma small_values : forall a b n g e, a < b -> (1 <= n)%nat -> (forall x, a <= x <= b -> Rabs (g x) <= e) ->
  Rabs (midpoint_value n a b g) <= (b - a) * e /\ Rabs (trapezoid_value n a b g) <= (b - a) * e /\ Rabs (simpson_value n a b g) <= (b - a) * e.
Proof.
  intros a b n g e H Hn Hg. assert (N : 0 < INR n) by (apply lt_0_INR; lia). assert (W : 0 < (b - a) / INR n) by (apply Rdiv_lt_0_compat; lra).
  assert (M : Rabs (midpoint_value n a b g) <= (b - a) * e).
  { rewrite midpoint_value_eq by exact Hn. rewrite Rabs_mult, (Rabs_pos_eq ((b - a) / INR n)) by lra.
    replace ((b - a) * e) with ((b - a) / INR n * (INR n * e)) by (field; lra). apply Rmult_le_compat_l; [lra|]. apply rsum_abs_le.
    intros i Hi. apply Hg, grid_in; try assumption. assert (Q := le_INR (S i) n ltac:(lia)). rewrite S_INR in Q. pose proof (pos_INR i). lra. }
  assert (T : Rabs (trapezoid_value n a b g) <= (b - a) * e).
  { rewrite trapezoid_panels by exact Hn. cbv zeta. replace ((b - a) * e) with (INR n * ((b - a) / INR n * e)) by (field; lra). apply rsum_abs_le.
    intros i Hi. assert (Q := le_INR (S i) n ltac:(lia)). rewrite S_INR in Q. pose proof (pos_INR i).
    assert (G1 := Hg _ (grid_in a b n (INR i) H Hn ltac:(lra))). assert (G2 := Hg _ (grid_in a b n (INR (S i)) H Hn ltac:(rewrite S_INR; lra))).
    rewrite Rabs_mult, (Rabs_pos_eq ((b - a) / INR n / 2)) by lra. pose proof (Rabs_triang (g (a + (b - a) / INR n * INR i)) (g (a + (b - a) / INR n * INR (S i)))) as Tr.
    replace ((b - a) / INR n * e) with ((b - a) / INR n / 2 * (2 * e)) by (field; lra). apply Rmult_le_compat_l; lra. }
  split; [exact M|]. split; [exact T|]. rewrite simpson_combination by exact Hn. revert M T. generalize (midpoint_value n a b g) (trapezoid_value n a b g). intros u v M T.
  apply Rabs_le_between in M. apply Rabs_le_between in T. apply Rabs_le_between. lra.
Qed.
(** integrand close to one that the rules integrate exactly *)
Lemma near : forall a b n f T e, a < b -> (1 <= n)%nat -> trig_poly (b - a) (n - 1) T -> (forall x, a <= x <= b -> Rabs (f x - T x) <= e) ->
  Rabs (midpoint_value n a b f - RInt T a b) <= (b - a) * e /\ Rabs (trapezoid_value n a b f - RInt T a b) <= (b - a) * e /\ Rabs (simpson_value n a b f - RInt T a b) <= (b - a) * e.
Proof.
  intros a b n f T e H Hn HT He. destruct (trig_exact a b n ltac:(lra) Hn T HT) as (E1 & E2 & E3).
  apply (is_RInt_unique (V := R_CompleteNormedModule)) in E1, E2, E3.
  destruct (small_values a b n (fun x => 1 * f x + -1 * T x) e H Hn) as (S1 & S2 & S3); [intros x Hx; replace (1 * f x + -1 * T x) with (f x - T x) by ring; apply He, Hx|].
  rewrite midpoint_linear in S1 by exact Hn. rewrite trapezoid_linear in S2 by exact Hn. rewrite simpson_linear in S3 by exact Hn.
  split; [rewrite E1|split; [rewrite E2|rewrite E3]]; eapply Rle_trans; [|exact S1| |exact S2| |exact S3]; right; f_equal; ring.
Qed.
Theorem trig_near : forall a b n f T e, a < b -> (1 <= n)%nat -> trig_poly (b - a) (n - 1) T -> (forall x, a <= x <= b -> Rabs (f x - T x) <= e) -> ex_RInt f a b ->
  Rabs (midpoint_value n a b f - RInt f a b) <= 2 * (b - a) * e /\ Rabs (trapezoid_value n a b f - RInt f a b) <= 2 * (b - a) * e /\ Rabs (simpson_value n a b f - RInt f a b) <= 2 * (b - a) * e.
Proof.
  intros a b n f T e H Hn HT He Ef. destruct (near a b n f T e H Hn HT He) as (N1 & N2 & N3).
  destruct (trig_exact a b n ltac:(lra) Hn T HT) as (E1 & _).
  assert (D : Rabs (RInt f a b - RInt T a b) <= (b - a) * e).
  { assert (XT : ex_RInt T a b) by (eexists; exact E1).
    replace (RInt f a b - RInt T a b) with (RInt (fun x => minus (f x) (T x)) a b) by (rewrite (RInt_minus (V := R_CompleteNormedModule)); [reflexivity|exact Ef|exact XT]).
    apply abs_RInt_le_const; [lra|apply (ex_RInt_minus (V := R_NormedModule)); assumption|]. intros x Hx. apply He, Hx. }
  revert N1 N2 N3 D. generalize (RInt f a b) (RInt T a b) (midpoint_value n a b f) (trapezoid_value n a b f) (simpson_value n a b f). intros u v m t s N1 N2 N3 D.
  apply Rabs_le_between in N1. apply Rabs_le_between in N2. apply Rabs_le_between in N3. apply Rabs_le_between in D.
  split; [|split]; apply Rabs_le_between; lra.
Qed.
Lemma tail_partial : forall (u : nat -> R) K r m j, 0 <= r < 1 -> (forall i, Rabs (u i) <= K * r ^ i) ->
  Rabs (rsum (m + j) u - rsum m u) <= K * r ^ m * (1 - r ^ j) / (1 - r).
Proof.
  intros u K r m j Hr Hu. induction j as [|j IH].
  - rewrite Nat.add_0_r. replace (rsum m u - rsum m u) with 0 by ring. rewrite Rabs_R0. simpl. right. field. lra.
  - rewrite Nat.add_succ_r, rsum_S. replace (rsum (m + j) u + u (m + j)%nat - rsum m u) with ((rsum (m + j) u - rsum m u) + u (m + j)%nat) by ring.
    eapply Rle_trans; [apply Rabs_triang|]. eapply Rle_trans; [apply Rplus_le_compat; [exact IH|apply Hu]|]. rewrite pow_add. simpl. right. field. lra.
Qed.
Lemma sum_n_rsum : forall (u : nat -> R) N, sum_n u N = rsum (S N) u.
Proof. intros u N. induction N as [|N IH]; [rewrite sum_O; simpl; ring|]. rewrite sum_Sn, IH, (rsum_S (S N)). reflexivity. Qed.
Lemma series_tail : forall (u : nat -> R) l K r m, 0 <= r < 1 -> (forall i, Rabs (u i) <= K * r ^ i) -> is_series u l -> Rabs (l - rsum m u) <= K * r ^ m / (1 - r).
Proof.
  intros u l K r m Hr Hu Hl. assert (K0 : 0 <= K) by (specialize (Hu O); simpl in Hu; pose proof (Rabs_pos (u O)); lra).
  assert (L : is_lim_seq (fun N => Rabs (sum_n u N - rsum m u)) (Rabs (l - rsum m u))).
  { apply (is_lim_seq_abs (fun N => sum_n u N - rsum m u) (l - rsum m u)). apply is_lim_seq_minus'; [exact Hl|apply is_lim_seq_const]. }
  refine (is_lim_seq_le_loc _ (fun _ => K * r ^ m / (1 - r)) _ _ _ L (is_lim_seq_const _)).
  exists m. intros N HN. rewrite sum_n_rsum. replace (S N) with (m + (S N - m))%nat by lia. eapply Rle_trans; [apply (tail_partial u K r m (S N - m) Hr Hu)|].
  assert (P : 0 <= r ^ (S N - m)) by (apply pow_le; lra). assert (Q : 0 <= K * r ^ m) by (apply Rmult_le_pos; [exact K0|apply pow_le; lra]).
  unfold Rdiv. apply Rmult_le_compat_r; [left; apply Rinv_0_lt_compat; lra|]. nra.
Qed.
Lemma harmonic_small : forall p k A B x C, Rabs A <= C -> Rabs B <= C -> Rabs (harmonic p k A B x) <= 2 * C.
Proof.
  intros p k A B x C HA HB. unfold harmonic. eapply Rle_trans; [apply Rabs_triang|]. rewrite !Rabs_mult.
  generalize (2 * PI * INR k / p * x). intros y. pose proof (COS_bound y) as [c1 c2]. pose proof (SIN_bound y) as [s1 s2].
  assert (C1 : Rabs (cos y) <= 1) by (apply Rabs_le_between; lra). assert (S1 : Rabs (sin y) <= 1) by (apply Rabs_le_between; lra).
  pose proof (Rabs_pos A). pose proof (Rabs_pos B). pose proof (Rabs_pos (cos y)). pose proof (Rabs_pos (sin y)). nra.
Qed.
Section Fourier.
Variables (a b c M r : R) (f : R -> R) (A B : nat -> R).
Hypothesis Hab : a < b.
Hypothesis Hr : 0 <= r < 1.
Hypothesis Hc : forall k, Rabs (A k) <= M * r ^ k /\ Rabs (B k) <= M * r ^ k.
Hypothesis Hf : forall x, is_series (fun i => harmonic (b - a) (S i) (A (S i)) (B (S i)) x) (f x - c).
Lemma fourier_tail : forall m x, Rabs (f x - trig (b - a) m c A B x) <= 2 * M * r ^ S m / (1 - r).
Proof.
  intros m x. replace (f x - trig (b - a) m c A B x) with (f x - c - rsum m (fun i => harmonic (b - a) (S i) (A (S i)) (B (S i)) x)) by (unfold trig; ring).
  replace (2 * M * r ^ S m / (1 - r)) with (2 * (M * r) * r ^ m / (1 - r)) by (simpl; field; lra).
  apply (series_tail _ _ _ r m Hr); [|apply Hf]. intros i. destruct (Hc (S i)) as [H1 H2]. eapply Rle_trans; [apply (harmonic_small _ _ _ _ _ _ H1 H2)|]. simpl. right. ring.
Qed.
Lemma fourier_integral : is_RInt f a b ((b - a) * c).
Proof.
  destruct (filterlim_RInt (V := R_CompleteNormedModule) (fun m => trig (b - a) m c A B) a b eventually _ f (fun _ => (b - a) * c)) as (l & Ll & Il).
  - intros m. apply trig_integral. lra.
  - apply filterlim_locally. intros eps.
    assert (G : is_lim_seq (fun m => 2 * M * r / (1 - r) * r ^ m) (2 * M * r / (1 - r) * 0)) by (apply (is_lim_seq_scal_l (fun m => r ^ m) (2 * M * r / (1 - r)) 0), is_lim_seq_geom; rewrite Rabs_pos_eq; lra).
    rewrite Rmult_0_r in G. apply is_lim_seq_spec in G. destruct (G eps) as [m0 G0]. exists m0. intros m Hm x. change (Rabs (trig (b - a) m c A B x - f x) < eps).
    rewrite Rabs_minus_sym. eapply Rle_lt_trans; [apply fourier_tail|]. specialize (G0 m Hm). rewrite Rminus_0_r in G0. apply Rabs_lt_between in G0.
    replace (2 * M * r ^ S m / (1 - r)) with (2 * M * r / (1 - r) * r ^ m) by (simpl; field; lra). lra.
  - assert (E : l = (b - a) * c). { refine (filterlim_locally_unique (F := eventually) (fun _ : nat => (b - a) * c) _ _ Ll _). apply filterlim_const. }
    rewrite <- E. exact Il.
Qed.
Lemma fourier_values : forall n, (1 <= n)%nat -> Rabs (midpoint_value n a b f - (b - a) * c) <= (b - a) * (2 * M * r ^ n / (1 - r)) /\
  Rabs (trapezoid_value n a b f - (b - a) * c) <= (b - a) * (2 * M * r ^ n / (1 - r)) /\ Rabs (simpson_value n a b f - (b - a) * c) <= (b - a) * (2 * M * r ^ n / (1 - r)).
Proof.
  intros n Hn. rewrite <- (is_RInt_unique (V := R_CompleteNormedModule) _ _ _ _ (trig_integral a b ltac:(lra) (n - 1) c A B)).
  apply near; [exact Hab|exact Hn|exists c, A, B; intros; reflexivity|]. intros x _. replace n with (S (n - 1)) at 2 by lia. apply fourier_tail.
Qed.
End Fourier.
Theorem fourier_rate : forall a b c M r f n, a < b -> 0 <= r < 1 -> fourier (b - a) c M r f -> (1 <= n)%nat -> is_RInt f a b ((b - a) * c) /\
  Rabs (midpoint_value n a b f - RInt f a b) <= (b - a) * (2 * M * r ^ n / (1 - r)) /\
  Rabs (trapezoid_value n a b f - RInt f a b) <= (b - a) * (2 * M * r ^ n / (1 - r)) /\
  Rabs (simpson_value n a b f - RInt f a b) <= (b - a) * (2 * M * r ^ n / (1 - r)).
Proof.
  intros a b c M r f n Hab Hr (A & B & Hc & Hf) Hn. assert (I := fourier_integral a b c M r f A B Hab Hr Hc Hf). split; [exact I|].
  rewrite (is_RInt_unique (V := R_CompleteNormedModule) _ _ _ _ I). exact (fourier_values a b c M r f A B Hab Hr Hc Hf n Hn).
Qed.
