(** The leading term of the error of the Newton-Cotes rules. *)
From Coq Require Import Reals Lra Lia.
From Coquelicot Require Import Coquelicot.
From Verif Require Import RSum NCSpec NCReal NCExact NCBound NCMore.
Local Open Scope R_scope.

(** ** From one cell to n cells *)
Section Lead.
Variables (value : nat -> R -> R -> (R -> R) -> R) (k : nat) (d : R) (f fk : R -> R) (a b : R).
Hypothesis Hab : a < b.
Hypothesis Hf : forall x, a <= x <= b -> continuous f x.
Hypothesis Hk : forall x, a <= x <= b -> continuous fk x.
Hypothesis comp : forall n, (1 <= n)%nat -> value n a b f = rsum n (fun j => value 1%nat (a + (b - a) / INR n * INR j) (a + (b - a) / INR n * INR (S j)) f).
Hypothesis cell : forall u v c e, a <= u -> u < v -> v <= b -> (forall x, u <= x <= v -> Rabs (fk x - c) <= e) ->
  Rabs (value 1%nat u v f - RInt f u v - d * c * (v - u) ^ S k) <= e * (Rabs d * (v - u) ^ S k).

Lemma int_cells : forall n, (1 <= n)%nat -> RInt f a b = rsum n (fun j => RInt f (a + (b - a) / INR n * INR j) (a + (b - a) / INR n * INR (S j))).
Proof.
  intros n Hn. assert (N : 0 < INR n) by (apply lt_0_INR; lia). set (h := (b - a) / INR n). assert (H0 : 0 < h) by (apply Rdiv_lt_0_compat; lra).
  assert (G : forall m, (m <= n)%nat -> a <= a + h * INR m <= b).
  { intros m Hm. apply le_INR in Hm. pose proof (pos_INR m). split; [nra|]. replace b with (a + h * INR n) by (unfold h; field; lra). nra. }
  assert (I : forall m, (m <= n)%nat -> RInt f a (a + h * INR m) = rsum m (fun j => RInt f (a + h * INR j) (a + h * INR (S j)))).
  { induction m as [|m IH]; intros Hm.
    - simpl. rewrite Rmult_0_r, Rplus_0_r. apply (RInt_point (V := R_CompleteNormedModule)).
    - rewrite rsum_S, <- IH by lia. assert (G1 := G m ltac:(lia)). assert (G2 := G (S m) Hm).
      assert (L : a + h * INR m <= a + h * INR (S m)) by (rewrite S_INR; lra).
      rewrite <- (RInt_Chasles (V := R_CompleteNormedModule) f a (a + h * INR m) (a + h * INR (S m))); [reflexivity| |];
        apply (ex_RInt_continuous (V := R_CompleteNormedModule)); intros x Hx; rewrite Rmin_left, Rmax_right in Hx by lra; apply Hf; lra. }
  rewrite <- I by lia. f_equal. unfold h. field. lra.
Qed.
Lemma lead_near : forall n e dl, (1 <= n)%nat -> (b - a) / INR n < dl ->
  (forall x y, a <= x <= b -> a <= y <= b -> Rabs (x - y) < dl -> Rabs (fk x - fk y) <= e) ->
  Rabs (INR n ^ k * (value n a b f - RInt f a b) - d * (b - a) ^ k * midpoint_value n a b fk) <= e * (Rabs d * (b - a) ^ S k).
Proof.
  intros n e dl Hn Hh He. assert (N : 0 < INR n) by (apply lt_0_INR; lia). set (h := (b - a) / INR n) in *. assert (H0 : 0 < h) by (apply Rdiv_lt_0_compat; lra).
  assert (D : Rabs (value n a b f - RInt f a b - rsum n (fun i => d * fk (a + h * (INR i + / 2)) * h ^ S k)) <= INR n * (e * (Rabs d * h ^ S k))).
  { rewrite (comp n Hn), (int_cells n Hn). fold h. rewrite <- !rsum_minus. apply rsum_abs_le. intros i Hi. apply le_INR in Hi. rewrite S_INR in Hi. pose proof (pos_INR i).
    assert (B0 : b = a + h * INR n) by (unfold h; field; lra).
    assert (B2 : a + h * INR (S i) <= b) by (rewrite B0, S_INR; nra). assert (B1 : a <= a + h * INR i) by nra.
    assert (Q := cell (a + h * INR i) (a + h * INR (S i)) (fk (a + h * (INR i + / 2))) e B1 ltac:(rewrite S_INR; lra) B2).
    replace (a + h * INR (S i) - (a + h * INR i)) with h in Q by (rewrite S_INR; ring). apply Q. intros x Hx. rewrite S_INR in Hx, B2. apply He; [lra|lra|]. apply Rabs_lt_between. lra. }
  rewrite midpoint_value_eq by exact Hn. fold h. rewrite (rsum_ext n _ (fun i => (d * h ^ S k) * fk (a + h * (INR i + / 2)))) in D by (intros; ring). rewrite rsum_scal in D.
  revert D. generalize (rsum n (fun i => fk (a + h * (INR i + / 2)))). intros s D. assert (P : 0 < INR n ^ k) by (apply pow_lt; exact N).
  assert (E : b - a = INR n * h) by (unfold h; field; lra). rewrite E, !Rpow_mult_distr. simpl pow in *.
  replace (INR n ^ k * (value n a b f - RInt f a b) - d * (INR n ^ k * h ^ k) * (h * s)) with (INR n ^ k * (value n a b f - RInt f a b - d * (h * h ^ k) * s)) by ring.
  rewrite Rabs_mult, (Rabs_pos_eq (INR n ^ k)) by lra. eapply Rle_trans; [apply Rmult_le_compat_l; [lra|exact D]|]. right. ring.
Qed.
Lemma lead : is_lim_seq (fun n => INR (S n) ^ k * (value (S n) a b f - RInt f a b)) (d * (b - a) ^ k * RInt fk a b).
Proof.
  assert (M : is_lim_seq (fun n => d * (b - a) ^ k * midpoint_value (S n) a b fk) (d * (b - a) ^ k * RInt fk a b)).
  { apply (is_lim_seq_scal_l (fun n => midpoint_value (S n) a b fk) (d * (b - a) ^ k) (RInt fk a b)). apply midpoint_converges. intros x Hx. rewrite Rmin_left, Rmax_right in Hx by lra. apply Hk, Hx. }
  apply (is_lim_seq_ext (fun n => d * (b - a) ^ k * midpoint_value (S n) a b fk + (INR (S n) ^ k * (value (S n) a b f - RInt f a b) - d * (b - a) ^ k * midpoint_value (S n) a b fk))); [intros n; ring|].
  rewrite <- (Rplus_0_r (d * (b - a) ^ k * RInt fk a b)). apply is_lim_seq_plus'; [exact M|]. apply is_lim_seq_spec. intros eps.
  set (K := Rabs d * (b - a) ^ S k). assert (K0 : 0 <= K) by (apply Rmult_le_pos; [apply Rabs_pos|apply pow_le; lra]).
  assert (He : 0 < eps / (K + 1)) by (apply Rdiv_lt_0_compat; [apply cond_pos|lra]).
  destruct (unifcont_1d fk a b Hk (mkposreal _ He)) as [[dl Hd] HU]. simpl in HU.
  destruct (nfloor_ex ((b - a) / dl)) as [N [HN1 HN2]]; [apply Rmult_le_pos; [lra|left; apply Rinv_0_lt_compat; exact Hd]|].
  exists N. intros n Hn. rewrite Rminus_0_r. eapply Rle_lt_trans; [apply (lead_near (S n) (eps / (K + 1)) dl)|].
  - lia.
  - assert (P : 0 < INR (S n)) by (apply lt_0_INR; lia). apply Rlt_div_l; [exact P|]. apply le_INR in Hn. rewrite S_INR. replace (b - a) with (dl * ((b - a) / dl)) by (field; lra). apply Rmult_lt_compat_l; lra.
  - intros x y Hx Hy Hxy. destruct (Rle_dec (Rabs (fk x - fk y)) (eps / (K + 1))) as [|NL]; [assumption|exfalso]. apply (HU x y Hx Hy).
    + unfold ball; simpl; unfold AbsRing_ball, abs, minus, plus, opp; simpl. rewrite Rabs_minus_sym in Hxy. exact Hxy.
    + intros B. unfold ball in B; simpl in B; unfold AbsRing_ball, abs, minus, plus, opp in B; simpl in B. apply NL. left. rewrite Rabs_minus_sym. exact B.
  - fold K. pose proof (cond_pos eps). replace (eps / (K + 1) * K) with (eps * (K / (K + 1))) by (field; lra). rewrite <- (Rmult_1_r eps) at 2. apply Rmult_lt_compat_l; [lra|]. apply Rlt_div_l; lra.
Qed.
End Lead.

(** ** One cell *)
Section Cells.
Variables (f f1 f2 f3 f4 : R -> R) (u v c e : R).
Hypothesis Huv : u < v.
Hypothesis H1 : forall x, u <= x <= v -> is_derive f x (f1 x).
Hypothesis H2 : forall x, u <= x <= v -> is_derive f1 x (f2 x).
Let m := (u + v) / 2.
Lemma f_int : ex_RInt f u v.
Proof. apply (ex_RInt_continuous (V := R_CompleteNormedModule)). intros x Hx. rewrite Rmin_left, Rmax_right in Hx by lra. apply (ex_derive_continuous (V := R_NormedModule)). eexists. apply H1, Hx. Qed.
Lemma pow_derive : forall j x, is_derive (fun x => (x - m) ^ S j) x (INR (S j) * (x - m) ^ j).
Proof.
  intros j x. replace (INR (S j) * (x - m) ^ j) with (INR (S j) * 1 * (x - m) ^ Nat.pred (S j)) by (simpl Nat.pred; ring).
  apply (is_derive_pow (fun x => x - m)). auto_derive; [trivial|ring].
Qed.
Lemma pow_int : forall j, is_RInt (fun x => (x - m) ^ j) u v ((v - m) ^ S j / INR (S j) - (u - m) ^ S j / INR (S j)).
Proof.
  intros j. assert (J : INR (S j) <> 0) by (apply not_0_INR; lia). apply (is_RInt_derive (V := R_CompleteNormedModule) (fun x => (x - m) ^ S j / INR (S j)) (fun x => (x - m) ^ j)).
  - intros x _. apply (is_derive_ext (fun x => / INR (S j) * (x - m) ^ S j)); [intros; unfold Rdiv; apply Rmult_comm|].
    replace ((x - m) ^ j) with (/ INR (S j) * (INR (S j) * (x - m) ^ j)) by (field; exact J). apply is_derive_scal, pow_derive.
  - intros x _. apply (ex_derive_continuous (V := R_NormedModule)). auto_derive. trivial.
Qed.
Lemma diff_int : forall q j, RInt (fun x => 1 * f x + q * (x - m) ^ j) u v = RInt f u v + q * ((v - m) ^ S j / INR (S j) - (u - m) ^ S j / INR (S j)).
Proof.
  intros q j. apply (is_RInt_unique (V := R_CompleteNormedModule)). apply (is_RInt_ext (fun x => plus (f x) (scal q ((x - m) ^ j)))); [intros; unfold plus, scal; simpl; unfold mult; simpl; ring|].
  apply (is_RInt_plus (V := R_NormedModule)); [apply (RInt_correct (V := R_CompleteNormedModule)), f_int|apply (is_RInt_scal (V := R_NormedModule)), pow_int].
Qed.
Lemma diff_derive : forall q j (g g' : R -> R) x, is_derive g x (g' x) -> is_derive (fun x => 1 * g x + q * (x - m) ^ S j) x (1 * g' x + q * INR (S j) * (x - m) ^ j).
Proof.
  intros q j g g' x Hg. apply (is_derive_plus (V := R_NormedModule) (fun x => 1 * g x) (fun x => q * (x - m) ^ S j)).
  - apply is_derive_scal, Hg.
  - rewrite Rmult_assoc. apply is_derive_scal, pow_derive.
Qed.
Section Two.
Hypothesis He : forall x, u <= x <= v -> Rabs (f2 x - c) <= e.
Lemma two : forall value : R -> R -> (R -> R) -> R, forall K,
  (forall (g g1 g2 : R -> R) M, (forall x, u <= x <= v -> continuous g x) -> (forall x, u < x < v -> is_derive g x (g1 x)) -> (forall x, u < x < v -> is_derive g1 x (g2 x)) ->
    (forall x, u < x < v -> Rabs (g2 x) <= M) -> Rabs (value u v g - RInt g u v) <= M * K) ->
  Rabs (value u v (fun x => 1 * f x + - c / 2 * (x - m) ^ 2) - RInt (fun x => 1 * f x + - c / 2 * (x - m) ^ 2) u v) <= e * K.
Proof.
  intros value K Hv. apply (Hv _ (fun x => 1 * f1 x + - c / 2 * INR 2 * (x - m) ^ 1) (fun x => 1 * f2 x + (- c / 2 * INR 2) * INR 1 * (x - m) ^ 0)).
  - intros x Hx. apply (ex_derive_continuous (V := R_NormedModule)). eexists. apply (diff_derive (- c / 2) 1 f f1 x (H1 x Hx)).
  - intros x Hx. apply (diff_derive (- c / 2) 1 f f1 x). apply H1. lra.
  - intros x Hx. apply (diff_derive (- c / 2 * INR 2) 0 f1 f2 x). apply H2. lra.
  - intros x Hx. replace (1 * f2 x + - c / 2 * INR 2 * INR 1 * (x - m) ^ 0) with (f2 x - c) by (simpl; field). apply He. lra.
Qed.
End Two.
Section Four.
Hypothesis H3 : forall x, u <= x <= v -> is_derive f2 x (f3 x).
Hypothesis H4 : forall x, u <= x <= v -> is_derive f3 x (f4 x).
Hypothesis He : forall x, u <= x <= v -> Rabs (f4 x - c) <= e.
Lemma four : Rabs (simpson_value 1 u v (fun x => 1 * f x + - c / 24 * (x - m) ^ 4) - RInt (fun x => 1 * f x + - c / 24 * (x - m) ^ 4) u v) <= e * Rabs (v - u) ^ 5 / (2880 * INR 1 ^ 4).
Proof.
  apply (simpson_bound _ (fun x => 1 * f1 x + - c / 24 * INR 4 * (x - m) ^ 3) (fun x => 1 * f2 x + (- c / 24 * INR 4) * INR 3 * (x - m) ^ 2)
    (fun x => 1 * f3 x + (- c / 24 * INR 4 * INR 3) * INR 2 * (x - m) ^ 1) (fun x => 1 * f4 x + (- c / 24 * INR 4 * INR 3 * INR 2) * INR 1 * (x - m) ^ 0)); [lia|..];
    rewrite ?Rmin_left, ?Rmax_right by lra; intros x Hx.
  - apply (ex_derive_continuous (V := R_NormedModule)). eexists. apply (diff_derive (- c / 24) 3 f f1 x (H1 x Hx)).
  - apply (diff_derive (- c / 24) 3 f f1 x). apply H1. lra.
  - apply (diff_derive (- c / 24 * INR 4) 2 f1 f2 x). apply H2. lra.
  - apply (diff_derive (- c / 24 * INR 4 * INR 3) 1 f2 f3 x). apply H3. lra.
  - apply (diff_derive (- c / 24 * INR 4 * INR 3 * INR 2) 0 f3 f4 x). apply H4. lra.
  - replace (1 * f4 x + - c / 24 * INR 4 * INR 3 * INR 2 * INR 1 * (x - m) ^ 0) with (f4 x - c) by (simpl; field). apply He. lra.
Qed.
Lemma simpson_cell : Rabs (simpson_value 1 u v f - RInt f u v - / 2880 * c * (v - u) ^ 5) <= e * (Rabs (/ 2880) * (v - u) ^ 5).
Proof.
  assert (Q := four). rewrite simpson_linear, diff_int in Q by lia. rewrite (simpson_value_eq 1 u v (fun x => (x - m) ^ 4)) in Q by lia. simpl rsum in Q. simpl INR in Q.
  rewrite (Rabs_pos_eq (v - u)) in Q by lra. rewrite (Rabs_pos_eq (/ 2880)) by lra.
  replace (e * (/ 2880 * (v - u) ^ 5)) with (e * (v - u) ^ 5 / (2880 * 1 ^ 4)) by field. eapply Rle_trans; [|exact Q]. right. f_equal. unfold m. field.
Qed.
End Four.
Section Two'.
Hypothesis He : forall x, u <= x <= v -> Rabs (f2 x - c) <= e.
Lemma midpoint_cell : Rabs (midpoint_value 1 u v f - RInt f u v - - / 24 * c * (v - u) ^ 3) <= e * (Rabs (- / 24) * (v - u) ^ 3).
Proof.
  assert (Q := two He (midpoint_value 1) ((v - u) ^ 3 / 24)). rewrite midpoint_linear, diff_int in Q by lia. rewrite (midpoint_value_eq 1 u v (fun x => (x - m) ^ 2)) in Q by lia. simpl rsum in Q. simpl INR in Q.
  rewrite Rabs_Ropp, (Rabs_pos_eq (/ 24)) by lra. replace (/ 24 * (v - u) ^ 3) with ((v - u) ^ 3 / 24) by field. eapply Rle_trans; [|apply Q].
  - right. f_equal. unfold m. field.
  - intros g g1 g2 M Hc D1 D2 HM. assert (B := midpoint_bound g g1 g2 u v 1 M ltac:(lia)). rewrite Rmin_left, Rmax_right in B by lra. specialize (B Hc D1 D2 HM). rewrite (Rabs_pos_eq (v - u)) in B by lra.
    eapply Rle_trans; [exact B|]. right. simpl. field.
Qed.
Lemma trapezoid_cell : Rabs (trapezoid_value 1 u v f - RInt f u v - / 12 * c * (v - u) ^ 3) <= e * (Rabs (/ 12) * (v - u) ^ 3).
Proof.
  assert (Q := two He (trapezoid_value 1) ((v - u) ^ 3 / 12)). rewrite trapezoid_linear, diff_int in Q by lia. rewrite (trapezoid_value_eq 1 u v (fun x => (x - m) ^ 2)) in Q by lia. simpl rsum in Q. simpl INR in Q.
  rewrite (Rabs_pos_eq (/ 12)) by lra. replace (/ 12 * (v - u) ^ 3) with ((v - u) ^ 3 / 12) by field. eapply Rle_trans; [|apply Q].
  - right. f_equal. unfold m. field.
  - intros g g1 g2 M Hc D1 D2 HM. assert (B := trapezoid_bound g g1 g2 u v 1 M ltac:(lia)). rewrite Rmin_left, Rmax_right in B by lra. specialize (B Hc D1 D2 HM). rewrite (Rabs_pos_eq (v - u)) in B by lra.
    eapply Rle_trans; [exact B|]. right. simpl. field.
Qed.
End Two'.
End Cells.
