(** How far the approximation is from satisfying the functional equation of the gamma function. *)
From Coq Require Import Reals Lra Lia List ZArith.
From Coquelicot Require Import Coquelicot.
From Verif Require Import Arith RInst RInstProof Gamma GammaProof GamPoly.
Import ListNotations.
Local Open Scope R_scope.
Ltac eqR := match goal with |- @eq _ ?a ?b => change (@eq R a b) end.

(** ** A function with a non-negative derivative is increasing *)
Lemma mono : forall f df a b, a <= b -> (forall x, a <= x <= b -> is_derive f x (df x) /\ 0 <= df x) -> f a <= f b.
Proof.
  intros f df a b Hab H. destruct (MVT_gen f a b df) as (c & Hc & E).
  - intros x Hx. rewrite Rmin_left, Rmax_right in Hx by lra. apply H. lra.
  - intros x Hx. rewrite Rmin_left, Rmax_right in Hx by lra. apply continuity_pt_filterlim.
    apply (ex_derive_continuous (V := R_NormedModule) f x). exists (df x). apply H, Hx.
  - rewrite Rmin_left, Rmax_right in Hc by lra. destruct (H c Hc) as [_ P].
    assert (0 <= df c * (b - a)) by (apply Rmult_le_pos; lra). lra.
Qed.

Lemma pow_der : forall k u, is_derive (fun u => u ^ S k) u (INR (S k) * u ^ k).
Proof.
  intros k u. replace (INR (S k) * u ^ k) with (INR (S k) * 1 * u ^ pred (S k)) by (rewrite Rmult_1_r; reflexivity).
  apply (is_derive_pow (fun u => u)). apply (is_derive_id (K := R_AbsRing)).
Qed.
(** ** Taylor polynomial of ln (1 + u) *)
Fixpoint lser (n : nat) (k : Z) (u : R) : R := match n with O => 0 | S n => / IZR k - u * lser n (k + 1) u end.
Fixpoint geo (n : nat) (u : R) : R := match n with O => 0 | S n => 1 - u * geo n u end.
Lemma geo_sum : forall n u, (1 + u) * geo n u = 1 - (- u) ^ n.
Proof. induction n as [|n IH]; intros u; simpl; [ring|]. replace ((1 + u) * (1 - u * geo n u)) with (1 + u - u * ((1 + u) * geo n u)) by ring. rewrite IH. ring. Qed.
Lemma lser_der : forall n k u, is_derive (fun u => u ^ S k * lser n (Z.of_nat (S k)) u) u (u ^ k * geo n u).
Proof.
  induction n as [|n IH]; intros k u.
  - simpl geo. rewrite Rmult_0_r. apply (is_derive_ext (fun _ => 0)); [intros; simpl; ring|]. apply (is_derive_const (V := R_NormedModule)).
  - apply (is_derive_ext (fun u => / IZR (Z.of_nat (S k)) * u ^ S k - u ^ S (S k) * lser n (Z.of_nat (S (S k))) u)).
    { intros t. cbn [lser]. replace (Z.of_nat (S k) + 1)%Z with (Z.of_nat (S (S k))) by lia. simpl pow. eqR. ring. }
    replace (u ^ k * geo (S n) u) with (/ IZR (Z.of_nat (S k)) * (INR (S k) * u ^ k) - u ^ S k * geo n u).
    + apply (is_derive_minus (K := R_AbsRing) (V := R_NormedModule) (fun u => / IZR (Z.of_nat (S k)) * u ^ S k)); [|apply IH].
      apply (is_derive_scal (fun u => u ^ S k)). 
      apply pow_der.
    + rewrite <- INR_IZR_INZ. assert (INR (S k) <> 0) by (apply not_0_INR; lia). cbn [geo]. simpl pow. field. assumption.
Qed.
Lemma log_taylor : forall n u, 0 <= u -> Rabs (ln (1 + u) - u * lser n 1 u) <= u ^ S n / INR (S n).
Proof.
  intros n u Hu.
  assert (D : forall t, 0 <= t -> is_derive (fun t => ln (1 + t) - t ^ 1 * lser n (Z.of_nat 1) t) t ((- t) ^ n / (1 + t))).
  { intros t Ht. replace ((- t) ^ n / (1 + t)) with (/ (1 + t) - t ^ 0 * geo n t).
    - apply (is_derive_minus (K := R_AbsRing) (V := R_NormedModule) (fun t => ln (1 + t))); [|apply lser_der].
      auto_derive; [lra|]. field. lra.
    - assert (G := geo_sum n t). simpl pow. replace (geo n t) with ((1 + t) * geo n t / (1 + t)) by (field; lra). rewrite G. field. lra. }
  assert (P : forall t, is_derive (fun t => t ^ S n / INR (S n)) t (t ^ n)).
  { intros t. assert (N : INR (S n) <> 0) by (apply not_0_INR; lia).
    replace (t ^ n) with (/ INR (S n) * (INR (S n) * t ^ n)) by (field; exact N).
    apply (is_derive_ext (fun t => / INR (S n) * t ^ S n)); [intros; unfold Rdiv; apply Rmult_comm|].
    apply (is_derive_scal (fun u => u ^ S n)). apply pow_der. }
  assert (B : forall t, 0 <= t -> - t ^ n <= (- t) ^ n / (1 + t) <= t ^ n).
  { intros t Ht. assert (A : Rabs ((- t) ^ n / (1 + t)) <= t ^ n).
    { unfold Rdiv. rewrite Rabs_mult, <- RPow_abs, Rabs_Ropp, (Rabs_pos_eq t) by exact Ht.
      rewrite (Rabs_pos_eq (/ (1 + t))) by (left; apply Rinv_0_lt_compat; lra).
      assert (/ (1 + t) <= 1) by (rewrite <- Rinv_1; apply Rinv_le_contravar; lra).
      assert (0 <= t ^ n) by (apply pow_le, Ht). assert (0 < / (1 + t)) by (apply Rinv_0_lt_compat; lra). nra. }
    assert (X := Rle_abs ((- t) ^ n / (1 + t))); assert (Y := Rle_abs (- ((- t) ^ n / (1 + t)))); rewrite Rabs_Ropp in Y; lra. }
  assert (U := mono (fun t => t ^ S n / INR (S n) - (ln (1 + t) - t ^ 1 * lser n (Z.of_nat 1) t)) (fun t => t ^ n - (- t) ^ n / (1 + t)) 0 u Hu).
  assert (V := mono (fun t => t ^ S n / INR (S n) + (ln (1 + t) - t ^ 1 * lser n (Z.of_nat 1) t)) (fun t => t ^ n + (- t) ^ n / (1 + t)) 0 u Hu).
  cbv beta in U, V. rewrite Rplus_0_r, ln_1 in U, V. change (Z.of_nat 1) with 1%Z in U, V.
  assert (Z0 : 0 ^ S n / INR (S n) = 0) by (rewrite pow_i by lia; unfold Rdiv; ring). rewrite Z0 in U, V. rewrite !pow_1 in U, V.
  apply Rabs_le. split.
  - assert (Q : 0 + (0 - 0 * lser n 1 0) <= u ^ S n / INR (S n) + (ln (1 + u) - u * lser n 1 u)); [|lra].
    apply V. intros t Ht. split; [|specialize (B t ltac:(lra)); lra].
    apply (is_derive_plus (K := R_AbsRing) (V := R_NormedModule) (fun t => t ^ S n / INR (S n))); [apply P|apply D; lra].
  - assert (Q : 0 - (0 - 0 * lser n 1 0) <= u ^ S n / INR (S n) - (ln (1 + u) - u * lser n 1 u)); [|lra].
    apply U. intros t Ht. split; [|specialize (B t ltac:(lra)); lra].
    apply (is_derive_minus (K := R_AbsRing) (V := R_NormedModule) (fun t => t ^ S n / INR (S n))); [apply P|apply D; lra].
Qed.

(** ** Evaluating the polynomials of the check *)
Notation T := (IZR gT).
Lemma T_val : T = 1000000. Proof. reflexivity. Qed.
Lemma plog'_eval : forall p n k w, (0 < k)%Z -> (forall j, (0 <= j < Z.of_nat n)%Z -> (k + j | gL)%Z) ->
  peval (plog' p n k) w = IZR gL * peval p w * lser n k (T * w).
Proof.
  intros p n. induction n as [|n IH]; intros k w Hk Hd; [simpl; ring|].
  cbn [plog' lser]. rewrite peval_add, peval_scal. cbn [peval]. rewrite peval_scal, IH; [|lia|].
  - assert (E : IZR (gL / k) = IZR gL * / IZR k).
    { destruct (Hd 0%Z ltac:(lia)) as [c Hc]. rewrite Z.add_0_r in Hc. rewrite Hc, Z.div_mul by lia. rewrite mult_IZR. field.
      apply IZR_neq. lia. }
    rewrite E, opp_IZR. ring.
  - intros j Hj. replace (k + 1 + j)%Z with (k + (1 + j))%Z by ring. apply Hd. lia.
Qed.
Lemma gL_div : forall j, (0 <= j < Z.of_nat 16)%Z -> (1 + j | gL)%Z.
Proof.
  intros j Hj. apply Z.mod_divide; [lia|]. 
  assert (K : forallb (fun j => (gL mod (1 + j) =? 0)%Z) (map Z.of_nat (seq 0 16)) = true) by (vm_compute; reflexivity).
  rewrite forallb_forall in K. apply Z.eqb_eq, K. replace j with (Z.of_nat (Z.to_nat j)) by lia. apply in_map, in_seq. lia.
Qed.
Lemma plog_eval : forall p w, peval (plog p) w = IZR gL * peval p w * (T * w * lser 16 1 (T * w)).
Proof.
  intros p w. unfold plog. cbn [peval]. rewrite peval_scal, plog'_eval; [ring|lia|exact gL_div].
Qed.
Lemma pone_eval : forall w, peval pone w = 1 + T * w.
Proof. intros. unfold pone. cbn [peval]. ring. Qed.
Lemma pones_eval : forall n p w, peval (pones n p) w = (1 + T * w) ^ n * peval p w.
Proof.
  intros n p w. unfold pones. induction n as [|n IH]; [simpl; ring|]. 
  change (Nat.iter (S n) (pmul pone) p) with (pmul pone (Nat.iter n (pmul pone) p)). rewrite peval_mul, IH, pone_eval. simpl pow. ring.
Qed.
Lemma phv_eval : forall l w, 1 + T * w <> 0 -> peval (phv l) w = (1 + T * w) ^ (pred (length l)) * peval l (w / (1 + T * w)).
Proof.
  intros l w Hw. induction l as [|a l IH]; [simpl; ring|]. cbn [phv]. rewrite peval_add, peval_scal, peval_pow, pone_eval.
  cbn [peval length pred]. rewrite IH. destruct l as [|b l]; [simpl; ring|]. cbn [length pred]. simpl pow. field. exact Hw.
Qed.
Lemma pdv_len : pred (length pdv) = 9%nat. Proof. reflexivity. Qed.
Lemma pM_eval : forall w, 0 <= w -> let P := 1 + T * w in
  peval pM w = IZR gL * IZR gV * P ^ 10 *
     (- P * (peval pA w * peval pB w) * (T * w * lser 16 1 (T * w))
      + (peval pA w * peval pB w) * (T * w - 9900511 * T * w ^ 2)
      + T * w ^ 2 * P * (peval (pder pA) w * peval pB w - peval pA w * peval (pder pB) w))
   + IZR gL * T * w ^ 2 * (peval pA w * peval pB w) * (P ^ 11 * peval pdv w - P ^ 9 * peval pdv (w / P)).
Proof.
  intros w Hw P. assert (HP : P <> 0) by (unfold P; rewrite T_val; lra).
  unfold pM. rewrite peval_add, peval_scal. rewrite pones_eval. rewrite !peval_add, !peval_scal. cbn [peval].
  rewrite !peval_mul, plog_eval, peval_add, peval_scal, peval_mul, phv_eval by exact HP. rewrite pdv_len, pone_eval.
  rewrite <- pW_val, <- pAB_val, peval_add, peval_scal, !peval_mul, <- pA_val, <- pB_val. fold P. cbn [peval].
  rewrite !mult_IZR, !opp_IZR. simpl pow. ring.
Qed.
