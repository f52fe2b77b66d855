(** Smooth and continuous integrands under the tabulated Legendre rules. *)
From Coq Require Import Reals Lra Lia List Arith ZArith FunctionalExtensionality.
From Coquelicot Require Import Coquelicot.
From Verif Require Import Arith RInst Machine Param Rules Chebyshev Legendre RSum PolySpec PolyProof Gaussian JacobiWeight Spectral
  MassSpec RuleSpec ErrorSpec Interp GaussErr ErrRules GaussProof SizeProof TransferSpec TransferProof ChebSpec ChebExact ChebRule ErrCheb ErrConv LegInt.
Import ListNotations.
Local Open Scope R_scope.

(** the interpolant at the Chebyshev nodes *)
Lemma chebyshev_interpolant : forall n (F : nat -> R -> R) M, (1 <= n)%nat -> has_derivatives (fun x => -1 <= x <= 1) (2 * n) F ->
  (forall x, -1 <= x <= 1 -> Rabs (F (2 * n)%nat x) <= M) ->
  exists p, polynomial (2 * n - 1) p /\ forall x, -1 <= x <= 1 -> Rabs (F O x - p x) <= M / INR (fact (2 * n)) * (4 / 4 ^ n).
Proof.
  intros n F M Hn HF HM. set (t := {| build_mode := Debug; usize_max := Z.of_nat n + 1 |}).
  assert (Ht : (1 <= Z.of_nat n < usize_max t)%Z) by (simpl; lia).
  destruct (@chebyshev1_new_ok RA t (Z.of_nat n) ltac:(lia)) as (r & Hr & _).
  destruct (cheb1_shape t _ r Ht Hr) as (As & _ & In_ & _). assert (Pr := cheb1_pairs t _ r Ht Hr). rewrite Nat2Z.id in Pr.
  assert (Nd := ascending_nodup _ As). rewrite Forall_forall in In_.
  assert (L : length (chebyshev1_pairs r) = n) by (rewrite Pr, rev_length, map_length, seq_length; reflexivity).
  destruct (interp_error (fun x => -1 <= x <= 1) ltac:(intros; lra) n (node (chebyshev1_pairs r)) F M Hn) as (p & Hp & _ & B).
  - intros i j Hi Hj Hij. apply node_inj; [exact Nd|exact (eq_ind_r (fun k => (i < k)%nat) Hi L)|exact (eq_ind_r (fun k => (j < k)%nat) Hj L)|exact Hij].
  - intros i Hi. assert (I := node_in (chebyshev1_pairs r) i (eq_ind_r (fun k => (i < k)%nat) Hi L)). apply in_map_iff in I. destruct I as (q & <- & Iq). apply In_ in Iq. lra.
  - exact HF.
  - exact HM.
  - exists p. split; [exact Hp|]. intros x Hx. eapply Rle_trans; [apply B, Hx|].
    assert (M0 : 0 <= M) by (eapply Rle_trans; [apply Rabs_pos|apply (HM x Hx)]).
    apply Rmult_le_compat_l; [apply Rmult_le_pos; [exact M0|apply Rlt_le, Rinv_0_lt_compat, INR_fact_lt_0]|].
    destruct n as [|k]; [lia|].
    assert (Er : forall x, rprod (S k) (node (chebyshev1_pairs r)) x = / 2 ^ k * ch 1 (S k) x).
    { apply node_poly; [exact Nd|exact L| |].
      - apply (poly_ext k (fun x => / 2 ^ k * (ch 1 (S k) x - 1 * 2 ^ k * x ^ S k))); [intros; field; apply inv_pow_neq|].
        apply poly_scal, ch_lead.
      - intros y Hy. rewrite Pr in Hy. apply in_map_iff in Hy. destruct Hy as (q & <- & Iq). apply in_rev, in_map_iff in Iq.
        destruct Iq as (i & <- & Ii). unfold pair1. cbn [fst]. rewrite T_node by lia. ring. }
    rewrite Er. assert (T : Rabs (ch 1 (S k) x) <= 1).
    { rewrite <- (cos_acos x) by lra. rewrite T_cos. apply Rabs_le, COS_bound. }
    replace (4 / 4 ^ S k) with (/ 2 ^ k * / 2 ^ k * 1).
    + replace (/ 2 ^ k * ch 1 (S k) x * (/ 2 ^ k * ch 1 (S k) x)) with (/ 2 ^ k * / 2 ^ k * (ch 1 (S k) x * ch 1 (S k) x)) by ring.
      apply Rmult_le_compat_l.
      * assert (0 < / 2 ^ k) by (apply Rinv_0_lt_compat, pow_lt; lra). nra.
      * set (u := ch 1 (S k) x) in *. apply Rabs_le_between in T. nra.
    + rewrite <- tech_pow_Rmult. replace 4 with (2 * 2) by ring. rewrite Rpow_mult_distr. field. apply inv_pow_neq.
Qed.
Lemma poly_to_unit : forall d p a b, a <> b -> polynomial d p -> polynomial d (fun x => p (to_unit a b x)).
Proof.
  intros d p a b E Hp. apply (poly_ext d (fun x => p (2 / (b - a) * x + (- (2 * a) / (b - a) - 1)))); [intros x; rewrite to_unit_lin by exact E; reflexivity|].
  apply (poly_affine d p). exact Hp.
Qed.
Lemma to_unit_closed : forall a b x, a <> b -> closed_between a b x -> -1 <= to_unit a b x <= 1.
Proof.
  intros a b x E H. unfold to_unit. destruct (Rtotal_order a b) as [L|[L|L]]; [|contradiction|].
  - unfold closed_between in H. rewrite Rmin_left, Rmax_right in H by lra.
    assert (0 <= (x - a) / (b - a) <= 1).
    { split; [apply Rmult_le_pos; [lra|apply Rlt_le, Rinv_0_lt_compat; lra]|]. apply (Rmult_le_reg_r (b - a)); [lra|]. unfold Rdiv. rewrite Rmult_assoc, Rinv_l by lra. lra. }
    replace (2 * (x - a) / (b - a)) with (2 * ((x - a) / (b - a))) by (field; lra). lra.
  - unfold closed_between in H. rewrite Rmin_right, Rmax_left in H by lra.
    assert (0 <= (a - x) / (a - b) <= 1).
    { split; [apply Rmult_le_pos; [lra|apply Rlt_le, Rinv_0_lt_compat; lra]|]. apply (Rmult_le_reg_r (a - b)); [lra|]. unfold Rdiv. rewrite Rmult_assoc, Rinv_l by lra. lra. }
    replace (2 * (x - a) / (b - a)) with (2 * ((a - x) / (a - b))) by (field; lra). lra.
Qed.
Section N.
Variables (t : Target) (n : nat) (r : GaussLegendre RA).
Hypothesis Hu : (100 <= usize_max t)%Z.
Hypothesis Hn : (1 <= n <= 100)%nat.
Hypothesis H2n : (2 * Z.of_nat n <= usize_max t)%Z.
Hypothesis Hr : legendre_new t (Z.of_nat n) = Ok r.
Lemma pulled_any : forall a b (f p : R -> R) M E, a <> b -> polynomial (2 * n - 1) p -> ex_RInt f a b ->
  (forall x, closed_between a b x -> Rabs (f x) <= M) -> (forall x, -1 <= x <= 1 -> Rabs (pulled a b f x - p x) <= E) ->
  Rabs (legendre_value r a b f - RInt f a b) <= (3 / 10 ^ 14 * M + 5 * E) * (Rabs (b - a) / 2).
Proof.
  intros a b f p M E Nab Hp Hf HM HE.
  apply (value_any t n r Hu Hn H2n Hr a b f (fun x => p (to_unit a b x)) M E); [apply poly_to_unit; assumption|exact Hf|exact HM|].
  intros x Hx. rewrite <- (pulled_back a b f x Nab). apply HE, to_unit_closed; assumption.
Qed.
Theorem legendre_modulus : forall a b f M delta omega, a <> b -> ex_RInt f a b -> (forall x, closed_between a b x -> Rabs (f x) <= M) ->
  0 < delta -> oscillation a b f delta omega ->
  Rabs (legendre_value r a b f - RInt f a b) <=
    (3 / 10 ^ 14 * M + 5 * ((1 + (b - a) * (b - a) / (4 * INR (2 * n - 1) * (delta * delta))) * omega)) * (Rabs (b - a) / 2).
Proof.
  intros a b f M de om E Hf HM Hde Ho.
  destruct (interval_bernstein a b f de om (2 * n - 1) E ltac:(lia) Hde Ho) as (p & Hp & B).
  apply (pulled_any a b f p); assumption.
Qed.
Theorem legendre_error : forall a b (F : nat -> R -> R) M0 M, a <> b -> has_derivatives (closed_between a b) (2 * n) F ->
  (forall x, closed_between a b x -> Rabs (F O x) <= M0) -> (forall x, closed_between a b x -> Rabs (F (2 * n)%nat x) <= M) ->
  Rabs (legendre_value r a b (F O) - RInt (F O) a b) <=
    (3 / 10 ^ 14 * M0 + 20 * M * (Rabs (b - a) / 4) ^ (2 * n) / INR (fact (2 * n))) * (Rabs (b - a) / 2).
Proof.
  intros a b F M0 M E HF H0 HM. set (h := (b - a) / 2).
  destruct (chebyshev_interpolant n (fun i x => h ^ i * pulled a b (F i) x) (M * Rabs h ^ (2 * n)) ltac:(lia)) as (p & Hp & B).
  - intros i x Hi Hx. unfold pulled. fold h.
    apply (is_derive_val _ _ (h ^ i * (h * F (S i) (h * x + (a + b) / 2)))); [simpl; ring|].
    apply (is_derive_scal (fun x => F i (h * x + (a + b) / 2))).
    apply (is_derive_comp (F i) (fun x => h * x + (a + b) / 2) x).
    + apply HF; [exact Hi|]. apply closed_pull, Hx.
    + auto_derive; [exact I|]. ring.
  - intros x Hx. rewrite Rabs_mult, RPow_abs, Rmult_comm. apply Rmult_le_compat_r; [apply Rabs_pos|]. apply HM, closed_pull, Hx.
  - assert (Fi : ex_RInt (F O) a b).
    { apply (ex_RInt_continuous (V := R_CompleteNormedModule)). intros x Hx. apply (ex_derive_continuous (V := R_NormedModule)).
      exists (F 1%nat x). apply HF; [lia|exact Hx]. }
    assert (P := pulled_any a b (F O) p M0 (M * Rabs h ^ (2 * n) / INR (fact (2 * n)) * (4 / 4 ^ n)) E Hp Fi H0).
    eapply Rle_trans; [apply P|].
    + intros x Hx. assert (Bx := B x Hx). simpl (h ^ 0) in Bx. rewrite Rmult_1_l in Bx. exact Bx.
    + right. f_equal. f_equal.
      replace (Rabs (b - a) / 4) with (Rabs h * / 2) by (unfold h, Rdiv; rewrite Rabs_mult, (Rabs_right (/ 2)) by lra; field).
      rewrite Rpow_mult_distr. rewrite (pow_mult (/ 2) 2 n). replace ((/ 2) ^ 2) with (/ 4) by (simpl; field). rewrite <- Rinv_pow by lra.
      assert (Q : 4 ^ n <> 0) by (apply pow_nonzero; lra). assert (K := INR_fact_neq_0 (2 * n)).
      set (z := Rabs h ^ (2 * n)). set (u := 4 ^ n) in *. set (k := INR (fact (2 * n))) in *. clearbody z u k. field. split; assumption.
Qed.
End N.
