(** Euler's gamma integral: functional equation and growth. *)
From Coq Require Import Reals Lra Lia List ZArith FunctionalExtensionality.
From Coquelicot Require Import Coquelicot.
From Verif Require Import Arith RInst WeightSpec PolySpec PolyProof Improper ImproperExist LaguerreWeight GaussExact.
Local Open Scope R_scope.

Definition Gam (x : R) : R := laguerre_L (x - 1) (fun _ => 1).

Lemma Gam_is : forall x, 0 < x -> is_Gamma x (Gam x).
Proof.
  intros x Hx. destruct (gamma_exists (x - 1) ltac:(lra)) as (G & _ & HG). 
  assert (E := gamma_mass (x - 1) G ltac:(lra) HG). unfold Gam. rewrite <- E.
  replace (x - 1 + 1) with x in HG by ring. exact HG.
Qed.
Lemma Gam_eq : forall x G, 0 < x -> is_Gamma x G -> G = Gam x.
Proof. intros x G Hx HG. unfold Gam. apply (gamma_mass (x - 1)); [lra|]. replace (x - 1 + 1) with x by ring. exact HG. Qed.
Lemma Gam_pos : forall x, 0 < x -> 0 < Gam x.
Proof. intros x Hx. unfold Gam. apply (laguerre_one_pos (x - 1)). lra. Qed.
Lemma Gam_has : forall x, 0 < x -> laguerre_has (fun t => Rpower t (x - 1) * exp (- t)) (Gam x).
Proof.
  intros x Hx. destruct (lagw_mass (x - 1) ltac:(lra)) as [I HI].
  replace (Gam x) with I; [exact HI|]. symmetry. unfold Gam.
  apply (wint_val halfline _ _ half_convex half_a half_b (lagw (x - 1)) (lagw_cont (x - 1)) 0 (fun _ => 1)); [apply poly_const|].
  apply (has_int_ext _ _ _ (lagw (x - 1))); [intros; ring|exact HI].
Qed.
Lemma Gam_val : forall x I, 0 < x -> laguerre_has (fun t => Rpower t (x - 1) * exp (- t)) I -> I = Gam x.
Proof.
  intros x I Hx HI. symmetry. unfold Gam.
  apply (wint_val halfline _ _ half_convex half_a half_b (lagw (x - 1)) (lagw_cont (x - 1)) 0 (fun _ => 1)); [apply poly_const|].
  apply (has_int_ext _ _ _ (lagw (x - 1))); [intros; ring|exact HI].
Qed.
Lemma Rpower_step : forall t a, 0 < t -> Rpower t (a + 1) = t * Rpower t a.
Proof. intros t a Ht. rewrite Rpower_plus, Rpower_1 by exact Ht. ring. Qed.
Lemma Gam_S : forall x, 0 < x -> Gam (x + 1) = x * Gam x.
Proof.
  intros x Hx. symmetry. apply Gam_val; [lra|].
  assert (H2 : laguerre_has (fun t => (x - t) * lagw (x - 1) t) (0 - 0)).
  { apply (has_int_derive _ _ _ (fun t => t * lagw (x - 1) t)).
    - intros t Ht. replace (x - t) with (x - 1 + 1 - t) by ring. apply (lagw_pearson (x - 1) t Ht).
    - assert (L := lagw_bound_a (x - 1) ltac:(lra) 0). revert L. apply filterlim_ext. intros t. simpl. ring.
    - assert (L := lagw_bound_b (x - 1) 0). revert L. apply filterlim_ext. intros t. simpl. ring. }
  replace (x * Gam x) with (-1 * (0 - 0) + x * Gam x) by ring.
  apply (has_int_ext _ _ _ (fun t => -1 * ((x - t) * lagw (x - 1) t) + x * (Rpower t (x - 1) * exp (- t)))).
  - intros t Ht. unfold lagw. replace (x + 1 - 1) with (x - 1 + 1) by ring. rewrite Rpower_step by exact Ht. ring.
  - apply (has_int_lin _ _ _ (-1) x); [exact H2|apply Gam_has, Hx].
Qed.
Lemma Gam_1 : Gam 1 = 1.
Proof.
  symmetry. apply Gam_val; [lra|]. 
  assert (H : laguerre_has (fun t => exp (- t)) (0 - -1)).
  { apply (has_int_derive _ _ _ (fun t => - exp (- t))).
    - intros t _. auto_derive; [trivial|]. ring.
    - replace (-1) with (- exp (- 0)) by (rewrite Ropp_0, exp_0; ring).
      apply (cont_right (fun x => - exp (- x)) 0). apply (ex_derive_continuous (V := R_NormedModule)). auto_derive. trivial.
    - assert (L := Rpower_exp_lim 0).
      apply (lim_ext_D (Rbar_locally p_infty) halfline (fun x => -1 * (Rpower x 0 * exp (- x))) _ 0 half_b).
      + intros x Hx. rewrite Rpower_O by exact Hx. ring.
      + assert (L2 : filterlim (fun x => -1 * (Rpower x 0 * exp (- x))) (Rbar_locally p_infty) (locally (-1 * 0))) by (apply lim_scal; [apply filter_filter|exact L]).
        rewrite Rmult_0_r in L2. exact L2. }
  replace 1 with (0 - -1) by ring.
  apply (has_int_ext _ _ _ (fun t => exp (- t))); [|exact H].
  intros t Ht. match goal with |- _ = Rpower t ?e * _ => replace e with 0 by ring end. rewrite Rpower_O by exact Ht. ring.
Qed.

Lemma int_nonneg : forall f I, (forall t, 0 < t -> 0 <= f t) -> (forall t, 0 < t -> continuous f t) -> laguerre_has f I -> 0 <= I.
Proof.
  intros f I Hf Cf HI. apply Rnot_lt_le. intros N.
  assert (P : forall d, 0 < d -> 0 < 1 * I + d * Gam 1).
  { intros d Hd. 
    apply (int_pos halfline _ _ half_convex half_open half_cof_a half_cof_b (fun t => 1 * f t + d * (Rpower t (1 - 1) * exp (- t))) _ 1).
    - unfold halfline; lra.
    - intros t Ht. assert (0 < Rpower t (1 - 1) * exp (- t)) by (apply Rmult_lt_0_compat; apply exp_pos).
      assert (0 < d * (Rpower t (1 - 1) * exp (- t))) by (apply Rmult_lt_0_compat; assumption). specialize (Hf t Ht). lra.
    - intros t Ht. apply (continuous_plus (V := R_NormedModule) (fun t => 1 * f t) (fun t => d * (Rpower t (1 - 1) * exp (- t)))).
      + apply (continuous_ext f); [intros; rewrite Rmult_1_l; reflexivity|apply Cf, Ht].
      + apply (ex_derive_continuous (V := R_NormedModule)). unfold Rpower. auto_derive. exact Ht.
    - assert (0 < Rpower 1 (1 - 1) * exp (Ropp 1)) by (apply Rmult_lt_0_compat; apply exp_pos).
      assert (0 < d * (Rpower 1 (1 - 1) * exp (Ropp 1))) by (apply Rmult_lt_0_compat; assumption). specialize (Hf 1 Rlt_0_1). lra.
    - apply (has_int_lin _ _ _ 1 d); [exact HI|apply Gam_has; lra]. }
  specialize (P (- I / 2) ltac:(lra)). rewrite Gam_1 in P. lra.
Qed.

(** Young's inequality for the weights *)
Lemma young : forall t c s, 0 < t -> 0 < c -> 0 <= s <= 1 -> Rpower t s <= Rpower c s * (1 - s + s * (t / c)).
Proof.
  intros t c s Ht Hc Hs. 
  assert (Hq : 0 < t / c) by (apply Rdiv_lt_0_compat; assumption).
  replace t with (c * (t / c)) at 1 by (field; lra). rewrite <- Rpower_mult_distr by assumption.
  apply Rmult_le_compat_l; [left; apply exp_pos|]. set (q := t / c) in *.
  (* q^s <= 1 - s + s q by concavity: compare tangent of exp *)
  set (m := 1 - s + s * q). assert (Hm : 0 < m) by (unfold m; nra).
  unfold Rpower.
  assert (E1 : s * (ln q - ln m) + (1 - s) * (0 - ln m) <= 0).
  { assert (L : forall u v, 0 < u -> 0 < v -> ln u - ln v <= u / v - 1).
    { intros u v Hu Hv. rewrite <- ln_div by assumption. 
      assert (Huv : 0 < u / v) by (apply Rdiv_lt_0_compat; assumption).
      apply Rle_trans with (ln (exp (u / v - 1))); [|rewrite ln_exp; lra]. apply ln_le; [exact Huv|].
      assert (X := exp_ineq1_le (u / v - 1)). lra. }
    assert (A := L q m Hq Hm). assert (B := L 1 m Rlt_0_1 Hm). rewrite ln_1 in B.
    apply Rle_trans with (s * (q / m - 1) + (1 - s) * (1 / m - 1)).
    - apply Rplus_le_compat; apply Rmult_le_compat_l; lra.
    - right. replace (s * (q / m - 1) + (1 - s) * (1 / m - 1)) with ((1 - s + s * q - m) / m) by (field; lra).
      unfold m, Rdiv. ring. }
  rewrite <- (exp_ln m Hm). destruct (Req_dec (s * ln q) (ln m)) as [->|Ne]; [lra|]. left. apply exp_increasing. lra.
Qed.
Lemma Gam_young : forall u s, 0 < u -> 0 <= s <= 1 -> Gam (u + s) <= Rpower u s * Gam u.
Proof.
  intros u s Hu Hs.
  set (c := Rpower u s).
  assert (H : laguerre_has (fun t => (c * (1 - s)) * (Rpower t (u - 1) * exp (- t)) + (c * s / u) * (Rpower t (u + 1 - 1) * exp (- t)))
     (c * (1 - s) * Gam u + c * s / u * Gam (u + 1))) by (apply (has_int_lin _ _ _ (c * (1 - s)) (c * s / u)); apply Gam_has; lra).
  assert (H2 := has_int_lin _ _ _ 1 (-1) _ _ _ _ H (Gam_has (u + s) ltac:(lra))).
  apply int_nonneg in H2.
  - rewrite Gam_S in H2 by exact Hu. 
    assert (E : c * (1 - s) * Gam u + c * s / u * (u * Gam u) = c * Gam u) by (field; lra). rewrite E in H2. lra.
  - intros t Ht. replace (u + 1 - 1) with (u - 1 + 1) by ring. rewrite Rpower_step by exact Ht.
    replace (u + s - 1) with (u - 1 + s) by ring. rewrite Rpower_plus.
    assert (Y := young t u s Ht Hu Hs). fold c in Y.
    assert (W : 0 < Rpower t (u - 1) * exp (- t)) by (apply Rmult_lt_0_compat; apply exp_pos).
    replace (1 * (c * (1 - s) * (Rpower t (u - 1) * exp (- t)) + c * s / u * (t * Rpower t (u - 1) * exp (- t))) + -1 * (Rpower t (u - 1) * Rpower t s * exp (- t)))
      with ((Rpower t (u - 1) * exp (- t)) * (c * (1 - s + s * (t / u)) - Rpower t s)) by (field; lra).
    apply Rmult_le_pos; lra.
  - intros t Ht. apply (ex_derive_continuous (V := R_NormedModule)). unfold Rpower. auto_derive. auto.
Qed.
(** the two-sided form used for limits *)
Lemma Gam_growth : forall u s, 0 < u -> 0 <= s <= 1 ->
  s * ln u - (1 - s) * (ln (u + s) - ln u) <= ln (Gam (u + s)) - ln (Gam u) <= s * ln u.
Proof.
  intros u s Hu Hs. assert (P := Gam_pos u Hu). assert (P2 := Gam_pos (u + s) ltac:(lra)).
  assert (E : forall a b, 0 < a -> ln (Rpower a b) = b * ln a) by (intros; unfold Rpower; apply ln_exp).
  split.
  - assert (Y := Gam_young (u + s) (1 - s) ltac:(lra) ltac:(lra)). replace (u + s + (1 - s)) with (u + 1) in Y by ring.
    rewrite Gam_S in Y by exact Hu. apply ln_le in Y; [|apply Rmult_lt_0_compat; assumption].
    rewrite !ln_mult, E in Y by (try assumption; try apply exp_pos; lra). lra.
  - assert (Y := Gam_young u s Hu Hs). apply ln_le in Y; [|exact P2].
    rewrite ln_mult, E in Y by (try assumption; apply exp_pos). lra.
Qed.
