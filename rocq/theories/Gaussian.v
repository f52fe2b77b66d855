(** The Gaussian integral and the Hermite weight. *)
From Coq Require Import Reals Lra Lia.
From Coquelicot Require Import Coquelicot.
From Verif Require Import RSum PolySpec PolyProof EigenSpec EigenProof Improper ImproperExist OrthoProof.
Local Open Scope R_scope.

Lemma is_derive_val : forall (f : R -> R) (x l l' : R), l = l' -> is_derive f x l -> is_derive f x l'.
Proof. intros; subst; assumption. Qed.

Definition gauss (x : R) : R := exp (- (x * x)).
Lemma gauss_der : forall x, is_derive gauss x (- (2 * x) * gauss x).
Proof. intros x. unfold gauss. auto_derive; [trivial|ring]. Qed.
Lemma gauss_cont : forall x, continuous gauss x.
Proof. intros x. apply (ex_derive_continuous (V := R_NormedModule)). exists (- (2 * x) * gauss x). apply gauss_der. Qed.
Lemma gauss_ex : forall a b, ex_RInt gauss a b.
Proof. intros. apply (ex_RInt_continuous (V := R_CompleteNormedModule)). intros; apply gauss_cont. Qed.

Definition gauss_int (t : R) : R := RInt gauss 0 t.
Lemma gauss_int_der : forall t, is_derive gauss_int t (gauss t).
Proof.
  intros t. apply (is_derive_RInt gauss gauss_int 0 t); [|apply gauss_cont].
  apply filter_forall. intros y. apply (RInt_correct (V := R_CompleteNormedModule)), gauss_ex.
Qed.

Definition ker (t v : R) : R := exp (- (t * t * (1 + v * v))) / (1 + v * v).
Lemma v_pos : forall v, 1 + v * v <> 0.
Proof. intros v. nra. Qed.
Lemma ker_der : forall v t, is_derive (fun u => ker u v) t (-2 * t * exp (- (t * t * (1 + v * v)))).
Proof. intros v t. assert (N := v_pos v). unfold ker. auto_derive; [trivial|]. field. exact N. Qed.
Lemma ker_cont : forall t v, continuous (ker t) v.
Proof.
  intros t v. apply (ex_derive_continuous (V := R_NormedModule)). unfold ker.
  assert (N := v_pos v). auto_derive. exact N.
Qed.
Lemma ker_ex : forall t a b, ex_RInt (ker t) a b.
Proof. intros. apply (ex_RInt_continuous (V := R_CompleteNormedModule)). intros; apply ker_cont. Qed.

Lemma gauss_scale : forall t, RInt (fun v => t * exp (- (t * v * (t * v)))) 0 1 = gauss_int t.
Proof.
  intros t. transitivity (RInt (fun v => scal t (gauss (t * v + 0))) 0 1).
  - apply RInt_ext. intros x _. unfold gauss, scal, mult; simpl. unfold mult; simpl. f_equal. f_equal. ring.
  - refine (eq_trans (RInt_comp_lin (V := R_CompleteNormedModule) gauss t 0 0 1 _) _); [apply gauss_ex|].
    unfold gauss_int. f_equal; ring.
Qed.

Lemma ker_int_der : forall t, is_derive (fun t => RInt (ker t) 0 1) t (-2 * gauss t * gauss_int t).
Proof.
  intros t.
  assert (E : RInt (fun v => Derive (fun u => ker u v) t) 0 1 = -2 * gauss t * gauss_int t).
  { transitivity (RInt (fun v => scal (-2 * gauss t) (t * exp (- (t * v * (t * v))))) 0 1).
    - apply RInt_ext. intros v _. refine (eq_trans (is_derive_unique _ _ _ (ker_der v t)) _).
      unfold gauss, scal; simpl. unfold mult; simpl.
      replace (- (t * t * (1 + v * v))) with (- (t * t) + - (t * v * (t * v))) by ring. rewrite exp_plus. ring.
    - refine (eq_trans (RInt_scal (V := R_CompleteNormedModule) _ 0 1 (-2 * gauss t) _) _).
      2:{ rewrite gauss_scale. reflexivity. }
      apply (ex_RInt_continuous (V := R_CompleteNormedModule)). intros z _. apply (ex_derive_continuous (V := R_NormedModule)). auto_derive. trivial. }
  rewrite <- E. apply (is_derive_RInt_param ker 0 1 t).
  - apply filter_forall. intros y v _. exists (-2 * y * exp (- (y * y * (1 + v * v)))). apply ker_der.
  - intros v _.
    apply (continuity_2d_pt_ext (fun u v => -2 * u * exp (- (u * u * (1 + v * v))))).
    { intros u w. symmetry. apply is_derive_unique, ker_der. }
    apply continuity_2d_pt_mult.
    + apply continuity_2d_pt_mult; [apply continuity_2d_pt_const|apply continuity_2d_pt_id1].
    + apply (continuity_1d_2d_pt_comp exp (fun u v => - (u * u * (1 + v * v)))).
      * apply derivable_continuous_pt, derivable_pt_exp.
      * apply continuity_2d_pt_opp. apply continuity_2d_pt_mult.
        -- apply continuity_2d_pt_mult; apply continuity_2d_pt_id1.
        -- apply continuity_2d_pt_plus; [apply continuity_2d_pt_const|]. apply continuity_2d_pt_mult; apply continuity_2d_pt_id2.
  - apply filter_forall. intros y. apply ker_ex.
Qed.

Lemma gauss_square : forall t, gauss_int t * gauss_int t + RInt (ker t) 0 1 = PI / 4.
Proof.
  intros t. set (g := fun t => gauss_int t * gauss_int t + RInt (ker t) 0 1).
  assert (Dg : forall t, is_derive g t 0).
  { intros u. apply (is_derive_val g u ((gauss u * gauss_int u + gauss_int u * gauss u) + (-2 * gauss u * gauss_int u))); [ring|].
    apply (is_derive_plus (K := R_AbsRing) (V := R_NormedModule) (fun t => gauss_int t * gauss_int t) (fun t => RInt (ker t) 0 1)); [|apply ker_int_der].
    apply (is_derive_mult gauss_int gauss_int u (gauss u) (gauss u)); [apply gauss_int_der|apply gauss_int_der|intros; apply Rmult_comm]. }
  assert (C : g t = g 0).
  { destruct (MVT_gen g 0 t (fun _ => 0)) as (z & _ & E); [intros; apply Dg| |lra].
    intros x _. apply continuity_pt_filterlim. apply (ex_derive_continuous (V := R_NormedModule) g x). exists 0. apply Dg. }
  fold (g t). rewrite C. unfold g. unfold gauss_int. rewrite RInt_point.
  change (0 * 0 + RInt (ker 0) 0 1 = PI / 4). rewrite Rmult_0_l, Rplus_0_l.
  apply is_RInt_unique. replace (PI / 4) with (atan 1 - atan 0) by (rewrite atan_0, atan_1; lra).
  apply (is_RInt_ext (fun v => / (1 + v²))).
  { intros v _. unfold ker. replace (- (0 * 0 * (1 + v * v))) with 0 by ring. rewrite exp_0. unfold Rsqr, Rdiv. symmetry. apply Rmult_1_l. }
  apply (is_RInt_derive (V := R_CompleteNormedModule) atan (fun v => / (1 + v²))).
  - intros x _. apply is_derive_Reals. assert (H := derivable_pt_lim_atan x). unfold Rdiv in H. rewrite ?Rmult_1_l in H. rewrite Rsqr_pow2. exact H.
  - intros x _. apply (ex_derive_continuous (V := R_NormedModule)). unfold Rsqr. auto_derive. apply v_pos.
Qed.

Lemma gauss_int_nonneg : forall t, 0 <= t -> 0 <= gauss_int t.
Proof. intros t Ht. apply RInt_ge_0; [exact Ht|apply gauss_ex|]. intros. left. apply exp_pos. Qed.
Lemma ker_bound : forall t, 0 <= RInt (ker t) 0 1 <= gauss t.
Proof.
  intros t. split.
  - apply RInt_ge_0; [lra|apply ker_ex|]. intros v _. unfold ker. left. apply Rdiv_lt_0_compat; [apply exp_pos|nra].
  - replace (gauss t) with (RInt (fun _ => gauss t) 0 1).
    + apply RInt_le; [lra|apply ker_ex|apply ex_RInt_const|]. intros v Hv. unfold ker, gauss.
      apply Rle_trans with (exp (- (t * t * (1 + v * v)))).
      * apply Rmult_le_reg_r with (1 + v * v); [nra|]. unfold Rdiv. rewrite Rmult_assoc, Rinv_l, Rmult_1_r by apply v_pos.
        assert (E := exp_pos (- (t * t * (1 + v * v)))). assert (0 <= v * v) by nra. nra.
      * destruct (Req_dec (t * t * (1 + v * v)) (t * t)) as [->|N]; [lra|]. left. apply exp_increasing. nra.
    + rewrite RInt_const. unfold scal; simpl. unfold mult; simpl. ring.
Qed.

Lemma gauss_lim0 : filterlim gauss (Rbar_locally p_infty) (locally 0).
Proof.
  apply (filterlim_comp R R R (fun x => - (x * x)) exp (Rbar_locally p_infty) (Rbar_locally m_infty) (locally 0)); [|exact is_lim_exp_m].
  intros Q [M HM]. exists (Rmax 1 (- M)). intros x Hx. apply HM.
  assert (1 < x) by (eapply Rle_lt_trans; [apply Rmax_l|exact Hx]). assert (- M < x) by (eapply Rle_lt_trans; [apply Rmax_r|exact Hx]). nra.
Qed.
Lemma ker_lim0 : filterlim (fun t => RInt (ker t) 0 1) (Rbar_locally p_infty) (locally 0).
Proof.
  apply (filterlim_le_le (fun _ => 0) (fun t => RInt (ker t) 0 1) gauss 0).
  - apply filter_forall. apply ker_bound.
  - apply filterlim_const.
  - exact gauss_lim0.
Qed.
Lemma gauss_int_lim : filterlim gauss_int (Rbar_locally p_infty) (locally (sqrt PI / 2)).
Proof.
  apply (filterlim_ext_loc (fun t => sqrt (PI / 4 - RInt (ker t) 0 1))).
  - exists 0. intros t Ht. rewrite <- (sqrt_square (gauss_int t)) by (apply gauss_int_nonneg; lra).
    f_equal. rewrite <- (gauss_square t). ring.
  - replace (sqrt PI / 2) with (sqrt (PI / 4 - 0)).
    + apply (filterlim_comp R R R (fun t => PI / 4 - RInt (ker t) 0 1) sqrt (Rbar_locally p_infty) (locally (PI / 4 - 0))).
      * apply (lim_plus (Rbar_locally p_infty) (fun _ => PI / 4) (fun t => - RInt (ker t) 0 1) (PI / 4) (- 0)).
        -- apply filterlim_const.
        -- apply (filterlim_comp R R R (fun t => RInt (ker t) 0 1) Ropp (Rbar_locally p_infty) (locally 0)); [exact ker_lim0|].
           apply (filterlim_opp (V := R_NormedModule) 0).
      * apply continuity_pt_filterlim. apply continuity_pt_sqrt. assert (H := PI_RGT_0). lra.
    + rewrite Rminus_0_r, sqrt_div_alt by lra. replace 4 with (2 * 2) by ring. rewrite sqrt_square by lra. reflexivity.
Qed.
Lemma gauss_int_odd : forall t, gauss_int (- t) = - gauss_int t.
Proof.
  intros t. rewrite <- (gauss_scale (-t)), <- (gauss_scale t).
  transitivity (RInt (fun v => opp (t * exp (- (t * v * (t * v))))) 0 1).
  - apply RInt_ext. intros v _. unfold opp; simpl. replace (- t * v * (- t * v)) with (t * v * (t * v)) by ring. ring.
  - refine (RInt_opp (V := R_CompleteNormedModule) _ 0 1 _). apply (ex_RInt_continuous (V := R_CompleteNormedModule)). intros z _.
    apply (ex_derive_continuous (V := R_NormedModule)). auto_derive. trivial.
Qed.
Lemma lim_neg : forall (f : R -> R) (l : R), filterlim f (Rbar_locally p_infty) (locally l) ->
  filterlim (fun x => f (- x)) (Rbar_locally m_infty) (locally l).
Proof.
  intros f l H. apply (filterlim_comp R R R Ropp f (Rbar_locally m_infty) (Rbar_locally p_infty)); [|exact H].
  intros Q [M HM]. exists (- M). intros x Hx. apply HM. lra.
Qed.

Definition whole (x : R) : Prop := True.
Lemma whole_convex : forall u v x, whole u -> whole v -> Rmin u v <= x <= Rmax u v -> whole x.
Proof. intros; exact I. Qed.
Lemma whole_a : Rbar_locally m_infty whole.
Proof. exists 0. intros; exact I. Qed.
Lemma whole_b : Rbar_locally p_infty whole.
Proof. exists 0. intros; exact I. Qed.

Definition hermite_has := has_int whole (Rbar_locally m_infty) (Rbar_locally p_infty).
Lemma hermite_mass : hermite_has gauss (sqrt PI).
Proof.
  exists gauss_int, (- (sqrt PI / 2)), (sqrt PI / 2). split; [|split; [|split]].
  - intros x _. apply gauss_int_der.
  - apply (lim_ext (Rbar_locally m_infty) (fun x => - gauss_int (- x)) _ (- (sqrt PI / 2)) (- (sqrt PI / 2))); [|reflexivity|].
    + intros x. rewrite gauss_int_odd. ring.
    + apply (filterlim_comp R R R (fun x => gauss_int (- x)) Ropp (Rbar_locally m_infty) (locally (sqrt PI / 2))).
      * apply lim_neg, gauss_int_lim.
      * apply (filterlim_opp (V := R_NormedModule) (sqrt PI / 2)).
  - exact gauss_int_lim.
  - field.
Qed.

(** x^k exp(-x^2) vanishes at infinity *)
Lemma pow_exp_lim : forall k, filterlim (fun x => gauss x * x ^ k) (Rbar_locally p_infty) (locally 0).
Proof.
  intros k. apply (filterlim_ext_loc (fun x => exp (x * (INR k * (ln x / x) - x)))).
  - exists 0. intros x Hx. unfold gauss. rewrite <- (exp_ln (x ^ k)) by (apply pow_lt; exact Hx).
    rewrite <- exp_plus. f_equal. rewrite ln_pow by exact Hx. field. lra.
  - apply (filterlim_comp R R R (fun x => x * (INR k * (ln x / x) - x)) exp (Rbar_locally p_infty) (Rbar_locally m_infty) (locally 0)); [|exact is_lim_exp_m].
    assert (L : filterlim (fun x => INR k * (ln x / x)) (Rbar_locally p_infty) (locally (INR k * 0))).
    { apply lim_scal; [apply filter_filter|]. exact is_lim_div_ln_p. }
    rewrite Rmult_0_r in L. intros Q [M HM].
    assert (L1 : Rbar_locally p_infty (fun x => INR k * (ln x / x) < 1)).
    { apply (L (fun y => y < 1)). exists (mkposreal 1 Rlt_0_1). intros y Hy. change (Rabs (y - 0) < 1) in Hy. apply Rabs_def2 in Hy. lra. }
    destruct L1 as [N HN]. exists (Rmax N (Rmax 2 (- M))). intros x Hx. apply HM.
    assert (N < x) by (eapply Rle_lt_trans; [apply Rmax_l|exact Hx]).
    assert (2 < x) by (eapply Rle_lt_trans; [|exact Hx]; eapply Rle_trans; [apply Rmax_l|apply Rmax_r]).
    assert (- M < x) by (eapply Rle_lt_trans; [|exact Hx]; eapply Rle_trans; [apply Rmax_r|apply Rmax_r]).
    specialize (HN x H). nra.
Qed.
Lemma pow_exp_lim_m : forall k, filterlim (fun x => gauss x * x ^ k) (Rbar_locally m_infty) (locally 0).
Proof.
  intros k. apply (lim_ext (Rbar_locally m_infty) (fun x => (-1) ^ k * (gauss (- x) * (- x) ^ k)) _ ((-1) ^ k * 0) 0).
  - intros x. unfold gauss. replace (- x * - x) with (x * x) by ring. 
    replace ((- x) ^ k) with ((-1) ^ k * x ^ k) by (rewrite <- Rpow_mult_distr; f_equal; ring).
    replace ((-1) ^ k * (exp (- (x * x)) * ((-1) ^ k * x ^ k))) with (((-1) ^ k * (-1) ^ k) * (exp (- (x * x)) * x ^ k)) by ring.
    rewrite <- Rpow_mult_distr. replace (-1 * -1) with 1 by ring. rewrite pow1. ring.
  - ring.
  - apply lim_scal; [apply filter_filter|]. apply (lim_neg (fun x => gauss x * x ^ k)). apply pow_exp_lim.
Qed.

Lemma hermite_moments : forall k, exists I, hermite_has (fun x => gauss x * x ^ k) I.
Proof.
  intros k. pattern k. apply two_step; clear k.
  - exists (sqrt PI). apply (has_int_ext _ _ _ gauss); [intros; simpl; ring|exact hermite_mass].
  - exists (-1 / 2 * 0 - -1 / 2 * 0). apply (has_int_derive _ _ _ (fun x => -1 / 2 * (gauss x * x ^ 0))).
    + intros x _. unfold gauss. auto_derive; [trivial|]. field.
    + apply lim_scal; [apply filter_filter|apply pow_exp_lim_m].
    + apply lim_scal; [apply filter_filter|apply pow_exp_lim].
  - intros k [I HI] _.
    (* (-x^{k+1} e/2)' = x^{k+2} e - (k+1)/2 x^k e *)
    set (c := INR (S k) / 2).
    assert (H2 : hermite_has (fun x => gauss x * x ^ S (S k) - c * (gauss x * x ^ k)) (-1 / 2 * 0 - -1 / 2 * 0)).
    { apply (has_int_derive _ _ _ (fun x => -1 / 2 * (gauss x * x ^ S k))).
      - intros x _. unfold gauss, c. auto_derive; [trivial|]. change (match k with 0%nat => 1 | S _ => INR k + 1 end) with (INR (S k)). rewrite S_INR. simpl pow. field.
      - apply lim_scal; [apply filter_filter|apply pow_exp_lim_m].
      - apply lim_scal; [apply filter_filter|apply pow_exp_lim]. }
    eexists. apply (has_int_ext _ _ _ (fun x => 1 * (gauss x * x ^ S (S k) - c * (gauss x * x ^ k)) + c * (gauss x * x ^ k))).
    + intros x _. ring.
    + apply (has_int_lin _ _ _ 1 c); [exact H2|exact HI].
Qed.
