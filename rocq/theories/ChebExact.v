(** Exactness of the two Gauss-Chebyshev rules. *)
From Coq Require Import Reals List ZArith Lra Lia FunctionalExtensionality.
From Coquelicot Require Import Coquelicot.
From Verif Require Import RSum PolySpec PolyProof Improper JacobiWeight ChebSpec.
Local Open Scope R_scope.

(** * Polynomials with the recurrence P_{k+2} = 2 x P_{k+1} - P_k *)
Section Rec.
Variable c : R.
Fixpoint chp (k : nat) (x : R) : R * R :=
  match k with
  | O => (1, c * x)
  | S j => let p := chp j x in (snd p, 2 * x * snd p - fst p)
  end.
Definition ch (k : nat) (x : R) : R := fst (chp k x).
Lemma ch_0 : forall x, ch 0 x = 1. Proof. reflexivity. Qed.
Lemma ch_1 : forall x, ch 1 x = c * x. Proof. reflexivity. Qed.
Lemma ch_SS : forall k x, ch (S (S k)) x = 2 * x * ch (S k) x - ch k x. Proof. reflexivity. Qed.
Lemma ch_lead : forall k, polynomial k (fun x => ch (S k) x - c * 2 ^ k * x ^ S k) /\ polynomial (S k) (ch (S k)) /\ polynomial k (ch k).
Proof.
  induction k as [|k (IH1 & IH2 & IH3)].
  - split; [|split].
    + apply (poly_ext _ (fun _ => 0)); [intros x; rewrite ch_1; simpl; ring|]. apply poly_const.
    + apply (poly_ext _ (fun x => c * x)); [intros; reflexivity|]. apply poly_scal, poly_id.
    + apply (poly_ext _ (fun _ => 1)); [intros; reflexivity|]. apply poly_const.
  - assert (Q : polynomial (S k) (fun x => ch (S (S k)) x - c * 2 ^ S k * x ^ S (S k))).
    { apply (poly_ext _ (fun x => 2 * (x * (ch (S k) x - c * 2 ^ k * x ^ S k)) + (-1) * ch k x)).
      - intros x. rewrite ch_SS. simpl. ring.
      - apply poly_lin; [apply poly_mulx; exact IH1|]. apply (poly_weaken k); [lia|exact IH3]. }
    split; [exact Q|split; [|exact IH2]].
    apply (poly_ext _ (fun x => 1 * (ch (S (S k)) x - c * 2 ^ S k * x ^ S (S k)) + (c * 2 ^ S k) * x ^ S (S k))); [intros; ring|].
    apply poly_lin; [apply (poly_weaken (S k)); [lia|exact Q]|apply poly_pow].
Qed.
Lemma ch_exact : c <> 0 -> exact_degrees ch.
Proof.
  intros Hc. split.
  - exists 1. split; [lra|]. intros; reflexivity.
  - intros k. exists (c * 2 ^ k). split; [|apply ch_lead].
    apply Rmult_integral_contrapositive. split; [exact Hc|]. apply pow_nonzero. lra.
Qed.
Lemma ch_poly : forall k, polynomial k (ch k). Proof. intros k. apply (ch_lead k). Qed.
End Rec.

Lemma two_ind : forall Q : nat -> Prop, Q O -> Q 1%nat -> (forall k, Q k -> Q (S k) -> Q (S (S k))) -> forall k, Q k.
Proof. intros Q H0 H1 H k. enough (Q k /\ Q (S k)) by tauto. induction k; [auto|]. split; [tauto|]. apply H; tauto. Qed.

Lemma T_cos : forall k t, ch 1 k (cos t) = cos (INR k * t).
Proof.
  intros k t. revert k. apply two_ind.
  - rewrite Rmult_0_l, cos_0. reflexivity.
  - rewrite ch_1, Rmult_1_l, Rmult_1_l. reflexivity.
  - intros k H0 H1. rewrite ch_SS, H0, H1, !S_INR.
    replace ((INR k + 1 + 1) * t) with ((INR k + 1) * t + t) by ring.
    replace (INR k * t) with ((INR k + 1) * t - t) by ring. rewrite cos_plus, cos_minus. ring.
Qed.
Lemma U_sin : forall k t, ch 2 k (cos t) * sin t = sin (INR (S k) * t).
Proof.
  intros k t. revert k. apply two_ind.
  - rewrite ch_0. change (INR 1) with 1. rewrite !Rmult_1_l. reflexivity.
  - rewrite ch_1. replace (INR 2 * t) with (2 * t) by (simpl; ring). rewrite sin_2a. ring.
  - intros k H0 H1. rewrite ch_SS. transitivity (2 * cos t * (ch 2 (S k) (cos t) * sin t) - ch 2 k (cos t) * sin t); [ring|].
    rewrite H0, H1, !S_INR.
    replace ((INR k + 1 + 1 + 1) * t) with ((INR k + 1 + 1) * t + t) by ring.
    replace ((INR k + 1) * t) with ((INR k + 1 + 1) * t - t) by ring. rewrite sin_plus, sin_minus. ring.
Qed.

Lemma agree_basis : forall L M P, linear_on_polynomials L -> linear_on_polynomials M -> exact_degrees P ->
  forall d, (forall i, (i <= d)%nat -> L (P i) = M (P i)) -> forall f, polynomial d f -> L f = M f.
Proof.
  intros L M P HL HM HP d H f Hf. destruct (expand P HP d f Hf) as [c Hc].
  assert (E : f = (fun x => rsum (S d) (fun i => c i * P i x))) by (extensionality x; apply Hc).
  rewrite E, (lin_sum L HL d), (lin_sum M HM d).
  - apply rsum_ext. intros i Hi. rewrite H by lia. reflexivity.
  - intros i Hi. apply (poly_weaken i); [lia|]. apply exact_poly, HP.
  - intros i Hi. apply (poly_weaken i); [lia|]. apply exact_poly, HP.
Qed.

(** * Discrete sums *)
Lemma sin_INR_PI : forall k, sin (INR k * PI) = 0.
Proof.
  induction k; [rewrite Rmult_0_l; apply sin_0|]. rewrite S_INR, Rmult_plus_distr_r, Rmult_1_l, neg_sin, IHk. ring.
Qed.
Lemma cos_INR_PI : forall k, cos (INR k * PI) = (-1) ^ k.
Proof.
  induction k; [rewrite Rmult_0_l; apply cos_0|]. rewrite S_INR, Rmult_plus_distr_r, Rmult_1_l, neg_cos, IHk. simpl. ring.
Qed.
(** sum of cos over an arithmetic progression *)
Lemma cos_sum : forall n a d, 2 * sin (d / 2) * rsum n (fun i => cos (a + INR i * d)) = sin (a + INR n * d - d / 2) - sin (a - d / 2).
Proof.
  intros n a d. rewrite <- rsum_scal.
  rewrite (rsum_ext n _ (fun i => (fun j => sin (a + INR j * d - d / 2)) (S i) - (fun j => sin (a + INR j * d - d / 2)) i)).
  - rewrite (rsum_telescope n (fun j => sin (a + INR j * d - d / 2))). simpl. rewrite Rmult_0_l, Rplus_0_r. reflexivity.
  - intros i _. cbv beta. rewrite S_INR.
    replace (a + (INR i + 1) * d - d / 2) with ((a + INR i * d) + d / 2) by field.
    replace (a + INR i * d - d / 2) with ((a + INR i * d) - d / 2) by field.
    rewrite sin_plus, sin_minus. ring.
Qed.

Lemma cheb1_sum : forall n k, (0 < k)%nat -> (k < 2 * n)%nat ->
  rsum n (fun i => cos (INR k * (PI * (2 * INR (S i) - 1) / (2 * INR n)))) = 0.
Proof.
  intros n k Hk Hn. assert (HN : 0 < INR n) by (apply lt_0_INR; lia).
  set (d := INR k * PI / INR n).
  assert (E := cos_sum n (d / 2) d).
  assert (Hs : 0 < sin (d / 2)).
  { assert (0 < INR k) by (apply lt_0_INR; lia). assert (INR k < 2 * INR n).
    { change 2 with (INR 2). rewrite <- mult_INR. apply lt_INR. lia. }
    pose proof PI_RGT_0. apply sin_gt_0.
    - unfold d. apply Rmult_lt_0_compat; [|lra]. apply Rdiv_lt_0_compat; [nra|assumption].
    - unfold d. apply (Rmult_lt_reg_r (2 * INR n)); [lra|]. field_simplify; [|lra]. nra. }
  assert (Z : sin (d / 2 + INR n * d - d / 2) - sin (d / 2 - d / 2) = 0).
  { replace (d / 2 + INR n * d - d / 2) with (INR k * PI) by (unfold d; field; lra).
    replace (d / 2 - d / 2) with 0 by ring. rewrite sin_INR_PI, sin_0. ring. }
  rewrite Z in E. apply Rmult_integral in E. destruct E as [E|E]; [nra|].
  rewrite <- E. apply rsum_ext. intros i _. f_equal. unfold d. rewrite S_INR. field. lra.
Qed.

Lemma cheb2_sum : forall n m, (0 < m)%nat -> (m < 2 * (n + 1))%nat ->
  rsum n (fun i => cos (INR m * (PI * INR (S i) * (1 / (INR n + 1))))) = - ((-1) ^ m + 1) / 2.
Proof.
  intros n m Hm Hn. assert (HN : 0 <= INR n) by apply pos_INR. pose proof PI_RGT_0.
  set (d := INR m * PI / (INR n + 1)).
  assert (E := cos_sum n d d).
  assert (Hs : 0 < sin (d / 2)).
  { assert (0 < INR m) by (apply lt_0_INR; lia). assert (INR m < 2 * (INR n + 1)).
    { replace (2 * (INR n + 1)) with (INR (2 * (n + 1))) by (rewrite mult_INR, plus_INR; simpl; ring). apply lt_INR. lia. }
    apply sin_gt_0.
    - unfold d. apply Rmult_lt_0_compat; [|lra]. apply Rdiv_lt_0_compat; [nra|lra].
    - unfold d. apply (Rmult_lt_reg_r (2 * (INR n + 1))); [lra|]. field_simplify; [|lra]. nra. }
  replace (d + INR n * d - d / 2) with (INR m * PI - d / 2) in E by (unfold d; field; lra).
  replace (d - d / 2) with (d / 2) in E by field.
  rewrite sin_minus, sin_INR_PI, cos_INR_PI in E.
  transitivity (rsum n (fun i => cos (d + INR i * d))).
  { apply rsum_ext. intros i _. f_equal. unfold d. rewrite S_INR. field. lra. }
  apply (Rmult_eq_reg_l (2 * sin (d / 2))); [|nra]. rewrite E. field.
Qed.

(** * The integrals *)
Notation L1 := (at_right (-1)).
Notation L2 := (at_left 1).
Lemma acos_lim_1 : filterlim acos L2 (locally 0).
Proof.
  intros P [e He]. set (e' := Rmin e PI). pose proof PI_RGT_0. pose proof (cond_pos e).
  assert (0 < e' <= e /\ e' <= PI) as [[E0 E1] E2].
  { unfold e'. split; [split; [apply Rmin_glb_lt; lra|apply Rmin_l]|apply Rmin_r]. }
  assert (C : cos e' < 1).
  { rewrite <- cos_0. apply cos_decreasing_1; lra. }
  assert (D : 0 < Rmin (1 - cos e') 1) by (apply Rmin_glb_lt; lra).
  exists (mkposreal _ D). intros x Hx Hlt. apply He. simpl in Hx.
  assert (Hx' : Rabs (x - 1) < Rmin (1 - cos e') 1) by exact Hx. clear Hx. pose proof (Rmin_l (1 - cos e') 1). pose proof (Rmin_r (1 - cos e') 1).
  apply Rabs_def2 in Hx'. pose proof (acos_bound x).
  change (Rabs (acos x - 0) < e). rewrite Rminus_0_r, Rabs_pos_eq by lra.
  apply (Rlt_le_trans _ e'); [|exact E1]. apply cos_decreasing_0; try lra. rewrite cos_acos by lra. lra.
Qed.
Lemma acos_lim_m1 : filterlim acos L1 (locally PI).
Proof.
  intros P [e He]. set (e' := Rmin e PI). pose proof PI_RGT_0. pose proof (cond_pos e).
  assert (0 < e' <= e /\ e' <= PI) as [[E0 E1] E2].
  { unfold e'. split; [split; [apply Rmin_glb_lt; lra|apply Rmin_l]|apply Rmin_r]. }
  assert (C : -1 < cos (PI - e')).
  { rewrite <- cos_PI. apply cos_decreasing_1; lra. }
  assert (D : 0 < Rmin (cos (PI - e') + 1) 1) by (apply Rmin_glb_lt; lra).
  exists (mkposreal _ D). intros x Hx Hlt. apply He. simpl in Hx.
  assert (Hx' : Rabs (x - -1) < Rmin (cos (PI - e') + 1) 1) by exact Hx. clear Hx. pose proof (Rmin_l (cos (PI - e') + 1) 1). pose proof (Rmin_r (cos (PI - e') + 1) 1).
  apply Rabs_def2 in Hx'. pose proof (acos_bound x).
  change (Rabs (acos x - PI) < e). rewrite Rabs_minus_sym, Rabs_pos_eq by lra.
  apply (Rlt_le_trans _ e'); [|exact E1]. enough (PI - e' < acos x) by lra. apply cos_decreasing_0; try lra. rewrite cos_acos by lra. lra.
Qed.
Lemma acos_der : forall x, unit_open x -> is_derive acos x (- / sqrt (1 - x * x)).
Proof.
  intros x Hx. apply is_derive_Reals. replace (- / sqrt (1 - x * x)) with (- / sqrt (1 - Rsqr x)) by reflexivity.
  replace (- / sqrt (1 - Rsqr x)) with (- 1 / sqrt (1 - Rsqr x)). 
  - apply (derive_pt_eq_1 _ _ _ (derivable_pt_acos x Hx)). apply derive_pt_acos.
  - unfold Rdiv. ring.
Qed.
Lemma sqrt_unit : forall x, unit_open x -> 0 < sqrt (1 - x * x).
Proof. intros x Hx. apply sqrt_lt_R0. unfold unit_open in Hx. nra. Qed.
Lemma sin_acos_unit : forall x, unit_open x -> sin (acos x) = sqrt (1 - x * x).
Proof. intros x Hx. unfold unit_open in Hx. rewrite sin_acos by lra. reflexivity. Qed.

Definition w1 (x : R) : R := / sqrt (1 - x * x).
Definition w2 (x : R) : R := sqrt (1 - x * x).
Lemma sq_cont : forall x, continuous w2 x.
Proof.
  intros x. apply (continuous_comp (fun x => 1 - x * x) sqrt).
  - apply (poly_cont 2). exists (fun i => match i with O => 1 | 1%nat => 0 | _ => -1 end). intros y. simpl. ring.
  - apply continuity_pt_filterlim. destruct (Rle_or_lt 0 (1 - x * x)); [apply continuity_pt_sqrt; assumption|].
    apply (continuity_pt_ext_loc (fun _ => 0)).
    + exists (mkposreal (- (1 - x * x)) ltac:(lra)). intros y Hy.
      assert (Hy' : Rabs (y - (1 - x * x)) < - (1 - x * x)) by exact Hy. apply Rabs_def2 in Hy'.
      rewrite sqrt_neg_0 by lra. reflexivity.
    + apply continuity_pt_const. intros u v. reflexivity.
Qed.
Lemma w1_cont : forall x, unit_open x -> continuous w1 x.
Proof.
  intros x Hx. apply (continuous_comp w2 Rinv); [apply sq_cont|]. apply continuity_pt_filterlim.
  apply (continuity_pt_inv (fun y => y)); [apply continuity_pt_id|]. pose proof (sqrt_unit x Hx). unfold w2. lra.
Qed.
Definition cheb_has := has_int unit_open L1 L2.
(** antiderivatives G(acos x) *)
Lemma comp_acos : forall (G g : R -> R), (forall t, is_derive G t (g t)) ->
  cheb_has (fun x => - g (acos x) / sqrt (1 - x * x)) (G 0 - G PI).
Proof.
  intros G g HG. exists (fun x => G (acos x)), (G PI), (G 0). split; [|split; [|split]].
  - intros x Hx. apply (is_derive_ext_loc (fun x => G (acos x))); [apply filter_forall; reflexivity|].
    replace (- g (acos x) / sqrt (1 - x * x)) with ((- / sqrt (1 - x * x)) * g (acos x)) by (unfold Rdiv; ring).
    apply (is_derive_comp G acos x (g (acos x)) (- / sqrt (1 - x * x))); [apply HG|apply acos_der, Hx].
  - apply (filterlim_comp _ _ _ acos G L1 (locally PI)); [apply acos_lim_m1|].
    apply (ex_derive_continuous (V := R_NormedModule)). exists (g PI). apply HG.
  - apply (filterlim_comp _ _ _ acos G L2 (locally 0)); [apply acos_lim_1|].
    apply (ex_derive_continuous (V := R_NormedModule)). exists (g 0). apply HG.
  - reflexivity.
Qed.

Lemma cheb1_int_T : forall k, cheb_has (fun x => w1 x * ch 1 k x) (if Nat.eqb k 0 then PI else 0).
Proof.
  intros k. destruct (Nat.eqb_spec k 0) as [->|Hk].
  - apply (has_int_ext _ _ _ (fun x => - (fun _ => -1) (acos x) / sqrt (1 - x * x))).
    + intros x Hx. rewrite ch_0. unfold w1. field. pose proof (sqrt_unit x Hx). lra.
    + replace PI with ((fun t => - t) 0 - (fun t => - t) PI) at 1 by ring. apply (comp_acos (fun t => - t) (fun _ => -1)).
      intros t. auto_derive; [exact I|reflexivity].
  - assert (0 < INR k) by (apply lt_0_INR; lia).
    apply (has_int_ext _ _ _ (fun x => - (fun t => - cos (INR k * t)) (acos x) / sqrt (1 - x * x))).
    + intros x Hx. pose proof (T_cos k (acos x)) as E. unfold unit_open in Hx. rewrite cos_acos in E by lra. rewrite E.
      unfold w1. field. pose proof (sqrt_unit x Hx). lra.
    + replace 0 with ((fun t => - (sin (INR k * t) / INR k)) 0 - (fun t => - (sin (INR k * t) / INR k)) PI) at 1.
      * apply (comp_acos (fun t => - (sin (INR k * t) / INR k)) (fun t => - cos (INR k * t))).
        intros t. auto_derive; [lra|]. field. lra.
      * cbv beta. rewrite Rmult_0_r, sin_0, sin_INR_PI. field. lra.
Qed.
Lemma cheb2_int_U : forall k, cheb_has (fun x => w2 x * ch 2 k x) (if Nat.eqb k 0 then PI / 2 else 0).
Proof.
  intros k.
  assert (E : forall x, unit_open x -> - (fun t => - (sin (INR (S k) * t) * sin t)) (acos x) / sqrt (1 - x * x) = w2 x * ch 2 k x).
  { intros x Hx. pose proof (U_sin k (acos x)) as E. assert (Hx' := Hx). unfold unit_open in Hx'.
    rewrite cos_acos in E by lra. rewrite <- E, sin_acos_unit by exact Hx. unfold w2. field. pose proof (sqrt_unit x Hx). lra. }
  apply (has_int_ext _ _ _ _ _ _ E).
  assert (EE : forall t, sin (INR (S k) * t) * sin t = (cos (INR k * t) - cos (INR (S (S k)) * t)) / 2).
  { intros t. rewrite !S_INR. replace (INR k * t) with ((INR k + 1) * t - t) by ring.
    replace ((INR k + 1 + 1) * t) with ((INR k + 1) * t + t) by ring. rewrite cos_plus, cos_minus. field. }
  assert (0 < INR (S (S k))) by (apply lt_0_INR; lia).
  destruct (Nat.eqb_spec k 0) as [->|Hk].
  - replace (PI / 2) with ((fun t => sin (2 * t) / 4 - t / 2) 0 - (fun t => sin (2 * t) / 4 - t / 2) PI).
    + apply (comp_acos (fun t => sin (2 * t) / 4 - t / 2) (fun t => - (sin (INR 1 * t) * sin t))). intros t. rewrite EE. simpl (INR 0). simpl (INR 2). rewrite Rmult_0_l, cos_0.
      auto_derive; [exact I|]. change (1 + 1) with 2. field.
    + cbv beta. rewrite Rmult_0_r, sin_0. pose proof (sin_INR_PI 2) as S2. change (INR 2) with 2 in S2. rewrite S2. field.
  - assert (0 < INR k) by (apply lt_0_INR; lia).
    replace 0 with ((fun t => sin (INR (S (S k)) * t) / (2 * INR (S (S k))) - sin (INR k * t) / (2 * INR k)) 0 - (fun t => sin (INR (S (S k)) * t) / (2 * INR (S (S k))) - sin (INR k * t) / (2 * INR k)) PI).
    + apply (comp_acos (fun t => sin (INR (S (S k)) * t) / (2 * INR (S (S k))) - sin (INR k * t) / (2 * INR k)) (fun t => - (sin (INR (S k) * t) * sin t))).
      intros t. rewrite EE. set (u := INR (S (S k))) in *. set (v := INR k) in *. auto_derive; [lra|]. field. lra.
    + cbv beta. rewrite !Rmult_0_r, sin_0, !sin_INR_PI. field. lra.
Qed.
Lemma cheb_moments : forall (w : R -> R) c, c <> 0 -> (forall k, exists I, cheb_has (fun x => w x * ch c k x) I) ->
  forall k, exists I, cheb_has (fun x => w x * x ^ k) I.
Proof.
  intros w c Hc H k. destruct (expand (ch c) (ch_exact c Hc) k (fun x => x ^ k) (poly_pow k)) as [e He].
  enough (G : forall n, exists I, cheb_has (fun x => w x * rsum n (fun i => e i * ch c i x)) I).
  { destruct (G (S k)) as [I HI]. exists I. eapply has_int_ext; [|exact HI]. intros x _. cbv beta. rewrite <- He. reflexivity. }
  induction n as [|n [I HI]].
  - exists (0 - 0). apply (has_int_derive _ _ _ (fun _ => 0)).
    + intros x _. simpl. rewrite Rmult_0_r. apply (is_derive_const (K := R_AbsRing) (V := R_NormedModule)).
    + apply lim_const. apply filter_filter'.
    + apply lim_const. apply filter_filter'.
  - destruct (H n) as [J HJ]. exists (1 * I + e n * J).
    eapply has_int_ext; [|eapply (has_int_lin unit_open L1 L2 1 (e n)); [exact HI|exact HJ]]. intros x _. simpl. ring.
Qed.
