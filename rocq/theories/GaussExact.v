(** Exactness of Gauss-Hermite, Gauss-Laguerre and Gauss-Jacobi rules. *)
From Coq Require Import Reals Lra Lia List ZArith Bool FunctionalExtensionality.
From Coquelicot Require Import Coquelicot.
From Verif Require Import Arith RInst RInstProof Machine Param Rules RSum PolySpec PolyProof GolubWelsch GWSpec EigenSpec EigenProof Spectral
  Improper ImproperExist OrthoProof Gaussian LaguerreWeight JacobiWeight WeightSpec Gamma Hermite Laguerre Legendre Chebyshev Jacobi RuleSpec
  GaussProof SizeProof GWRoots GammaProof MassSpec.
Import ListNotations.
Local Open Scope R_scope.

Instance PFm : ProperFilter' (Rbar_locally m_infty) := Proper_StrongProper _ (Rbar_locally_filter m_infty).
Instance PFp : ProperFilter' (Rbar_locally p_infty) := Proper_StrongProper _ (Rbar_locally_filter p_infty).
Instance PFr : forall x, ProperFilter' (at_right x) := fun x => Proper_StrongProper _ (at_right_proper_filter x).
Instance PFl : forall x, ProperFilter' (at_left x) := fun x => Proper_StrongProper _ (at_left_proper_filter x).

Lemma IZR_INR : forall i, IZR (Z.of_nat i) = INR i.
Proof. intros. symmetry. apply INR_IZR_INZ. Qed.

(** ** Hermite *)
Definition hermite_L := wint (Rbar_locally m_infty) (Rbar_locally p_infty) gauss.
Lemma hermite_linear : linear_on_polynomials hermite_L.
Proof. exact (wint_linear whole _ _ whole_convex whole_a whole_b gauss (fun x _ => gauss_cont x) hermite_moments). Qed.
Lemma hermite_gen : forall d f, polynomial d f -> hermite_integral f (hermite_L f).
Proof. exact (wint_gen whole _ _ whole_convex whole_a whole_b gauss (fun x _ => gauss_cont x) hermite_moments). Qed.
Lemma hermite_one : hermite_L (fun _ => 1) = sqrt PI.
Proof.
  apply (wint_val whole _ _ whole_convex whole_a whole_b gauss (fun x _ => gauss_cont x) 0 (fun _ => 1)); [apply poly_const|].
  apply (has_int_ext _ _ _ gauss); [intros; ring|exact hermite_mass].
Qed.
Lemma hermite_orth : forall a b, (forall i, a i = 0) -> (forall i, b i * b i = INR (S i) / 2) ->
  forall i k, i <> k -> hermite_L (fun x => monic a b i x * monic a b k x) = 0.
Proof.
  intros a b Ha Hb i k Hik.
  apply (eigen_orthogonal whole _ _ whole_convex whole_a whole_b gauss (fun x _ => gauss_cont x) hermite_moments
           (fun _ => 1) (fun x => -2 * x)) with (P1 := dmonic a b) (P2 := ddmonic a b) (mu := fun k => -2 * INR k).
  - apply poly_const.
  - intros x _. apply (is_derive_ext gauss); [intros; symmetry; apply Rmult_1_l|].
    apply (is_derive_val _ _ (- (2 * x) * gauss x)); [ring|apply gauss_der].
  - intros j. apply (lim_ext _ (fun x => gauss x * x ^ j) _ 0 0); [intros; ring|reflexivity|apply pow_exp_lim_m].
  - intros j. apply (lim_ext _ (fun x => gauss x * x ^ j) _ 0 0); [intros; ring|reflexivity|apply pow_exp_lim].
  - apply monic_poly.
  - apply dmonic_poly.
  - apply dmonic_der.
  - apply ddmonic_der.
  - intros j x _. apply hermite_ode; assumption.
  - intros E. apply Hik. apply INR_eq. lra.
Qed.

Lemma hermite_coeffs : (forall i, @hermite_diag RA i = 0) /\
  (forall i, @hermite_off_diag RA i * @hermite_off_diag RA i = INR (S i) / 2) /\ (forall i, @hermite_off_diag RA i <> 0).
Proof.
  assert (E : forall i, @hermite_off_diag RA i = sqrt (INR (S i) / 2)).
  { intros i. unfold hermite_off_diag. ra_simpl. ra_lits. rewrite IZR_INR, S_INR. f_equal. field. }
  assert (Pz : forall i, 0 < INR (S i) / 2) by (intros; assert (H := lt_0_INR (S i) ltac:(lia)); lra).
  split; [|split].
  - intros i. unfold hermite_diag. exact ra_lit0.
  - intros i. rewrite E. apply sqrt_sqrt. left. apply Pz.
  - intros i. rewrite E. assert (H := sqrt_lt_R0 _ (Pz i)). lra.
Qed.

Lemma hermite_new_inv : forall (ext : Linalg RA) n r, hermite_new ext n = Ok r ->
  @golub_welsch RA ext (Z.to_nat n) hermite_diag hermite_off_diag (sqrt PI) = Ok (hermite_pairs r).
Proof.
  intros ext n r H. unfold hermite_new in H. simpl nsqrt in H. simpl npi in H.
  destruct (golub_welsch _ _ _ _ _); [|discriminate]. simpl in H. injection H; intros <-. reflexivity.
Qed.

Lemma hermite_exact : forall (ext : Linalg RA) n (r : GaussHermite RA), (1 <= n)%Z -> sorts ext ->
  exact_on ext (Z.to_nat n) (@hermite_diag RA) (@hermite_off_diag RA) -> hermite_new ext n = Ok r ->
  forall f, polynomial (2 * Z.to_nat n - 1) f -> hermite_integral f (hermite_value r f).
Proof.
  intros ext n r Hn So Ex Hr f Hf. destruct hermite_coeffs as (Ca & Cb & Cz).
  replace (hermite_value r f) with (hermite_L f); [apply (hermite_gen _ f Hf)|].
  unfold hermite_value. rewrite hermite_R. symmetry.
  apply (gwx_gauss ext (Z.to_nat n) (@hermite_diag RA) (@hermite_off_diag RA) (sqrt PI)).
  - lia.
  - intros i _. apply Cz.
  - exact So.
  - exact Ex.
  - apply hermite_new_inv. exact Hr.
  - exact hermite_linear.
  - exact hermite_one.
  - intros i k Hik _. apply hermite_orth; [exact Ca|exact Cb|lia].
  - exact Hf.
Qed.

(** ** functionals up to a factor *)
Lemma scaled_linear : forall L c, linear_on_polynomials L -> linear_on_polynomials (fun f => c * L f).
Proof. intros L c HL d u v f g Hf Hg. cbv beta. rewrite (HL d u v f g Hf Hg). ring. Qed.

(** ** Laguerre *)
Section Laguerre.
Variable al : R.
Hypothesis Hal : -1 < al.
Definition laguerre_L := wint (at_right 0) (Rbar_locally p_infty) (lagw al).
Lemma laguerre_linear : linear_on_polynomials laguerre_L.
Proof. exact (wint_linear halfline _ _ half_convex half_a half_b (lagw al) (lagw_cont al) (lagw_moments al Hal)). Qed.
Lemma laguerre_gen : forall d f, polynomial d f -> laguerre_integral al f (laguerre_L f).
Proof. exact (wint_gen halfline _ _ half_convex half_a half_b (lagw al) (lagw_cont al) (lagw_moments al Hal)). Qed.
Lemma laguerre_one_pos : 0 < laguerre_L (fun _ => 1).
Proof.
  destruct (lagw_mass al Hal) as [I HI].
  replace (laguerre_L (fun _ => 1)) with I; [apply (lagw_mass_pos al I HI)|]. symmetry.
  apply (wint_val halfline _ _ half_convex half_a half_b (lagw al) (lagw_cont al) 0 (fun _ => 1)); [apply poly_const|].
  apply (has_int_ext _ _ _ (lagw al)); [intros; ring|exact HI].
Qed.
Lemma laguerre_orth : forall a b, (forall i, a i = al + 1 + 2 * INR i) -> (forall i, b i * b i = INR (S i) * (INR (S i) + al)) ->
  forall i k, i <> k -> laguerre_L (fun x => monic a b i x * monic a b k x) = 0.
Proof.
  intros a b Ha Hb i k Hik.
  apply (eigen_orthogonal halfline _ _ half_convex half_a half_b (lagw al) (lagw_cont al) (lagw_moments al Hal)
           (fun x => x) (fun x => al + 1 - x)) with (P1 := dmonic a b) (P2 := ddmonic a b) (mu := fun k => - INR k).
  - apply (poly_weaken 1); [lia|apply poly_id].
  - exact (lagw_pearson al).
  - exact (lagw_bound_a al Hal).
  - exact (lagw_bound_b al).
  - apply monic_poly.
  - apply dmonic_poly.
  - apply dmonic_der.
  - apply ddmonic_der.
  - intros j x Hx. apply laguerre_ode; assumption.
  - intros E. apply Hik. apply INR_eq. lra.
Qed.
Lemma laguerre_coeffs : (forall i, @laguerre_diag RA al i = al + 1 + 2 * INR i) /\
  (forall i, @laguerre_off_diag RA al i * @laguerre_off_diag RA al i = INR (S i) * (INR (S i) + al)) /\
  (forall i, @laguerre_off_diag RA al i <> 0).
Proof.
  assert (E : forall i, @laguerre_off_diag RA al i = sqrt (INR (S i) * (INR (S i) + al))).
  { intros i. unfold laguerre_off_diag. ra_simpl. ra_lits. rewrite IZR_INR, S_INR. f_equal. ring. }
  assert (Pz : forall i, 0 < INR (S i) * (INR (S i) + al)).
  { intros i. rewrite S_INR. assert (H := pos_INR i). apply Rmult_lt_0_compat; lra. }
  split; [|split].
  - intros i. unfold laguerre_diag. ra_simpl. ra_lits. rewrite IZR_INR. ring.
  - intros i. rewrite E. apply sqrt_sqrt. left. apply Pz.
  - intros i. rewrite E. assert (H := sqrt_lt_R0 _ (Pz i)). lra.
Qed.
End Laguerre.

Lemma laguerre_new_inv : forall (ext : Linalg RA) n al r, laguerre_new ext n al = Ok r ->
  @golub_welsch RA ext (Z.to_nat n) (laguerre_diag (param_get al)) (laguerre_off_diag (param_get al))
    (@gamma RA (param_get al + 1)) = Ok (laguerre_pairs r).
Proof.
  intros ext n al r H. unfold laguerre_new in H.
  replace (@gamma RA (param_get al + 1)) with (@gamma RA (@nadd RA (param_get al) lit1)) by (f_equal; ra_simpl; ra_lits; reflexivity).
  destruct (golub_welsch _ _ _ _ _); [|discriminate]. simpl in H. injection H; intros <-. reflexivity.
Qed.

Lemma gamma_mass : forall al G, -1 < al -> is_Gamma (al + 1) G -> G = laguerre_L al (fun _ => 1).
Proof.
  intros al G Hal HG. symmetry. apply is_RInt_gen_unique.
  refine (eq_ind (fun x => Rpower x (al + 1 - 1) * exp (- x)) (fun f => is_RInt_gen f (at_right 0) (Rbar_locally p_infty) G) HG _ _).
  extensionality x. unfold lagw. replace (al + 1 - 1) with al by ring. ring.
Qed.
Lemma gamma_exists : forall al, -1 < al -> exists G, 0 < G /\ is_Gamma (al + 1) G.
Proof.
  intros al Hal. exists (laguerre_L al (fun _ => 1)). split; [apply laguerre_one_pos, Hal|].
  assert (H := laguerre_gen al Hal 0 (fun _ => 1) (poly_const 0 1)). unfold laguerre_integral in H. unfold is_Gamma.
  refine (eq_ind _ (fun f => is_RInt_gen f (at_right 0) (Rbar_locally p_infty) _) H _ _).
  extensionality x. replace (al + 1 - 1) with al by ring. ring.
Qed.

Lemma laguerre_exact : forall (ext : Linalg RA) n (al : Param RA) (r : GaussLaguerre RA) (G : R), (1 <= n)%Z -> -1 < param_get al -> sorts ext ->
  exact_on ext (Z.to_nat n) (@laguerre_diag RA (param_get al)) (@laguerre_off_diag RA (param_get al)) ->
  laguerre_new ext n al = Ok r -> is_Gamma (param_get al + 1) G ->
  forall f, polynomial (2 * Z.to_nat n - 1) f ->
  exists v, laguerre_integral (param_get al) f v /\ laguerre_value r f = @gamma RA (param_get al + 1) / G * v.
Proof.
  intros ext n al r G Hn Hal So Ex Hr HG f Hf.
  destruct (laguerre_coeffs (param_get al) Hal) as (Ca & Cb & Cz).
  exists (laguerre_L (param_get al) f). split; [apply (laguerre_gen (param_get al) Hal _ f Hf)|].
  unfold laguerre_value. rewrite laguerre_R.
  assert (EG := gamma_mass (param_get al) G Hal HG).
  assert (Gp : 0 < G) by (rewrite EG; apply laguerre_one_pos, Hal).
  set (c := @gamma RA (param_get al + 1) / G).
  apply (gwx_gauss ext (Z.to_nat n) (@laguerre_diag RA (param_get al)) (@laguerre_off_diag RA (param_get al)) (@gamma RA (param_get al + 1)) ltac:(lia)
          (fun i _ => Cz i) So Ex (laguerre_pairs r) (fun f => c * laguerre_L (param_get al) f)).
  - apply laguerre_new_inv. exact Hr.
  - apply scaled_linear, laguerre_linear, Hal.
  - cbv beta. rewrite <- EG. unfold c. field. lra.
  - intros i k Hik _. cbv beta. rewrite laguerre_orth; [ring|exact Hal|exact Ca|exact Cb|lia].
  - exact Hf.
Qed.

(** ** Jacobi *)
Section Jacobi.
Variables al be : R.
Hypothesis Hal : -1 < al.
Hypothesis Hbe : -1 < be.
Definition jacobi_L := wint (at_right (-1)) (at_left 1) (jacw al be).
Lemma jacobi_linear : linear_on_polynomials jacobi_L.
Proof. exact (wint_linear unit_open _ _ unit_convex unit_a unit_b (jacw al be) (jacw_cont al be) (jacw_moments al be Hal Hbe)). Qed.
Lemma jacobi_gen : forall d f, polynomial d f -> jacobi_integral al be f (jacobi_L f).
Proof. exact (wint_gen unit_open _ _ unit_convex unit_a unit_b (jacw al be) (jacw_cont al be) (jacw_moments al be Hal Hbe)). Qed.
Lemma jacobi_one_pos : 0 < jacobi_L (fun _ => 1).
Proof.
  destruct (jacw_mass al be Hal Hbe) as [I HI].
  replace (jacobi_L (fun _ => 1)) with I; [apply (jacw_mass_pos al be I HI)|]. symmetry.
  apply (wint_val unit_open _ _ unit_convex unit_a unit_b (jacw al be) (jacw_cont al be) 0 (fun _ => 1)); [apply poly_const|].
  apply (has_int_ext _ _ _ (jacw al be)); [intros; ring|exact HI].
Qed.
Lemma jacobi_orth : forall a b,
  a O = (be - al) / (2 + be + al) ->
  (forall k, a (S k) = (be * be - al * al) / ((2 * INR (S k) + al + be) * ((2 * INR (S k) + al + be) + 2))) ->
  b O * b O = 4 * (1 + al) * (1 + be) / ((2 + al + be) * (2 + al + be) * (3 + al + be)) ->
  (forall k, b (S k) * b (S k) =
    4 * INR (S (S k)) * (INR (S (S k)) + al) * (INR (S (S k)) + be) * (INR (S (S k)) + al + be)
    / ((2 * INR (S (S k)) + al + be) * (2 * INR (S (S k)) + al + be) * ((2 * INR (S (S k)) + al + be) + 1) * ((2 * INR (S (S k)) + al + be) - 1))) ->
  forall i k, i <> k -> jacobi_L (fun x => monic a b i x * monic a b k x) = 0.
Proof.
  intros a b Ha0 HaS Hb0 HbS i k Hik.
  apply (eigen_orthogonal unit_open _ _ unit_convex unit_a unit_b (jacw al be) (jacw_cont al be) (jacw_moments al be Hal Hbe)
           jac_sigma (jac_tau al be)) with (P1 := dmonic a b) (P2 := ddmonic a b) (mu := fun k => - (INR k * (INR k + al + be + 1))).
  - unfold jac_sigma. apply poly_sub; [apply poly_const|]. apply (poly_ext 2 (fun x => x ^ 2)); [intros; ring|apply poly_pow].
  - exact (jacw_pearson al be).
  - exact (jacw_bound_a al be Hbe).
  - exact (jacw_bound_b al be Hal).
  - apply monic_poly.
  - apply dmonic_poly.
  - apply dmonic_der.
  - apply ddmonic_der.
  - intros j x Hx. apply (jacobi_ode al be a b Hal Hbe Ha0 HaS Hb0 HbS). exact Hx.
  - intros E. apply Hik. apply Ropp_eq_compat in E. rewrite !Ropp_involutive in E.
    assert (F : (INR i - INR k) * (INR i + INR k + al + be + 1) = 0) by lra.
    apply Rmult_integral in F. destruct F as [F|F]; [apply INR_eq; lra|exfalso].
    assert (1 <= i + k)%nat by lia. apply le_INR in H. rewrite plus_INR in H. simpl in H. lra.
Qed.
Hypothesis Hab : al + be <> -1.
Lemma jacobi_coeffs :
  @jacobi_diag RA al be O = (be - al) / (2 + be + al) /\
  (forall k, @jacobi_diag RA al be (S k) = (be * be - al * al) / ((2 * INR (S k) + al + be) * ((2 * INR (S k) + al + be) + 2))) /\
  @jacobi_off_diag RA al be O * @jacobi_off_diag RA al be O = 4 * (1 + al) * (1 + be) / ((2 + al + be) * (2 + al + be) * (3 + al + be)) /\
  (forall k, @jacobi_off_diag RA al be (S k) * @jacobi_off_diag RA al be (S k) =
    4 * INR (S (S k)) * (INR (S (S k)) + al) * (INR (S (S k)) + be) * (INR (S (S k)) + al + be)
    / ((2 * INR (S (S k)) + al + be) * (2 * INR (S (S k)) + al + be) * ((2 * INR (S (S k)) + al + be) + 1) * ((2 * INR (S (S k)) + al + be) - 1))) /\
  (forall i, @jacobi_off_diag RA al be i <> 0).
Proof.
  assert (E : forall i, @jacobi_off_diag RA al be i = 2 / (2 * INR (S i) + al + be) *
     sqrt (INR (S i) * (INR (S i) + al) * (INR (S i) + be) * (INR (S i) + al + be) / ((2 * INR (S i) + al + be + 1) * (2 * INR (S i) + al + be - 1)))).
  { intros i. unfold jacobi_off_diag. ra_simpl. ra_lits. rewrite IZR_INR, S_INR. reflexivity. }
  assert (Pz : forall i, 0 < INR (S i) * (INR (S i) + al) * (INR (S i) + be) * (INR (S i) + al + be) / ((2 * INR (S i) + al + be + 1) * (2 * INR (S i) + al + be - 1))).
  { intros i. destruct i as [|i].
    - simpl INR. replace (1 * (1 + al) * (1 + be) * (1 + al + be) / ((2 * 1 + al + be + 1) * (2 * 1 + al + be - 1))) with ((1 + al) * (1 + be) / (3 + al + be)) by (field; lra).
      apply Rdiv_lt_0_compat; [apply Rmult_lt_0_compat; lra|lra].
    - rewrite !S_INR. assert (H := pos_INR i). apply Rdiv_lt_0_compat; repeat apply Rmult_lt_0_compat; lra. }
  assert (Sq : forall i, @jacobi_off_diag RA al be i * @jacobi_off_diag RA al be i = 4 / ((2 * INR (S i) + al + be) * (2 * INR (S i) + al + be)) *
     (INR (S i) * (INR (S i) + al) * (INR (S i) + be) * (INR (S i) + al + be) / ((2 * INR (S i) + al + be + 1) * (2 * INR (S i) + al + be - 1)))).
  { intros i. assert (Sp : 0 < 2 * INR (S i) + al + be) by (rewrite S_INR; assert (H := pos_INR i); lra).
    rewrite E. assert (Q := Pz i). match type of Q with 0 < ?t => set (q := t) in * end.
    transitivity (4 / ((2 * INR (S i) + al + be) * (2 * INR (S i) + al + be)) * (sqrt q * sqrt q)); [field; lra|].
    rewrite sqrt_sqrt by lra. reflexivity. }
  split; [|split; [|split; [|split]]].
  - unfold jacobi_diag. ra_simpl. ra_lits. reflexivity.
  - intros k. unfold jacobi_diag. ra_simpl. ra_lits. rewrite IZR_INR. reflexivity.
  - rewrite Sq. simpl INR. field. lra.
  - intros k. rewrite Sq. rewrite !S_INR. assert (H := pos_INR k). field. repeat split; lra.
  - intros i. rewrite E. assert (H := sqrt_lt_R0 _ (Pz i)). apply Rmult_integral_contrapositive_currified; [|lra].
    assert (Sp : 0 < 2 * INR (S i) + al + be) by (rewrite S_INR; assert (H0 := pos_INR i); lra).
    assert (0 < 2 / (2 * INR (S i) + al + be)) by (apply Rdiv_lt_0_compat; lra). lra.
Qed.
End Jacobi.

Lemma gauss_on_unit : forall l f, gauss_on l (-1) 1 f = apply_rule l f.
Proof.
  intros. unfold gauss_on, apply_rule. replace ((1 - -1) / 2) with 1 by field. rewrite Rmult_1_l. f_equal. apply map_ext.
  intros [x w]. simpl. f_equal. f_equal. field.
Qed.

Lemma not_delegated : forall al be : R, ~ delegated al be ->
  (@neqb RA al lit0 && @neqb RA be lit0 = false) /\ (@neqb RA al lit_neg_half && @neqb RA be lit_neg_half = false) /\
  (@neqb RA al lit_half && @neqb RA be lit_half = false).
Proof.
  intros al be H.
  assert (G : forall c : R, ~ (al = c /\ be = c) -> @neqb RA al c && @neqb RA be c = false).
  { intros c Hc. destruct (@neqb RA al c) eqn:E1; [|reflexivity]. destruct (@neqb RA be c) eqn:E2; [|reflexivity].
    exfalso. apply Hc. split; apply ra_neqb; assumption. }
  unfold delegated in H. rewrite ra_lit0, ra_half, ra_neg_half. repeat split; apply G; tauto.
Qed.

(** The pairs before the correction of the middle node. *)
Lemma jacobi_new_inv : forall t (ext : Linalg RA) n (al be : Param RA) (r : GaussJacobi RA), (2 <= n)%Z ->
  ~ delegated (param_get al) (param_get be) -> jacobi_new t ext n al be = Ok r ->
  exists ps : Pairs RA, @golub_welsch RA ext (Z.to_nat n) (jacobi_diag (param_get al) (param_get be)) (jacobi_off_diag (param_get al) (param_get be))
      (jacobi_scale (param_get al) (param_get be)) = Ok ps /\
    (if (n mod 2 =? 1)%Z then zero_node ps (Z.to_nat (n / 2)) else Ok ps) = Ok (jacobi_pairs r).
Proof.
  intros t ext n al be r Hn Nd H. unfold jacobi_new in H. destruct (not_delegated _ _ Nd) as (D1 & D2 & D3).
  rewrite D1, D2, D3 in H. replace (n =? 1)%Z with false in H by (symmetry; apply Z.eqb_neq; lia).
  destruct (golub_welsch _ _ _ _ _) as [ps|] eqn:E; [|discriminate]. cbn [bind] in H. exists ps. split; [reflexivity|].
  destruct (if (n mod 2 =? 1)%Z then zero_node ps (Z.to_nat (n / 2)) else Ok ps) as [ps'|]; [|discriminate].
  cbn [bind] in H. injection H; intros <-. reflexivity.
Qed.

Lemma jacobi_scale_R : forall al be, @jacobi_scale RA al be = jacobi_mass al be.
Proof. intros. unfold jacobi_scale, jacobi_mass. ra_simpl. ra_lits. reflexivity. Qed.
Lemma jacobi_mass_pos : forall al be, -1 < al -> -1 < be -> al + be <> -1 -> 0 < jacobi_mass al be.
Proof.
  intros al be Hal Hbe Hab. unfold jacobi_mass.
  assert (G1 := gamma_pos (al + 1) ltac:(lra)). assert (G2 := gamma_pos (be + 1) ltac:(lra)).
  assert (P2 := Rpower_gt0 2 (al + be + 1)).
  assert (N : 0 < Rpower 2 (al + be + 1) * @gamma RA (al + 1) * @gamma RA (be + 1)) by (apply Rmult_lt_0_compat; [apply Rmult_lt_0_compat|]; assumption).
  set (u := Rpower 2 (al + be + 1) * @gamma RA (al + 1) * @gamma RA (be + 1)) in *.
  destruct (Rlt_or_le 0 (al + be + 1)) as [H|H].
  - assert (G3 := gamma_pos (al + be + 1) H). apply Rdiv_lt_0_compat; [apply Rdiv_lt_0_compat|]; assumption.
  - assert (G3 := gamma_neg (al + be + 1) ltac:(lra)).
    replace (u / @gamma RA (al + be + 1) / (al + be + 1)) with (u / (- @gamma RA (al + be + 1)) / (- (al + be + 1))).
    + apply Rdiv_lt_0_compat; [apply Rdiv_lt_0_compat|]; [exact N|lra|lra].
    + assert (E : forall x y : R, x <> 0 -> y <> 0 -> u / - x / - y = u / x / y) by (intros; field; split; assumption).
      apply E; lra.
Qed.

Section JacobiRule.
Variables (t : Target) (ext : Linalg RA) (n : Z) (pa pb : Param RA) (r : GaussJacobi RA).
Let al : R := param_get pa.
Let be : R := param_get pb.
Hypothesis Hn : (2 <= n)%Z.
Hypothesis Hal : -1 < al.
Hypothesis Hbe : -1 < be.
Hypothesis Hab : al + be <> -1.
Hypothesis Nd : ~ delegated al be.
Hypothesis So : sorts ext.
Hypothesis Ex : exact_on ext (Z.to_nat n) (@jacobi_diag RA al be) (@jacobi_off_diag RA al be).
Hypothesis Hr : jacobi_new t ext n pa pb = Ok r.

Lemma jacobi_gw_exact : forall (ps : list (R * R)) M, @golub_welsch RA ext (Z.to_nat n) (@jacobi_diag RA al be) (@jacobi_off_diag RA al be) (jacobi_mass al be) = Ok ps ->
  jacobi_integral al be (fun _ => 1) M -> forall f, polynomial (2 * Z.to_nat n - 1) f ->
  apply_rule ps f = jacobi_mass al be / M * jacobi_L al be f.
Proof.
  intros ps M HG HM f Hf. destruct (jacobi_coeffs al be Hal Hbe Hab) as (Ca0 & CaS & Cb0 & CbS & Cz).
  assert (EM : jacobi_L al be (fun _ => 1) = M) by (apply is_RInt_gen_unique; exact HM).
  assert (Mp := jacobi_one_pos al be Hal Hbe). rewrite EM in Mp.
  set (c := jacobi_mass al be / M).
  apply (gwx_gauss ext (Z.to_nat n) (@jacobi_diag RA al be) (@jacobi_off_diag RA al be) (jacobi_mass al be) ltac:(lia)
          (fun i _ => Cz i) So Ex ps (fun f => c * jacobi_L al be f)).
  - exact HG.
  - apply scaled_linear, jacobi_linear; assumption.
  - cbv beta. rewrite EM. unfold c. field. lra.
  - intros i k Hik _. cbv beta. rewrite (jacobi_orth al be Hal Hbe _ _ Ca0 CaS Cb0 CbS); [ring|lia].
  - exact Hf.
Qed.

Lemma jacobi_inv : exists ps : list (R * R), @golub_welsch RA ext (Z.to_nat n) (@jacobi_diag RA al be) (@jacobi_off_diag RA al be) (jacobi_mass al be) = Ok ps /\
   (if (n mod 2 =? 1)%Z then @zero_node RA ps (Z.to_nat (n / 2)) else Ok ps) = Ok (jacobi_pairs r).
Proof.
  destruct (jacobi_new_inv t ext n pa pb r Hn Nd Hr) as (ps & H1 & H2). exists ps. rewrite <- jacobi_scale_R. split; assumption.
Qed.

Lemma jacobi_even_exact : (n mod 2 = 0)%Z -> forall M, jacobi_integral al be (fun _ => 1) M ->
  forall f, polynomial (2 * Z.to_nat n - 1) f ->
  exists v, jacobi_integral al be f v /\ jacobi_value r (-1) 1 f = jacobi_mass al be / M * v.
Proof.
  intros Ev M HM f Hf. exists (jacobi_L al be f). split; [apply (jacobi_gen al be Hal Hbe _ f Hf)|].
  unfold jacobi_value. rewrite jacobi_R, gauss_on_unit. destruct jacobi_inv as (ps & H1 & H2). rewrite Ev in H2. simpl in H2.
  injection H2; intros <-. apply jacobi_gw_exact; assumption.
Qed.

(** odd degree: what replacing the middle node by zero does *)
Lemma apply_rule_nth : forall l f, apply_rule l f = rsum (length l) (fun i => f (fst (nth i l (0, 0))) * snd (nth i l (0, 0))).
Proof.
  induction l as [|p l IH]; intros f; [reflexivity|]. simpl length. rewrite rsum_first.
  unfold apply_rule in *. simpl. rewrite IH. reflexivity.
Qed.
Lemma zero_node_rule : forall (ps qs : list (R * R)) k, @zero_node RA ps k = Ok qs -> (k < length ps)%nat ->
  length qs = length ps /\ (forall j, nth j qs (0, 0) = if Nat.eqb j k then (0, snd (nth k ps (0, 0))) else nth j ps (0, 0)) /\
  forall f, apply_rule qs f = apply_rule ps f + snd (nth k ps (0, 0)) * (f 0 - f (fst (nth k ps (0, 0)))).
Proof.
  intros ps qs k H Hk. destruct (@zero_node_ok RA ps k Hk) as (qs' & E & L & N). rewrite H in E. injection E; intros <-.
  assert (N' : forall j, nth j qs (0, 0) = if Nat.eqb j k then (0, snd (nth k ps (0, 0))) else nth j ps (0, 0)).
  { intros j. assert (Q := N j (0, 0)). rewrite ra_lit0 in Q. exact Q. }
  split; [exact L|]. split; [exact N'|]. intros f. rewrite !apply_rule_nth.
  replace (length qs) with (length ps) by (symmetry; exact L).
  rewrite (rsum_ext _ _ (fun i => f (fst (nth i ps (0, 0))) * snd (nth i ps (0, 0)) +
     (if Nat.eqb i k then snd (nth i ps (0, 0)) * (f 0 - f (fst (nth i ps (0, 0)))) else 0))).
  - rewrite rsum_plus. f_equal. apply (rsum_delta _ k (fun i => snd (nth i ps (0, 0)) * (f 0 - f (fst (nth i ps (0, 0)))))). exact Hk.
  - intros i Hi. rewrite N'. destruct (Nat.eqb_spec i k) as [->|]; cbn [fst snd]; ring.
Qed.

Lemma odd_half : forall m, (m mod 2 = 1)%Z -> (1 <= m)%Z -> Z.to_nat m = (2 * Z.to_nat (m / 2) + 1)%nat.
Proof.
  intros m Hm Hp. assert (E := Z.div_mod m 2 ltac:(lia)). assert (0 <= m / 2)%Z by (apply Z.div_pos; lia). lia.
Qed.

(** The defect of a rule of odd degree: [x], [w] are the middle node and weight computed
    by Golub-Welsch. *)
Lemma jacobi_odd_defect : (n mod 2 = 1)%Z -> forall M, jacobi_integral al be (fun _ => 1) M ->
  exists x w, monic (@jacobi_diag RA al be) (@jacobi_off_diag RA al be) (Z.to_nat n) x = 0 /\ 0 < w /\
  nth (Z.to_nat (n / 2)) (jacobi_pairs r) (0, 0) = (0, w) /\
  forall f, polynomial (2 * Z.to_nat n - 1) f ->
  exists v, jacobi_integral al be f v /\ jacobi_value r (-1) 1 f = jacobi_mass al be / M * v + w * (f 0 - f x).
Proof.
  intros Od M HM. destruct jacobi_inv as (ps & H1 & H2). rewrite Od in H2. simpl in H2.
  destruct (jacobi_coeffs al be Hal Hbe Hab) as (_ & _ & _ & _ & Cz).
  assert (L := gwx_length ext (Z.to_nat n) _ _ _ ps ltac:(lia) So Ex H1).
  assert (Hh := odd_half n Od ltac:(lia)). assert (Hk : (Z.to_nat (n / 2) < length ps)%nat) by (rewrite L; lia).
  assert (Rt := gwx_roots ext (Z.to_nat n) _ _ _ ps ltac:(lia) (fun i _ => Cz i) So Ex H1).
  assert (Ps := gwx_pos ext (Z.to_nat n) _ _ _ ltac:(lia) (fun i _ => Cz i) So Ex ps H1 (jacobi_mass_pos al be Hal Hbe Hab)).
  rewrite List.Forall_forall in Rt, Ps. assert (Im : In (nth (Z.to_nat (n / 2)) ps (0, 0)) ps) by (apply nth_In; exact Hk).
  destruct (zero_node_rule ps (jacobi_pairs r) (Z.to_nat (n / 2)) H2 Hk) as (_ & N & Ap).
  exists (fst (nth (Z.to_nat (n / 2)) ps (0, 0))), (snd (nth (Z.to_nat (n / 2)) ps (0, 0))).
  split; [apply Rt, Im|]. split; [apply Ps, Im|]. split; [rewrite N, Nat.eqb_refl; reflexivity|].
  intros f Hf. exists (jacobi_L al be f). split; [apply (jacobi_gen al be Hal Hbe _ f Hf)|].
  unfold jacobi_value. rewrite jacobi_R, gauss_on_unit, Ap. f_equal. apply jacobi_gw_exact; assumption.
Qed.

Lemma jacobi_odd_symmetric_exact : (n mod 2 = 1)%Z -> al = be -> forall M, jacobi_integral al be (fun _ => 1) M ->
  forall f, polynomial (2 * Z.to_nat n - 1) f ->
  exists v, jacobi_integral al be f v /\ jacobi_value r (-1) 1 f = jacobi_mass al be / M * v.
Proof.
  intros Od Eab M HM f Hf. exists (jacobi_L al be f). split; [apply (jacobi_gen al be Hal Hbe _ f Hf)|].
  unfold jacobi_value. rewrite jacobi_R, gauss_on_unit.
  destruct jacobi_inv as (ps & H1 & H2). rewrite Od in H2. simpl in H2.
  destruct (jacobi_coeffs al be Hal Hbe Hab) as (Ca0 & CaS & _ & _ & Cz).
  assert (L := gwx_length ext (Z.to_nat n) _ _ _ ps ltac:(lia) So Ex H1).
  assert (Hh := odd_half n Od ltac:(lia)). assert (Hk : (Z.to_nat (n / 2) < length ps)%nat) by (rewrite L; lia).
  destruct (zero_node_rule ps (jacobi_pairs r) (Z.to_nat (n / 2)) H2 Hk) as (_ & _ & Ap). rewrite Ap.
  assert (Mid := gwx_middle ext (Z.to_nat n) _ _ _ ps ltac:(lia) (fun i _ => Cz i)
     ltac:(intros [|i]; [rewrite Ca0|rewrite CaS]; rewrite Eab; unfold Rdiv; ring) So Ex H1 (Z.to_nat (n / 2)) Hh).
  replace (fst (nth (Z.to_nat (n / 2)) ps (0, 0))) with 0.
  - rewrite (jacobi_gw_exact ps M H1 HM f Hf). ring.
  - rewrite <- Mid at 1. exact (map_nth fst ps (0, 0) (Z.to_nat (n / 2))).
Qed.
End JacobiRule.
