(** Geometric convergence of the Gauss rules. *)
From Coq Require Import Reals Lra Lia List Arith ZArith FunctionalExtensionality.
From Coquelicot Require Import Coquelicot.
From Verif Require Import Arith RInst Machine Param Rules GolubWelsch Jacobi Chebyshev Legendre RSum PolySpec PolyProof Improper ImproperExist Gaussian JacobiWeight Spectral
  WeightSpec MassSpec EigenSpec GWSpec RuleSpec ErrorSpec Interp GaussErr ErrRules GaussProof GaussExact JacobiMore GammaProof TransferSpec TransferProof ChebSpec ChebExact ChebRule ErrCheb Bernstein ErrConv LegInt ErrLimit LegConv ErrLeg BogUse GeoSpec.
Import ListNotations.
Local Open Scope R_scope.

Lemma sum_n_rsum : forall (u : nat -> R) k, sum_n u k = rsum (S k) u.
Proof.
  intros u. induction k.
  - rewrite sum_O. rewrite rsum_S. simpl. lra.
  - rewrite sum_Sn, IHk, (rsum_S (S k)). reflexivity.
Qed.
Lemma geo_tail : forall (u : nat -> R) C rho N, 0 <= rho < 1 -> (forall k, Rabs (u k) <= C * rho ^ k) ->
  forall j, Rabs (rsum (N + j) u - rsum N u) <= C * rho ^ N * (1 - rho ^ j) / (1 - rho).
Proof.
  intros u C rho N Hr Hu. induction j.
  - rewrite Nat.add_0_r. rewrite Rminus_diag_eq by reflexivity. rewrite Rabs_R0. simpl. right. field. lra.
  - rewrite Nat.add_succ_r, rsum_S. replace (rsum (N + j) u + u (N + j)%nat - rsum N u) with (rsum (N + j) u - rsum N u + u (N + j)%nat) by ring.
    eapply Rle_trans; [apply Rabs_triang|]. assert (U := Hu (N + j)%nat). rewrite pow_add in U.
    apply Rle_trans with (C * rho ^ N * (1 - rho ^ j) / (1 - rho) + C * (rho ^ N * rho ^ j)); [lra|]. right. rewrite <- tech_pow_Rmult. field. lra.
Qed.
Lemma geo_C : forall (u : nat -> R) C rho, (forall k, Rabs (u k) <= C * rho ^ k) -> 0 <= C.
Proof. intros u C rho Hu. assert (U := Hu O). simpl in U. assert (V := Rabs_pos (u O)). lra. Qed.
Lemma geo_limit : forall (u : nat -> R) C rho l N, 0 <= rho < 1 -> (forall k, Rabs (u k) <= C * rho ^ k) -> is_series u l ->
  Rabs (l - rsum N u) <= C * rho ^ N / (1 - rho).
Proof.
  intros u C rho l N Hr Hu Hs. assert (C0 := geo_C u C rho Hu).
  assert (L : is_lim_seq (fun k => Rabs (sum_n u k - rsum N u)) (Rabs (l - rsum N u))).
  { apply (is_lim_seq_abs _ (Finite (l - rsum N u))). apply is_lim_seq_minus'; [exact Hs|apply is_lim_seq_const]. }
  apply (is_lim_seq_le_loc (fun k => Rabs (sum_n u k - rsum N u)) (fun _ => C * rho ^ N / (1 - rho)) (Rabs (l - rsum N u)) (C * rho ^ N / (1 - rho)) );
    [|exact L|apply is_lim_seq_const].
  exists N. intros k Hk. rewrite sum_n_rsum. replace (S k) with (N + (S k - N))%nat by lia.
  eapply Rle_trans; [apply (geo_tail u C rho N Hr Hu)|]. apply Rmult_le_compat_r; [left; apply Rinv_0_lt_compat; lra|].
  assert (P : 0 <= C * rho ^ N) by (apply Rmult_le_pos; [exact C0|apply pow_le; lra]). assert (0 <= rho ^ (S k - N)) by (apply pow_le; lra). nra.
Qed.
Section Expansion.
Variables (a b : R) (f : R -> R) (C rho : R).
Hypothesis Hab : a <> b.
Hypothesis Hr : 0 <= rho < 1.
Hypothesis Hf : geometric_expansion a b f C rho.
Lemma exp_C : 0 <= C.
Proof.
  destruct Hf as (p & _ & B & _). apply (geo_C (fun k => p k a) C rho). intros k. apply B. unfold closed_between, Rmin, Rmax. destruct (Rle_dec a b); lra.
Qed.
Lemma exp_approx : forall N, (1 <= N)%nat -> exists q, polynomial (N - 1) q /\ forall x, closed_between a b x -> Rabs (f x - q x) <= C * rho ^ N / (1 - rho).
Proof.
  intros N HN. destruct Hf as (p & Hp & B & S). exists (fun x => rsum N (fun k => p k x)). split.
  - apply (poly_sum (N - 1) N p). intros i Hi. apply (poly_weaken i); [lia|apply Hp].
  - intros x Hx. apply geo_limit; [exact Hr|intros k; apply B, Hx|apply S, Hx].
Qed.
Lemma exp_bounded : forall x, closed_between a b x -> Rabs (f x) <= C / (1 - rho).
Proof.
  intros x Hx. destruct Hf as (p & Hp & B & S). assert (G := geo_limit (fun k => p k x) C rho (f x) 0 Hr (fun k => B k x Hx) (S x Hx)).
  simpl in G. rewrite Rminus_0_r, Rmult_1_r in G. exact G.
Qed.
Lemma exp_continuous : continuous_on a b f.
Proof.
  intros x Hx eps Heps. assert (C0 := exp_C).
  assert (L : is_lim_seq (fun N => C * rho ^ N / (1 - rho)) 0).
  { replace (Finite 0) with (Rbar_mult (C / (1 - rho)) 0) by (simpl; f_equal; ring).
    apply (is_lim_seq_ext (fun N => C / (1 - rho) * rho ^ N)); [intros; unfold Rdiv; ring|]. apply is_lim_seq_scal_l. apply is_lim_seq_geom. rewrite Rabs_right; lra. }
  destruct (L (fun y => Rabs y < eps / 4)) as [N HN].
  { assert (P : 0 < eps / 4) by lra. exists (mkposreal _ P). intros y Hy. unfold ball in Hy. simpl in Hy. unfold AbsRing_ball, abs, minus, plus, opp in Hy. simpl in Hy. rewrite Ropp_0, Rplus_0_r in Hy. exact Hy. }
  specialize (HN (S N) ltac:(lia)). destruct (exp_approx (S N) ltac:(lia)) as (q & Hq & Bq).
  assert (Cq := poly_cont _ _ x Hq). apply continuity_pt_filterlim in Cq. destruct (Cq (eps / 4) ltac:(lra)) as (d & Hd & Dq).
  exists d. split; [exact Hd|]. intros y Hy Hxy.
  assert (Q : Rabs (q y - q x) < eps / 4).
  { destruct (Req_dec x y) as [->|Nxy]; [rewrite Rminus_diag_eq by reflexivity; rewrite Rabs_R0; lra|].
    apply (Dq y). split; [split; [exact I|exact Nxy]|exact Hxy]. }
  assert (X := Bq x Hx). assert (Y := Bq y Hy). apply Rabs_def2 in HN. apply Rabs_def2 in Q. apply Rabs_le_between in X. apply Rabs_le_between in Y.
  apply Rabs_def1; lra.
Qed.
Lemma exp_pulled : forall N, (1 <= N)%nat -> exists q, polynomial (N - 1) q /\ forall x, -1 <= x <= 1 -> Rabs (pulled a b f x - q x) <= C * rho ^ N / (1 - rho).
Proof.
  intros N HN. destruct (exp_approx N HN) as (q & Hq & B). exists (pulled a b q). split; [apply pulled_poly, Hq|].
  intros x Hx. apply (B ((b - a) / 2 * x + (a + b) / 2)). apply closed_pull, Hx.
Qed.
Lemma geo_interval : forall (w : R -> R) (ps : list (R * R)) c m W, (1 <= m)%nat -> (forall x, unit_open x -> 0 <= w x) -> 0 <= c ->
  List.Forall (fun xw : R * R => -1 < fst xw < 1 /\ 0 < snd xw) ps ->
  (forall p, polynomial (2 * m - 1) p -> exists v : R, is_RInt_gen (fun x => w x * p x) (at_right (-1)) (at_left 1) v /\ apply_rule ps p = c * v) ->
  is_RInt_gen (fun x => w x * 1) (at_right (-1)) (at_left 1) W ->
  forall v, weighted_integral w a b f v -> Rabs (gauss_on ps a b f - c * v) <= Rabs (b - a) * (c * W) * (C * rho ^ (2 * m) / (1 - rho)).
Proof.
  intros w ps c m W Hm Hw Hc In_ Ex HW v Hv. destruct (exp_pulled (2 * m) ltac:(lia)) as (q & Hq & B).
  exact (interval_best w ps c m W Hm Hw Hc In_ Ex HW a b f q _ v Hab Hq B Hv).
Qed.
Lemma chebyshev1_geometric : exists v, weighted_integral (fun x => / sqrt (1 - x * x)) a b f v /\
  forall t n (r : GaussChebyshevFirstKind RA), (1 <= n < usize_max t)%Z -> chebyshev1_new t n = Ok r ->
  Rabs (chebyshev1_value r a b f - v) <= Rabs (b - a) * PI * (C * rho ^ (2 * Z.to_nat n) / (1 - rho)).
Proof.
  destruct w1_has as [W HW]. destruct (cont_exists w1 W a b f Hab w1_nonneg w1_cont HW exp_continuous) as [v Hv].
  exists v. split; [exact Hv|]. intros t n r Hn Hr'. set (m := Z.to_nat n).
  destruct (cheb1_shape t n r Hn Hr') as (_ & _ & In_ & _).
  assert (Pr := cheb1_pairs t n r Hn Hr'). fold m in Pr.
  assert (Hm : (1 <= m)%nat) by (unfold m; lia).
  unfold chebyshev1_value. rewrite chebyshev1_R. rewrite <- (Rmult_1_l v), <- (Rmult_1_l PI).
  apply (geo_interval w1 (chebyshev1_pairs r) 1 m PI); try assumption.
  - exact w1_nonneg.
  - lra.
  - intros p Hp. exists (L_1 p). split; [apply (wint_gen unit_open _ _ unit_convex unit_a unit_b w1 w1_cont mom1 _ p Hp)|].
    rewrite Rmult_1_l, Pr. apply cheb1_rule_L; [lia|exact Hp].
  - exact w1_mass.
Qed.
Lemma chebyshev2_geometric : exists v, weighted_integral (fun x => sqrt (1 - x * x)) a b f v /\
  forall t n (r : GaussChebyshevSecondKind RA), (1 <= n < usize_max t)%Z -> chebyshev2_new t n = Ok r ->
  Rabs (chebyshev2_value r a b f - v) <= Rabs (b - a) * (PI / 2) * (C * rho ^ (2 * Z.to_nat n) / (1 - rho)).
Proof.
  destruct w2_has as [W HW]. destruct (cont_exists w2 W a b f Hab (fun x _ => sqrt_pos _) (fun x _ => sq_cont x) HW exp_continuous) as [v Hv].
  exists v. split; [exact Hv|]. intros t n r Hn Hr'. set (m := Z.to_nat n).
  destruct (cheb2_shape t n r Hn Hr') as (_ & _ & In_ & _).
  assert (Pr := cheb2_pairs t n r Hn Hr'). fold m in Pr.
  assert (Hm : (1 <= m)%nat) by (unfold m; lia).
  unfold chebyshev2_value. rewrite chebyshev2_R. rewrite <- (Rmult_1_l v), <- (Rmult_1_l (PI / 2)).
  apply (geo_interval w2 (chebyshev2_pairs r) 1 m (PI / 2)); try assumption.
  - intros x _. apply sqrt_pos.
  - lra.
  - intros p Hp. exists (L_2 p). split; [apply (wint_gen unit_open _ _ unit_convex unit_a unit_b w2 (fun x _ => sq_cont x) mom2 _ p Hp)|].
    rewrite Rmult_1_l, Pr. apply cheb2_rule_L; [lia|exact Hp].
  - exact w2_mass.
Qed.
Lemma jacobi_geometric : forall (pa pb : Param RA), -1 < param_get pa -> -1 < param_get pb -> param_get pa + param_get pb <> -1 ->
  ~ delegated (param_get pa) (param_get pb) -> forall T, jacobi_integral (param_get pa) (param_get pb) (fun _ => 1) T ->
  exists v, weighted_integral (fun x => Rpower (1 - x) (param_get pa) * Rpower (1 + x) (param_get pb)) a b f v /\
  forall t (ext : Linalg RA) n (r : GaussJacobi RA), (2 <= n)%Z -> sorts ext ->
    exact_on ext (Z.to_nat n) (@jacobi_diag RA (param_get pa) (param_get pb)) (@jacobi_off_diag RA (param_get pa) (param_get pb)) ->
    jacobi_new t ext n pa pb = Ok r -> (n mod 2 = 0)%Z \/ param_get pa = param_get pb ->
    Rabs (jacobi_value r a b f - jacobi_mass (param_get pa) (param_get pb) / T * v) <=
      Rabs (b - a) * jacobi_mass (param_get pa) (param_get pb) * (C * rho ^ (2 * Z.to_nat n) / (1 - rho)).
Proof.
  intros pa pb Hal Hbe Hsum Nd T HT.
  destruct (jacw_moments (param_get pa) (param_get pb) Hal Hbe 0) as [W HW].
  destruct (cont_exists (jacw (param_get pa) (param_get pb)) W a b f Hab) as [v Hv].
  - intros x _. unfold jacw. left. apply Rmult_lt_0_compat; apply exp_pos.
  - apply jacw_cont.
  - revert HW. apply has_int_ext. intros x _. simpl. ring.
  - exact exp_continuous.
  - exists v. split; [exact Hv|]. intros t ext n r Hn So Ex Hr' Par. set (m := Z.to_nat n).
    assert (Int := jacobi_interior t ext n pa pb r Hn Hal Hbe Hsum Nd So Ex Hr'). destruct Int as [Int _].
    assert (Xt : forall p, polynomial (2 * m - 1) p -> exists v : R, jacobi_integral (param_get pa) (param_get pb) p v /\
       jacobi_value r (-1) 1 p = jacobi_mass (param_get pa) (param_get pb) / T * v).
    { intros p Hp. destruct (Z.eq_dec (n mod 2) 0) as [Ev|Od].
      - exact (jacobi_even_exact t ext n pa pb r Hn Hal Hbe Hsum Nd So Ex Hr' Ev T HT p Hp).
      - destruct Par as [|Eab]; [contradiction|]. assert (O := Z.mod_pos_bound n 2 ltac:(lia)).
        exact (jacobi_odd_symmetric_exact t ext n pa pb r Hn Hal Hbe Hsum Nd So Ex Hr' ltac:(lia) Eab T HT p Hp). }
    set (al := param_get pa : R) in *. set (be := param_get pb : R) in *.
    assert (ET : jacobi_L al be (fun _ => 1) = T) by (apply is_RInt_gen_unique; exact HT).
    assert (Tp := jacobi_one_pos al be Hal Hbe). rewrite ET in Tp.
    assert (Jp := jacobi_mass_pos al be Hal Hbe Hsum). set (g := jacobi_mass al be) in *.
    unfold jacobi_value. rewrite jacobi_R. replace (Rabs (b - a) * g) with (Rabs (b - a) * (g / T * T)) by (field; lra).
    apply (geo_interval (jacw al be) (jacobi_pairs r) (g / T) m T); try assumption.
    + unfold m. lia.
    + intros x _. unfold jacw. left. apply Rmult_lt_0_compat; apply exp_pos.
    + left. apply Rdiv_lt_0_compat; assumption.
    + intros p Hp. destruct (Xt p Hp) as (u & Hu & Eu). exists u. split; [exact Hu|].
      rewrite <- Eu. unfold jacobi_value. rewrite jacobi_R, gauss_on_unit. reflexivity.
Qed.
Lemma legendre_geometric : forall (t : Target) (n : nat) (r : GaussLegendre RA),
  (100 <= usize_max t)%Z -> (1 <= n)%nat -> (2 * Z.of_nat n <= usize_max t)%Z -> legendre_new t (Z.of_nat n) = Ok r ->
  ex_RInt f a b /\
  Rabs (legendre_value r a b f - RInt f a b) <= ((if (n <=? 100)%nat then 3 else 105) / 10 ^ 14 + 5 * rho ^ (2 * n)) * (C / (1 - rho)) * (Rabs (b - a) / 2).
Proof.
  intros t n r Ht Hn H2 E. destruct (exp_approx (2 * n) ltac:(lia)) as (q & Hq & B).
  split; [apply continuous_on_int, exp_continuous|].
  assert (K : forall k, Rabs (legendre_value r a b f - RInt f a b) <= (k * (C / (1 - rho)) + 5 * (C * rho ^ (2 * n) / (1 - rho))) * (Rabs (b - a) / 2) ->
    Rabs (legendre_value r a b f - RInt f a b) <= (k + 5 * rho ^ (2 * n)) * (C / (1 - rho)) * (Rabs (b - a) / 2)).
  { intros k H. eapply Rle_trans; [exact H|]. right. f_equal. unfold Rdiv. ring. }
  destruct (Nat.leb_spec n 100) as [L|G]; apply K.
  - apply (value_any t n r Ht ltac:(lia) H2 E a b f q); [exact Hq|apply continuous_on_int, exp_continuous|exact exp_bounded|exact B].
  - apply (big_any t n r Ht G H2 E a b f q); [exact Hq|apply continuous_on_int, exp_continuous|exact exp_bounded|exact B].
Qed.
End Expansion.

(** ** Chebyshev series and power series *)
Lemma unit_of : forall a b x, a <> b -> closed_between a b x -> -1 <= to_unit a b x <= 1 /\ x = (b - a) / 2 * to_unit a b x + (a + b) / 2.
Proof.
  intros a b x E H. unfold to_unit. split; [|field; lra].
  unfold closed_between, Rmin, Rmax in H. destruct (Rle_dec a b) as [L|L].
  - assert (P : 0 < b - a) by lra. split.
    + apply (Rmult_le_reg_r (b - a)); [exact P|]. replace ((2 * (x - a) / (b - a) - 1) * (b - a)) with (2 * (x - a) - (b - a)) by (field; lra). lra.
    + apply (Rmult_le_reg_r (b - a)); [exact P|]. replace ((2 * (x - a) / (b - a) - 1) * (b - a)) with (2 * (x - a) - (b - a)) by (field; lra). lra.
  - assert (P : 0 < a - b) by lra. split.
    + apply (Rmult_le_reg_r (a - b)); [exact P|]. replace ((2 * (x - a) / (b - a) - 1) * (a - b)) with (- (2 * (x - a) - (b - a))) by (field; lra). lra.
    + apply (Rmult_le_reg_r (a - b)); [exact P|]. replace ((2 * (x - a) / (b - a) - 1) * (a - b)) with (- (2 * (x - a) - (b - a))) by (field; lra). lra.
Qed.
Lemma to_unit_poly : forall a b k p, a <> b -> polynomial k p -> polynomial k (fun x => p (to_unit a b x)).
Proof.
  intros a b k p E H. apply (poly_ext k (fun x => p (2 / (b - a) * x + (- (2 * a) / (b - a) - 1)))); [|apply poly_affine, H].
  intros x. f_equal. unfold to_unit. field. lra.
Qed.
Lemma chebyshev_series : forall a b f C rho (c : nat -> R), a <> b -> 0 <= rho -> (forall k, Rabs (c k) <= C * rho ^ k) ->
  (forall th, is_series (fun k => c k * cos (INR k * th)) (f ((b - a) / 2 * cos th + (a + b) / 2))) ->
  geometric_expansion a b f C rho.
Proof.
  intros a b f C rho c E Hr Hc Hs. exists (fun k x => c k * ch 1 k (to_unit a b x)). split; [|split].
  - intros k. apply poly_scal. apply (to_unit_poly a b k (ch 1 k) E). apply ch_poly.
  - intros k x Hx. destruct (unit_of a b x E Hx) as [U _]. rewrite <- (cos_acos _ U), T_cos, Rabs_mult.
    assert (L : Rabs (cos (INR k * acos (to_unit a b x))) <= 1) by (apply Rabs_le, COS_bound).
    assert (P := Hc k). assert (Q := Rabs_pos (c k)). assert (S := Rabs_pos (cos (INR k * acos (to_unit a b x)))). nra.
  - intros x Hx. destruct (unit_of a b x E Hx) as [U V]. assert (S := Hs (acos (to_unit a b x))). rewrite (cos_acos _ U), <- V in S.
    revert S. apply is_series_ext. intros k. rewrite <- T_cos, (cos_acos _ U). reflexivity.
Qed.
Lemma power_series : forall a b f C rho (c : nat -> R), a <> b -> 0 <= rho -> (forall k, Rabs (c k) <= C * rho ^ k) ->
  (forall x, -1 <= x <= 1 -> is_series (fun k => c k * x ^ k) (f ((b - a) / 2 * x + (a + b) / 2))) ->
  geometric_expansion a b f C rho.
Proof.
  intros a b f C rho c E Hr Hc Hs. exists (fun k x => c k * (to_unit a b x) ^ k). split; [|split].
  - intros k. apply poly_scal. apply (to_unit_poly a b k (fun x => x ^ k) E). apply poly_pow.
  - intros k x Hx. destruct (unit_of a b x E Hx) as [U _]. rewrite Rabs_mult.
    assert (L : Rabs (to_unit a b x ^ k) <= 1). { rewrite <- RPow_abs. rewrite <- (pow1 k). apply pow_incr. split; [apply Rabs_pos|apply Rabs_le, U]. }
    assert (P := Hc k). assert (Q := Rabs_pos (c k)). assert (S := Rabs_pos (to_unit a b x ^ k)). nra.
  - intros x Hx. destruct (unit_of a b x E Hx) as [U V]. assert (S := Hs _ U). rewrite <- V in S. exact S.
Qed.
(** 1/(z - x) on [-1,1] *)
Lemma pole_expansion : forall z, 1 < z -> geometric_expansion (-1) 1 (fun x => / (z - x)) (/ z) (/ z).
Proof.
  intros z Hz. assert (P : 0 < / z) by (apply Rinv_0_lt_compat; lra).
  apply (power_series (-1) 1 _ (/ z) (/ z) (fun k => / z * (/ z) ^ k)); [lra|lra| |].
  - intros k. right. apply Rabs_right, Rle_ge, Rmult_le_pos; [lra|apply pow_le; lra].
  - intros x Hx. replace (/ (z - ((1 - -1) / 2 * x + (-1 + 1) / 2))) with (scal (/ z) (/ (1 - x / z))).
    2:{ unfold scal. simpl. unfold mult. simpl. field. split; [|split]; lra. }
    apply (is_series_ext (fun k => scal (/ z) ((x / z) ^ k))).
    + intros k. unfold scal. simpl. unfold mult. simpl. unfold Rdiv. rewrite Rpow_mult_distr. ring.
    + apply (is_series_scal (K := R_AbsRing) (V := R_NormedModule) (/ z) (fun k => (x / z) ^ k)). apply is_series_geom. unfold Rdiv. rewrite Rabs_mult, (Rabs_right (/ z)) by lra.
      assert (L : Rabs x <= 1) by (apply Rabs_le, Hx). assert (Z1 : / z < 1) by (rewrite <- Rinv_1; apply Rinv_lt_contravar; lra). assert (Q := Rabs_pos x). nra.
Qed.
