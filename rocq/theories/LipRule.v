(** The rules on integrands with bounded slope. *)
From Coq Require Import Reals Lra Lia List Arith ZArith FunctionalExtensionality.
From Coquelicot Require Import Coquelicot.
From Verif Require Import Arith RInst RInstProof Machine Param Rules RSum PolySpec PolyProof GolubWelsch GWSpec EigenSpec EigenProof Spectral
  Improper ImproperExist OrthoProof Gaussian LaguerreWeight JacobiWeight WeightSpec Gamma Hermite Laguerre Legendre Chebyshev Jacobi RuleSpec
  GaussProof SizeProof GWRoots GammaProof MassSpec ErrorSpec Interp TransferSpec TransferProof GaussErr GaussExact JacobiMore ChebSpec ChebExact ChebRule ErrRules ErrCheb
  GaussSide MonoSpec StepPoly MonoRule TraceProof LipSpec.
Import ListNotations.
Local Open Scope R_scope.

Lemma apply_comb : forall (l : list (R * R)) c d f g, apply_rule l (fun x => c * f x + d * g x) = c * apply_rule l f + d * apply_rule l g.
Proof. exact (fun l c d f g => TraceProof.gauss_plain_linear l c d f g). Qed.

Lemma lip_rises : forall (D : R -> Prop) lo hi K s f, lo <= hi -> (forall x, D x -> lo <= x <= hi) -> lipschitz_on lo hi K f -> s = 1 \/ s = -1 ->
  rises_between D (fun x => K * x + s * f x) (K * lo + s * f lo) (K * hi + s * f hi).
Proof.
  intros D lo hi K s f Hlh HD Lf Hs.
  assert (Mo : forall x y, lo <= x <= hi -> lo <= y <= hi -> x <= y -> K * x + s * f x <= K * y + s * f y).
  { intros x y Hx Hy L. specialize (Lf x y Hx Hy). rewrite (Rabs_left1 (x - y)) in Lf by lra.
    assert (A1 := Rle_abs (f x - f y)). assert (A2 := Rle_abs (- (f x - f y))). rewrite Rabs_Ropp in A2. destruct Hs; subst s; lra. }
  split.
  - intros x y Hx Hy. apply Mo; apply HD; assumption.
  - intros x Hx. specialize (HD x Hx). split; apply Mo; lra.
Qed.

Section Gen.
Variables (D : R -> Prop) (Fa Fb : (R -> Prop) -> Prop).
Context {PA : ProperFilter Fa} {PB : ProperFilter Fb}.
Hypothesis conv : forall u v x, D u -> D v -> u <= x <= v -> D x.
Hypothesis DA : Fa D.
Hypothesis DB : Fb D.
Hypothesis le : filter_prod Fa Fb (fun uv => fst uv <= snd uv).
Variables (w : R -> R) (ps : list (R * R)) (c : R) (n : nat).
Hypothesis w_nonneg : forall x, D x -> 0 <= w x.
Hypothesis c_nonneg : 0 <= c.
Notation integral f v := (is_RInt_gen (fun x => w x * f x) Fa Fb v).
Hypothesis exactness : forall p, polynomial (2 * n - 1) p -> exists v : R, integral p v /\ apply_rule ps p = c * v.

Lemma integral_comb : forall (f g : R -> R) (s e u v : R), integral f u -> integral g v -> integral (fun x => s * f x + e * g x) (s * u + e * v).
Proof.
  intros f g s e u v Hu Hv.
  assert (X := is_RInt_gen_plus (V := R_NormedModule) _ _ _ _ (is_RInt_gen_scal (V := R_NormedModule) _ s _ Hu) (is_RInt_gen_scal (V := R_NormedModule) _ e _ Hv)).
  refine (eq_ind _ (fun h => is_RInt_gen h Fa Fb (s * u + e * v)) X _ _). extensionality x.
  change (s * (w x * f x) + e * (w x * g x) = w x * (s * f x + e * g x)). ring.
Qed.

Lemma gen_lip : forall (f : R -> R) (lo hi K k v : R), (1 <= n)%nat -> length ps = n -> strictly_ascending ps -> lo <= hi -> (forall x, D x -> lo <= x <= hi) ->
  List.Forall (fun p => D (fst p) /\ 0 <= snd p <= k) ps -> lipschitz_on lo hi K f -> integral f v ->
  Rabs (apply_rule ps f - c * v) <= k * (K * (hi - lo)).
Proof.
  intros f lo hi K k v Hn Ln So Hlh HD Al Lf Hv.
  destruct (exactness (fun x => x)) as (u & Hu & Eu); [apply (poly_weaken 1); [lia|apply poly_id]|].
  assert (G : forall s, s = 1 \/ s = -1 -> Rabs (s * (apply_rule ps f - c * v)) <= k * (K * (hi - lo) + s * (f hi - f lo))).
  { intros s Hs.
    destruct (gen_mono D Fa Fb conv DA DB le w ps c n w_nonneg c_nonneg exactness (fun x => K * x + s * f x) _ _ k (K * u + s * v) Hn Ln So Al
      (lip_rises D lo hi K s f Hlh HD Lf Hs) (integral_comb _ _ K s u v Hu Hv)) as [_ B].
    rewrite (apply_comb ps K s (fun x => x) f), Eu in B.
    replace (K * (c * u) + s * apply_rule ps f - c * (K * u + s * v)) with (s * (apply_rule ps f - c * v)) in B by ring.
    replace (K * hi + s * f hi - (K * lo + s * f lo)) with (K * (hi - lo) + s * (f hi - f lo)) in B by ring. exact B. }
  assert (G1 := G 1 (or_introl eq_refl)). assert (G2 := G (-1) (or_intror eq_refl)).
  rewrite Rabs_mult, (Rabs_right 1), Rmult_1_l in G1 by lra. rewrite Rabs_mult, (Rabs_left (-1)) in G2 by lra. lra.
Qed.
End Gen.

Lemma pulled_lip : forall a b K f, a < b -> lipschitz_on a b K f -> lipschitz_on (-1) 1 (K * ((b - a) / 2)) (pulled a b f).
Proof.
  intros a b K f E Lf x y Hx Hy. unfold pulled. set (h := (b - a) / 2). assert (Hh : 0 < h) by (unfold h; lra).
  assert (B : forall z, -1 <= z <= 1 -> a <= h * z + (a + b) / 2 <= b).
  { intros z Hz. assert (h * -1 <= h * z) by (apply Rmult_le_compat_l; lra). assert (h * z <= h * 1) by (apply Rmult_le_compat_l; lra). unfold h in *. lra. }
  eapply Rle_trans; [apply Lf; apply B; assumption|]. right.
  replace (h * x + (a + b) / 2 - (h * y + (a + b) / 2)) with (h * (x - y)) by ring. rewrite Rabs_mult, (Rabs_pos_eq h) by lra. ring.
Qed.

Lemma interval_lip : forall (w : R -> R) (ps : list (R * R)) c m k, (1 <= m)%nat -> (forall x, unit_open x -> 0 <= w x) -> 0 <= c ->
  List.Forall (fun xw : R * R => -1 < fst xw < 1 /\ 0 <= snd xw <= k) ps -> strictly_ascending ps -> length ps = m ->
  (forall p, polynomial (2 * m - 1) p -> exists v : R, is_RInt_gen (fun x => w x * p x) (at_right (-1)) (at_left 1) v /\ apply_rule ps p = c * v) ->
  forall a b f K v, a < b -> lipschitz_on a b K f -> weighted_integral w a b f v ->
  Rabs (gauss_on ps a b f - c * v) <= (b - a) ^ 2 / 2 * k * K.
Proof.
  intros w ps c m k Hm Hw Hc Al So Ln Ex a b f K v E Lf Hv.
  rewrite gauss_pulled. set (h := (b - a) / 2). assert (Hh : 0 < h) by (unfold h; lra).
  assert (HP := weighted_pull w a b f v (Rlt_not_eq _ _ E) Hv). fold h in HP.
  assert (B := gen_lip unit_open (at_right (-1)) (at_left 1) (conv_of _ unit_convex) unit_a unit_b le_unit w ps c m Hw Hc Ex (pulled a b f) (-1) 1 (K * h) k (v / h) Hm Ln So
    ltac:(lra) ltac:(intros x Hx; unfold unit_open in Hx; lra) Al (pulled_lip a b K f E Lf) HP).
  assert (Vh : h * (c * (v / h)) = c * v) by (field; lra).
  rewrite <- Vh, <- Rmult_minus_distr_l, Rabs_mult, (Rabs_pos_eq h) by lra.
  apply (Rmult_le_compat_l h) in B; [|lra]. eapply Rle_trans; [exact B|]. right. unfold h. field.
Qed.

Lemma jacobi_lip : forall t (ext : Linalg RA) n (pa pb : Param RA) (r : GaussJacobi RA), (2 <= n)%Z ->
  -1 < param_get pa -> -1 < param_get pb -> param_get pa + param_get pb <> -1 ->
  ~ delegated (param_get pa) (param_get pb) -> sorts ext ->
  exact_on ext (Z.to_nat n) (@jacobi_diag RA (param_get pa) (param_get pb)) (@jacobi_off_diag RA (param_get pa) (param_get pb)) ->
  jacobi_new t ext n pa pb = Ok r -> (n mod 2 = 0)%Z \/ param_get pa = param_get pb ->
  forall T, jacobi_integral (param_get pa) (param_get pb) (fun _ => 1) T ->
  forall a b f K k v, a < b -> lipschitz_on a b K f ->
  weighted_integral (fun x => Rpower (1 - x) (param_get pa) * Rpower (1 + x) (param_get pb)) a b f v ->
  List.Forall (fun p : R * R => snd p <= k) (jacobi_pairs r) ->
  Rabs (jacobi_value r a b f - jacobi_mass (param_get pa) (param_get pb) / T * v) <= (b - a) ^ 2 / 2 * k * K.
Proof.
  intros t ext n pa pb r Hn Hal Hbe Hab Nd So Ex Hr Par T HT a b f K k v E Hf Hv Hk. set (m := Z.to_nat n).
  assert (Int := jacobi_interior t ext n pa pb r Hn Hal Hbe Hab Nd So Ex Hr). destruct Int as [Int Srt]. specialize (Srt Par).
  assert (Xt : forall p, polynomial (2 * m - 1) p -> exists v : R, jacobi_integral (param_get pa) (param_get pb) p v /\
     jacobi_value r (-1) 1 p = jacobi_mass (param_get pa) (param_get pb) / T * v).
  { intros p Hp. destruct (Z.eq_dec (n mod 2) 0) as [Ev|Od].
    - exact (jacobi_even_exact t ext n pa pb r Hn Hal Hbe Hab Nd So Ex Hr Ev T HT p Hp).
    - destruct Par as [|Eab]; [contradiction|]. assert (O := Z.mod_pos_bound n 2 ltac:(lia)).
      exact (jacobi_odd_symmetric_exact t ext n pa pb r Hn Hal Hbe Hab Nd So Ex Hr ltac:(lia) Eab T HT p Hp). }
  destruct (jacobi_roots t ext n pa pb r Hn Hal Hbe Hab Nd So Ex Hr Par) as [L _]. fold m in L. set (al := param_get pa : R) in *. set (be := param_get pb : R) in *.
  assert (ET : jacobi_L al be (fun _ => 1) = T) by (apply is_RInt_gen_unique; exact HT).
  assert (Tp := jacobi_one_pos al be Hal Hbe). rewrite ET in Tp.
  assert (Jp := jacobi_mass_pos al be Hal Hbe Hab). set (g := jacobi_mass al be) in *.
  unfold jacobi_value. rewrite jacobi_R.
  apply (interval_lip (jacw al be) (jacobi_pairs r) (g / T) m k); try assumption.
  - unfold m. lia.
  - intros x _. unfold jacw. left. apply Rmult_lt_0_compat; apply exp_pos.
  - left. apply Rdiv_lt_0_compat; assumption.
  - apply (with_bound (fun x => -1 < x < 1)); assumption.
  - intros p Hp. destruct (Xt p Hp) as (u & Hu & Eu). exists u. split; [exact Hu|].
    rewrite <- Eu. unfold jacobi_value. rewrite jacobi_R, gauss_on_unit. reflexivity.
Qed.
Lemma chebyshev1_lip : forall t n (r : GaussChebyshevFirstKind RA), (1 <= n < usize_max t)%Z -> chebyshev1_new t n = Ok r ->
  forall a b f K v, a < b -> lipschitz_on a b K f -> weighted_integral (fun x => / sqrt (1 - x * x)) a b f v ->
  Rabs (chebyshev1_value r a b f - v) <= (b - a) ^ 2 / 2 * (PI / IZR n) * K.
Proof.
  intros t n r Hn Hr a b f K v E Hf Hv. set (m := Z.to_nat n).
  destruct (cheb1_shape t n r Hn Hr) as (As & _ & In_ & _).
  assert (Pr := cheb1_pairs t n r Hn Hr). fold m in Pr.
  assert (Hm : (1 <= m)%nat) by (unfold m; lia). assert (N : IZR n = INR m) by (unfold m; rewrite INR_IZR_INZ, Z2Nat.id by lia; reflexivity).
  destruct (cheb1_norm t n r Hn Hr) as (L & _). fold m in L.
  unfold chebyshev1_value. rewrite chebyshev1_R. replace v with (1 * v) by ring.
  apply (interval_lip w1 (chebyshev1_pairs r) 1 m); try assumption.
  - intros x Hx. unfold w1. left. apply Rinv_0_lt_compat, sqrt_unit, Hx.
  - lra.
  - apply (with_bound (fun x => -1 < x < 1)); [exact In_|]. rewrite Pr. apply List.Forall_rev, List.Forall_map, List.Forall_forall.
    intros i _. simpl. rewrite N. lra.
  - intros p Hp. exists (L_1 p). split; [apply (wint_gen unit_open _ _ unit_convex unit_a unit_b w1 w1_cont mom1 _ p Hp)|].
    rewrite Rmult_1_l, Pr. apply cheb1_rule_L; [lia|exact Hp].
Qed.
Lemma chebyshev2_lip : forall t n (r : GaussChebyshevSecondKind RA), (1 <= n < usize_max t)%Z -> chebyshev2_new t n = Ok r ->
  forall a b f K v, a < b -> lipschitz_on a b K f -> weighted_integral (fun x => sqrt (1 - x * x)) a b f v ->
  Rabs (chebyshev2_value r a b f - v) <= (b - a) ^ 2 / 2 * (PI / (IZR n + 1)) * K.
Proof.
  intros t n r Hn Hr a b f K v E Hf Hv. set (m := Z.to_nat n).
  destruct (cheb2_shape t n r Hn Hr) as (As & _ & In_ & _).
  assert (Pr := cheb2_pairs t n r Hn Hr). fold m in Pr.
  assert (Hm : (1 <= m)%nat) by (unfold m; lia). assert (N : IZR n = INR m) by (unfold m; rewrite INR_IZR_INZ, Z2Nat.id by lia; reflexivity).
  destruct (cheb2_norm t n r Hn Hr) as (L & _). fold m in L.
  unfold chebyshev2_value. rewrite chebyshev2_R. replace v with (1 * v) by ring.
  apply (interval_lip w2 (chebyshev2_pairs r) 1 m); try assumption.
  - intros x Hx. unfold w2. apply sqrt_pos.
  - lra.
  - apply (with_bound (fun x => -1 < x < 1)); [exact In_|]. rewrite Pr. apply List.Forall_rev, List.Forall_map, List.Forall_forall.
    intros i _. rewrite N. unfold pair2. cbn [snd]. replace (PI / (INR m + 1)) with (PI * (1 / (INR m + 1))) by (unfold Rdiv; ring). apply sin_square_le.
    apply Rmult_le_pos; [left; apply PI_RGT_0|]. assert (X := pos_INR m). unfold Rdiv. rewrite Rmult_1_l. left. apply Rinv_0_lt_compat. lra.
  - intros p Hp. exists (L_2 p). split; [apply (wint_gen unit_open _ _ unit_convex unit_a unit_b w2 (fun x _ => sq_cont x) mom2 _ p Hp)|].
    rewrite Rmult_1_l, Pr. apply cheb2_rule_L; [lia|exact Hp].
Qed.
