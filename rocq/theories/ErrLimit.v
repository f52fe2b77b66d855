(** The bounds for continuous integrands, rule by rule. *)
From Coq Require Import Reals Lra Lia List Arith ZArith FunctionalExtensionality.
From Coquelicot Require Import Coquelicot.
From Verif Require Import Arith RInst Machine Param Rules GolubWelsch Jacobi Chebyshev Legendre RSum PolySpec PolyProof Improper ImproperExist Gaussian JacobiWeight Spectral
  WeightSpec MassSpec EigenSpec GWSpec RuleSpec ErrorSpec Interp GaussErr ErrRules GaussProof GaussExact JacobiMore GammaProof TransferSpec TransferProof ChebSpec ChebExact ChebRule ErrCheb Bernstein ErrConv LegInt.
Import ListNotations.
Local Open Scope R_scope.

Lemma cont_exists : forall (w : R -> R) W a b f, a <> b -> (forall x, unit_open x -> 0 <= w x) -> (forall x, unit_open x -> continuous w x) ->
  has_int unit_open (at_right (-1)) (at_left 1) w W -> continuous_on a b f -> exists v, weighted_integral w a b f v.
Proof.
  intros w W a b f E Hw Cw HW Hf. destruct (continuous_bounded a b f Hf) as [C HC].
  destruct (continuous_int unit_open (at_right (-1)) (at_left 1) unit_convex unit_is_open unit_cof_a unit_cof_b w (pulled a b f) W C 0 Hw Cw HW) as [v Hv].
  - intros x Hx. apply continuous_pull; assumption.
  - intros x Hx. apply HC, closed_pull. unfold unit_open in Hx. lra.
  - unfold unit_open. lra.
  - exists ((b - a) / 2 * v). apply weighted_push; [exact E|]. apply (has_int_gen unit_open _ _ unit_convex unit_a unit_b); [|exact Hv].
    intros x Hx. apply (continuous_mult (K := R_AbsRing)); [apply Cw, Hx|apply continuous_pull; assumption].
Qed.

(** ** Chebyshev, first kind *)
Lemma w1_mass : is_RInt_gen (fun x => w1 x * 1) (at_right (-1)) (at_left 1) PI.
Proof.
  replace PI with ((fun t => - t) 0 - (fun t => - t) PI) by (cbv beta; ring).
  apply (comp_acos_gen (fun t => - t) (fun _ => - 1)).
  - intros t. auto_derive; [exact I|ring].
  - intros x Hx. apply (continuous_mult (K := R_AbsRing)); [apply w1_cont, Hx|apply continuous_const].
  - intros x Hx. unfold w1. field. apply Rgt_not_eq, sqrt_unit, Hx.
Qed.
Lemma w1_has : exists W, has_int unit_open (at_right (-1)) (at_left 1) w1 W.
Proof. destruct (mom1 0) as [I HI]. exists I. revert HI. apply has_int_ext. intros x _. simpl. ring. Qed.
Lemma w1_nonneg : forall x, unit_open x -> 0 <= w1 x.
Proof. intros x Hx. unfold w1. left. apply Rinv_0_lt_compat, sqrt_unit, Hx. Qed.
Lemma chebyshev1_modulus : forall t n (r : GaussChebyshevFirstKind RA), (1 <= n < usize_max t)%Z -> chebyshev1_new t n = Ok r ->
  let m := Z.to_nat n in
  forall a b f delta omega v, a <> b -> 0 < delta -> oscillation a b f delta omega ->
  weighted_integral (fun x => / sqrt (1 - x * x)) a b f v ->
  Rabs (chebyshev1_value r a b f - v) <= Rabs (b - a) * PI * ((1 + (b - a) * (b - a) / (4 * INR (2 * m - 1) * (delta * delta))) * omega).
Proof.
  intros t n r Hn Hr m a b f de om v E Hde Ho Hv.
  destruct (cheb1_shape t n r Hn Hr) as (_ & _ & In_ & _).
  assert (Pr := cheb1_pairs t n r Hn Hr). fold m in Pr.
  assert (Hm : (1 <= m)%nat) by (unfold m; lia).
  unfold chebyshev1_value. rewrite chebyshev1_R. rewrite <- (Rmult_1_l v), <- (Rmult_1_l PI).
  apply (interval_modulus w1 (chebyshev1_pairs r) 1 m PI); try assumption.
  - exact w1_nonneg.
  - lra.
  - intros p Hp. exists (L_1 p). split; [apply (wint_gen unit_open _ _ unit_convex unit_a unit_b w1 w1_cont mom1 _ p Hp)|].
    rewrite Rmult_1_l, Pr. apply cheb1_rule_L; [lia|exact Hp].
  - exact w1_mass.
Qed.
Lemma chebyshev1_converges : forall a b f, a <> b -> continuous_on a b f ->
  exists v, weighted_integral (fun x => / sqrt (1 - x * x)) a b f v /\
  forall eps, 0 < eps -> exists N, forall t n (r : GaussChebyshevFirstKind RA), (N <= n < usize_max t)%Z -> chebyshev1_new t n = Ok r ->
    Rabs (chebyshev1_value r a b f - v) <= eps.
Proof.
  intros a b f E Hf. destruct w1_has as [W HW]. destruct (cont_exists w1 W a b f E w1_nonneg w1_cont HW Hf) as [v Hv].
  exists v. split; [exact Hv|]. intros eps Heps.
  assert (K : 0 <= Rabs (b - a) * PI) by (apply Rmult_le_pos; [apply Rabs_pos|left; apply PI_RGT_0]).
  destruct (modulus_limit a b f _ eps E K Hf Heps) as (de & om & N & Hde & Ho & HN & B). exists N. intros t n r Hn Hr.
  eapply Rle_trans; [apply (chebyshev1_modulus t n r ltac:(lia) Hr a b f de om v E Hde Ho Hv)|]. apply B. lia.
Qed.

(** ** Chebyshev, second kind *)
Lemma w2_mass : is_RInt_gen (fun x => w2 x * 1) (at_right (-1)) (at_left 1) (PI / 2).
Proof.
  refine (eq_ind _ (fun h => is_RInt_gen h (at_right (-1)) (at_left 1) (PI / 2)) (cheb2_square 0) _ _).
  extensionality x. rewrite !ch_0. ring.
Qed.
Lemma w2_has : exists W, has_int unit_open (at_right (-1)) (at_left 1) w2 W.
Proof. destruct (mom2 0) as [I HI]. exists I. revert HI. apply has_int_ext. intros x _. simpl. ring. Qed.
Lemma chebyshev2_modulus : forall t n (r : GaussChebyshevSecondKind RA), (1 <= n < usize_max t)%Z -> chebyshev2_new t n = Ok r ->
  let m := Z.to_nat n in
  forall a b f delta omega v, a <> b -> 0 < delta -> oscillation a b f delta omega ->
  weighted_integral (fun x => sqrt (1 - x * x)) a b f v ->
  Rabs (chebyshev2_value r a b f - v) <= Rabs (b - a) * (PI / 2) * ((1 + (b - a) * (b - a) / (4 * INR (2 * m - 1) * (delta * delta))) * omega).
Proof.
  intros t n r Hn Hr m a b f de om v E Hde Ho Hv.
  destruct (cheb2_shape t n r Hn Hr) as (_ & _ & In_ & _).
  assert (Pr := cheb2_pairs t n r Hn Hr). fold m in Pr.
  assert (Hm : (1 <= m)%nat) by (unfold m; lia).
  unfold chebyshev2_value. rewrite chebyshev2_R. rewrite <- (Rmult_1_l v), <- (Rmult_1_l (PI / 2)).
  apply (interval_modulus w2 (chebyshev2_pairs r) 1 m (PI / 2)); try assumption.
  - intros x _. apply sqrt_pos.
  - lra.
  - intros p Hp. exists (L_2 p). split; [apply (wint_gen unit_open _ _ unit_convex unit_a unit_b w2 (fun x _ => sq_cont x) mom2 _ p Hp)|].
    rewrite Rmult_1_l, Pr. apply cheb2_rule_L; [lia|exact Hp].
  - exact w2_mass.
Qed.
Lemma chebyshev2_converges : forall a b f, a <> b -> continuous_on a b f ->
  exists v, weighted_integral (fun x => sqrt (1 - x * x)) a b f v /\
  forall eps, 0 < eps -> exists N, forall t n (r : GaussChebyshevSecondKind RA), (N <= n < usize_max t)%Z -> chebyshev2_new t n = Ok r ->
    Rabs (chebyshev2_value r a b f - v) <= eps.
Proof.
  intros a b f E Hf. destruct w2_has as [W HW]. destruct (cont_exists w2 W a b f E (fun x _ => sqrt_pos _) (fun x _ => sq_cont x) HW Hf) as [v Hv].
  exists v. split; [exact Hv|]. intros eps Heps.
  assert (K : 0 <= Rabs (b - a) * (PI / 2)) by (apply Rmult_le_pos; [apply Rabs_pos|left; apply PI2_RGT_0]).
  destruct (modulus_limit a b f _ eps E K Hf Heps) as (de & om & N & Hde & Ho & HN & B). exists N. intros t n r Hn Hr.
  eapply Rle_trans; [apply (chebyshev2_modulus t n r ltac:(lia) Hr a b f de om v E Hde Ho Hv)|]. apply B. lia.
Qed.

(** ** Jacobi *)
Lemma jacobi_modulus : forall t (ext : Linalg RA) n (pa pb : Param RA) (r : GaussJacobi RA), (2 <= n)%Z ->
  -1 < param_get pa -> -1 < param_get pb -> param_get pa + param_get pb <> -1 ->
  ~ delegated (param_get pa) (param_get pb) -> sorts ext ->
  exact_on ext (Z.to_nat n) (@jacobi_diag RA (param_get pa) (param_get pb)) (@jacobi_off_diag RA (param_get pa) (param_get pb)) ->
  jacobi_new t ext n pa pb = Ok r -> (n mod 2 = 0)%Z \/ param_get pa = param_get pb ->
  forall T, jacobi_integral (param_get pa) (param_get pb) (fun _ => 1) T ->
  let m := Z.to_nat n in
  forall a b f delta omega v, a <> b -> 0 < delta -> oscillation a b f delta omega ->
  weighted_integral (fun x => Rpower (1 - x) (param_get pa) * Rpower (1 + x) (param_get pb)) a b f v ->
  Rabs (jacobi_value r a b f - jacobi_mass (param_get pa) (param_get pb) / T * v) <=
    Rabs (b - a) * jacobi_mass (param_get pa) (param_get pb) * ((1 + (b - a) * (b - a) / (4 * INR (2 * m - 1) * (delta * delta))) * omega).
Proof.
  intros t ext n pa pb r Hn Hal Hbe Hab Nd So Ex Hr Par T HT m a b f de om v E Hde Ho Hv.
  assert (Int := jacobi_interior t ext n pa pb r Hn Hal Hbe Hab Nd So Ex Hr). destruct Int as [Int _].
  assert (Xt : forall p, polynomial (2 * m - 1) p -> exists v : R, jacobi_integral (param_get pa) (param_get pb) p v /\
     jacobi_value r (-1) 1 p = jacobi_mass (param_get pa) (param_get pb) / T * v).
  { intros p Hp. destruct (Z.eq_dec (n mod 2) 0) as [Ev|Od].
    - exact (jacobi_even_exact t ext n pa pb r Hn Hal Hbe Hab Nd So Ex Hr Ev T HT p Hp).
    - destruct Par as [|Eab]; [contradiction|]. assert (O := Z.mod_pos_bound n 2 ltac:(lia)).
      exact (jacobi_odd_symmetric_exact t ext n pa pb r Hn Hal Hbe Hab Nd So Ex Hr ltac:(lia) Eab T HT p Hp). }
  set (al := param_get pa : R) in *. set (be := param_get pb : R) in *.
  assert (ET : jacobi_L al be (fun _ => 1) = T) by (apply is_RInt_gen_unique; exact HT).
  assert (Tp := jacobi_one_pos al be Hal Hbe). rewrite ET in Tp.
  assert (Jp := jacobi_mass_pos al be Hal Hbe Hab). set (g := jacobi_mass al be) in *.
  unfold jacobi_value. rewrite jacobi_R. replace (Rabs (b - a) * g) with (Rabs (b - a) * (g / T * T)) by (field; lra).
  apply (interval_modulus (jacw al be) (jacobi_pairs r) (g / T) m T); try assumption.
  - unfold m. lia.
  - intros x _. unfold jacw. left. apply Rmult_lt_0_compat; apply exp_pos.
  - left. apply Rdiv_lt_0_compat; assumption.
  - intros p Hp. destruct (Xt p Hp) as (u & Hu & Eu). exists u. split; [exact Hu|].
    rewrite <- Eu. unfold jacobi_value. rewrite jacobi_R, gauss_on_unit. reflexivity.
Qed.
Lemma jacobi_converges : forall pa pb : Param RA, -1 < param_get pa -> -1 < param_get pb -> param_get pa + param_get pb <> -1 ->
  ~ delegated (param_get pa) (param_get pb) ->
  forall T, jacobi_integral (param_get pa) (param_get pb) (fun _ => 1) T ->
  forall a b f, a <> b -> continuous_on a b f ->
  exists v, weighted_integral (fun x => Rpower (1 - x) (param_get pa) * Rpower (1 + x) (param_get pb)) a b f v /\
  forall eps, 0 < eps -> exists N, forall t (ext : Linalg RA) n (r : GaussJacobi RA), (N <= n)%Z -> sorts ext ->
    exact_on ext (Z.to_nat n) (@jacobi_diag RA (param_get pa) (param_get pb)) (@jacobi_off_diag RA (param_get pa) (param_get pb)) ->
    jacobi_new t ext n pa pb = Ok r -> (n mod 2 = 0)%Z \/ param_get pa = param_get pb ->
    Rabs (jacobi_value r a b f - jacobi_mass (param_get pa) (param_get pb) / T * v) <= eps.
Proof.
  intros pa pb Hal Hbe Hab Nd T HT a b f E Hf.
  destruct (jacw_moments (param_get pa) (param_get pb) Hal Hbe 0) as [W HW].
  destruct (cont_exists (jacw (param_get pa) (param_get pb)) W a b f E) as [v Hv].
  - intros x _. unfold jacw. left. apply Rmult_lt_0_compat; apply exp_pos.
  - apply jacw_cont.
  - revert HW. apply has_int_ext. intros x _. simpl. ring.
  - exact Hf.
  - exists v. split; [exact Hv|]. intros eps Heps.
    assert (K : 0 <= Rabs (b - a) * jacobi_mass (param_get pa) (param_get pb)) by (apply Rmult_le_pos; [apply Rabs_pos|left; apply jacobi_mass_pos; assumption]).
    destruct (modulus_limit a b f _ eps E K Hf Heps) as (de & om & N & Hde & Ho & HN & B). exists (Z.max 2 N). intros t ext n r Hn So Ex Hr Par.
    eapply Rle_trans; [apply (jacobi_modulus t ext n pa pb r ltac:(lia) Hal Hbe Hab Nd So Ex Hr Par T HT a b f de om v E Hde Ho Hv)|]. apply B. lia.
Qed.
