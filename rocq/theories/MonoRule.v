(** The Gauss rules on monotone integrands. *)
From Coq Require Import Reals Lra Lia List Arith ZArith FunctionalExtensionality.
From Coquelicot Require Import Coquelicot.
From Verif Require Import Arith RInst RInstProof Machine Param Rules RSum PolySpec PolyProof GolubWelsch GWSpec EigenSpec EigenProof Spectral
  Improper ImproperExist OrthoProof Gaussian LaguerreWeight JacobiWeight WeightSpec Gamma Hermite Laguerre Legendre Chebyshev Jacobi RuleSpec
  GaussProof SizeProof GWRoots GammaProof MassSpec ErrorSpec Interp TransferSpec TransferProof GaussErr GaussExact JacobiMore ChebSpec ChebExact ChebRule ErrRules ErrCheb
  GaussSide MonoSpec StepPoly.
Import ListNotations.
Local Open Scope R_scope.

Section Gen.
Variables (D : R -> Prop) (Fa Fb : (R -> Prop) -> Prop).
Context {PA : ProperFilter Fa} {PB : ProperFilter Fb}.
Hypothesis conv : forall u v x, D u -> D v -> u <= x <= v -> D x.
Hypothesis DA : Fa D.
Hypothesis DB : Fb D.
Hypothesis le : filter_prod Fa Fb (fun uv => fst uv <= snd uv).
Variables (w : R -> R) (ps : list (R * R)) (c : R) (n : nat).
Hypothesis w_nonneg : forall x, D x -> 0 <= w x.
Hypothesis c_nonneg : 0 <= c.
Notation integral f v := (is_RInt_gen (fun x => w x * f x) Fa Fb v).
Hypothesis exactness : forall p, polynomial (2 * n - 1) p -> exists v : R, integral p v /\ apply_rule ps p = c * v.

Lemma gen_mono : forall (f : R -> R) (bot top k v : R), (1 <= n)%nat -> length ps = n -> strictly_ascending ps ->
  List.Forall (fun p => D (fst p) /\ 0 <= snd p <= k) ps -> rises_between D f bot top -> integral f v ->
  sum_left bot f ps <= c * v <= sum_right top f ps /\ Rabs (apply_rule ps f - c * v) <= k * (top - bot).
Proof.
  intros f bot top k v Hn Ln So Al Hf Hv.
  assert (Ne : ps <> []) by (intros E; rewrite E in Ln; simpl in Ln; lia).
  destruct (rule_majorant D f bot top ps Hf So) as [(P & HP & PU & EP) (Q & HQ & QL & EQ)].
  { eapply List.Forall_impl; [|exact Al]. intros p [Hp _]. exact Hp. }
  { exact Ne. }
  rewrite Ln in HP, HQ. destruct (exactness P HP) as (u & Hu & Eu). destruct (exactness Q HQ) as (z & Hz & Ez).
  assert (G1 : 0 <= u - v).
  { apply (gen_nonneg D Fa Fb conv DA DB le w w_nonneg (fun x => P x - f x)); [|apply gen_minus; assumption].
    intros x Hx. specialize (PU x Hx). lra. }
  assert (G2 : 0 <= v - z).
  { apply (gen_nonneg D Fa Fb conv DA DB le w w_nonneg (fun x => f x - Q x)); [|apply gen_minus; assumption].
    intros x Hx. specialize (QL x Hx). lra. }
  assert (C1 : 0 <= c * (u - v)) by (apply Rmult_le_pos; assumption).
  assert (C2 : 0 <= c * (v - z)) by (apply Rmult_le_pos; assumption).
  assert (B : sum_left bot f ps <= c * v <= sum_right top f ps) by (rewrite <- EP, <- EQ, Eu, Ez; lra).
  split; [exact B|].
  assert (R1 := right_excess D f bot top k ps Hf So Al Ne).
  assert (HD : D (fst (hd (0, 0) ps)) /\ 0 <= k).
  { destruct ps as [|p l]; [contradiction|]. inversion Al as [|? ? [D1 D2] _]; subst. split; [exact D1|lra]. }
  destruct HD as [HD Hk]. assert (Hb := proj2 Hf _ HD).
  assert (L1 := left_excess D f bot top k ps bot Hf So Al Hk ltac:(lra)).
  assert (L2 := L1 ltac:(intros x Hx; apply in_map_iff in Hx; destruct Hx as (p & <- & Ip); rewrite List.Forall_forall in Al; apply (proj2 Hf), (Al p Ip))).
  assert (k * (top - f (fst (hd (0, 0) ps))) <= k * (top - bot)) by (apply Rmult_le_compat_l; lra).
  apply Rabs_le. lra.
Qed.
End Gen.

Lemma sum_right_carried : forall a b top f l, sum_right top f (carried a b l) = (b - a) / 2 * sum_right top (pulled a b f) l.
Proof.
  intros a b top f. induction l as [|[x w] l IH]; [simpl; ring|]. change (carried a b ((x, w) :: l)) with (((b - a) / 2 * x + (a + b) / 2, (b - a) / 2 * w) :: carried a b l).
  simpl. rewrite IH. destruct l as [|[y v] l]; simpl; [ring|]. unfold pulled. ring.
Qed.
Lemma sum_left_carried : forall a b f l bot, sum_left bot f (carried a b l) = (b - a) / 2 * sum_left bot (pulled a b f) l.
Proof.
  intros a b f. induction l as [|[x w] l IH]; intros bot; [simpl; ring|]. change (carried a b ((x, w) :: l)) with (((b - a) / 2 * x + (a + b) / 2, (b - a) / 2 * w) :: carried a b l).
  simpl. rewrite IH. unfold pulled. ring.
Qed.
Lemma interval_mono : forall (w : R -> R) (ps : list (R * R)) c m k, (1 <= m)%nat -> (forall x, unit_open x -> 0 <= w x) -> 0 <= c ->
  List.Forall (fun xw : R * R => -1 < fst xw < 1 /\ 0 <= snd xw <= k) ps -> strictly_ascending ps -> length ps = m ->
  (forall p, polynomial (2 * m - 1) p -> exists v : R, is_RInt_gen (fun x => w x * p x) (at_right (-1)) (at_left 1) v /\ apply_rule ps p = c * v) ->
  forall a b f bot top v, a < b -> rises_between (open_between a b) f bot top -> weighted_integral w a b f v ->
  sum_left bot f (carried a b ps) <= c * v <= sum_right top f (carried a b ps) /\ Rabs (gauss_on ps a b f - c * v) <= (b - a) / 2 * k * (top - bot).
Proof.
  intros w ps c m k Hm Hw Hc Al So Ln Ex a b f bot top v E [Mo Bo] Hv.
  rewrite gauss_pulled, sum_right_carried, sum_left_carried. set (h := (b - a) / 2). assert (Hh : 0 < h) by (unfold h; lra).
  assert (HP := weighted_pull w a b f v (Rlt_not_eq _ _ E) Hv). fold h in HP.
  destruct (gen_mono unit_open (at_right (-1)) (at_left 1) (conv_of _ unit_convex) unit_a unit_b le_unit w ps c m Hw Hc Ex (pulled a b f) bot top k (v / h) Hm Ln So Al) as [B1 B2].
  - split.
    + intros x y Dx Dy L. unfold pulled. apply Mo; [apply inside_pull; [lra|assumption]..|].
      assert ((b - a) / 2 * x <= (b - a) / 2 * y) by (apply Rmult_le_compat_l; lra). lra.
    + intros x Dx. apply Bo. apply inside_pull; [lra|exact Dx].
  - exact HP.
  - assert (Vh : h * (c * (v / h)) = c * v) by (field; lra). split.
    + rewrite <- Vh. split; apply Rmult_le_compat_l; lra.
    + rewrite <- Vh, <- Rmult_minus_distr_l, Rabs_mult, (Rabs_pos_eq h) by lra. rewrite Rmult_assoc. apply Rmult_le_compat_l; [lra|exact B2].
Qed.

(** ** the rules *)
Lemma with_bound : forall (D : R -> Prop) k (l : list (R * R)), List.Forall (fun p => D (fst p) /\ 0 < snd p) l -> List.Forall (fun p => snd p <= k) l ->
  List.Forall (fun p => D (fst p) /\ 0 <= snd p <= k) l.
Proof.
  intros D k l F1 F2. apply List.Forall_forall. intros p Ip. rewrite List.Forall_forall in F1, F2. destruct (F1 p Ip) as [H1 H2]. specialize (F2 p Ip).
  split; [exact H1|]. lra.
Qed.
Lemma hermite_mono : forall (ext : Linalg RA) n (r : GaussHermite RA), (1 <= n)%Z -> sorts ext ->
  exact_on ext (Z.to_nat n) (@hermite_diag RA) (@hermite_off_diag RA) -> hermite_new ext n = Ok r ->
  forall f bot top k v, rises_between (fun _ => True) f bot top -> hermite_integral f v -> List.Forall (fun p : R * R => snd p <= k) (hermite_pairs r) ->
  sum_left bot f (hermite_pairs r) <= v <= sum_right top f (hermite_pairs r) /\ Rabs (hermite_value r f - v) <= k * (top - bot).
Proof.
  intros ext n r Hn So Ex Hr f bot top k v Hf Hv Hk. set (m := Z.to_nat n).
  destruct (hermite_roots ext n r Hn So Ex Hr) as (_ & L & _). fold m in L.
  destruct (hermite_interior ext n r Hn So Ex Hr) as (_ & As & Ps).
  assert (HV : forall f, hermite_value r f = apply_rule (hermite_pairs r) f) by (intros; unfold hermite_value; rewrite hermite_R; reflexivity).
  rewrite HV. replace v with (1 * v) by ring.
  apply (gen_mono whole (Rbar_locally m_infty) (Rbar_locally p_infty) (conv_of _ whole_convex) whole_a whole_b le_whole gauss (hermite_pairs r) 1 m); try assumption.
  - intros x _. left. apply exp_pos.
  - lra.
  - intros p Hp. exists (hermite_value r p). split; [exact (hermite_exact ext n r Hn So Ex Hr p Hp)|rewrite HV; ring].
  - unfold m. lia.
  - apply with_bound; [|exact Hk]. eapply List.Forall_impl; [|exact Ps]. intros p Hp. split; [exact I|exact Hp].
Qed.
Lemma laguerre_mono : forall (ext : Linalg RA) n (al : Param RA) (r : GaussLaguerre RA) (G : R), (1 <= n)%Z -> -1 < param_get al -> sorts ext ->
  exact_on ext (Z.to_nat n) (@laguerre_diag RA (param_get al)) (@laguerre_off_diag RA (param_get al)) ->
  laguerre_new ext n al = Ok r -> is_Gamma (param_get al + 1) G ->
  forall f bot top k v, rises_between (fun x => 0 < x) f bot top -> laguerre_integral (param_get al) f v -> List.Forall (fun p : R * R => snd p <= k) (laguerre_pairs r) ->
  sum_left bot f (laguerre_pairs r) <= @gamma RA (param_get al + 1) / G * v <= sum_right top f (laguerre_pairs r) /\
  Rabs (laguerre_value r f - @gamma RA (param_get al + 1) / G * v) <= k * (top - bot).
Proof.
  intros ext n pa r G Hn Hal So Ex Hr HG f bot top k v Hf Hv Hk. set (m := Z.to_nat n). set (al := param_get pa : R) in *.
  assert (HW := laguerre_new_inv ext n pa r Hr). fold al in HW.
  assert (L := gwx_length ext m _ _ _ (laguerre_pairs r) ltac:(unfold m; lia) So Ex HW).
  assert (EG := gamma_mass al G Hal HG). assert (Gp : 0 < G) by (rewrite EG; apply laguerre_one_pos, Hal).
  assert (Pg := gamma_pos (al + 1) ltac:(lra)). set (g := @gamma RA (al + 1) : R) in *.
  destruct (laguerre_interior ext n pa r Hn Hal So Ex Hr) as [In_ As].
  assert (HV : forall f, laguerre_value r f = apply_rule (laguerre_pairs r) f) by (intros; unfold laguerre_value; rewrite laguerre_R; reflexivity).
  rewrite HV.
  apply (gen_mono halfline (at_right 0) (Rbar_locally p_infty) (conv_of _ half_convex) half_a half_b le_half (lagw al) (laguerre_pairs r) (g / G) m); try assumption.
  - intros x _. unfold lagw. left. apply Rmult_lt_0_compat; apply exp_pos.
  - left. apply Rdiv_lt_0_compat; assumption.
  - intros p Hp. destruct (laguerre_exact ext n pa r G Hn Hal So Ex Hr HG p Hp) as (u & Hu & E). exists u. split; [exact Hu|].
    rewrite <- HV. exact E.
  - unfold m. lia.
  - apply with_bound; assumption.
Qed.
Lemma jacobi_mono : forall t (ext : Linalg RA) n (pa pb : Param RA) (r : GaussJacobi RA), (2 <= n)%Z ->
  -1 < param_get pa -> -1 < param_get pb -> param_get pa + param_get pb <> -1 ->
  ~ delegated (param_get pa) (param_get pb) -> sorts ext ->
  exact_on ext (Z.to_nat n) (@jacobi_diag RA (param_get pa) (param_get pb)) (@jacobi_off_diag RA (param_get pa) (param_get pb)) ->
  jacobi_new t ext n pa pb = Ok r -> (n mod 2 = 0)%Z \/ param_get pa = param_get pb ->
  forall T, jacobi_integral (param_get pa) (param_get pb) (fun _ => 1) T ->
  forall a b f bot top k v, a < b -> rises_between (open_between a b) f bot top ->
  weighted_integral (fun x => Rpower (1 - x) (param_get pa) * Rpower (1 + x) (param_get pb)) a b f v ->
  List.Forall (fun p : R * R => snd p <= k) (jacobi_pairs r) ->
  sum_left bot f (carried a b (jacobi_pairs r)) <= jacobi_mass (param_get pa) (param_get pb) / T * v <= sum_right top f (carried a b (jacobi_pairs r)) /\
  Rabs (jacobi_value r a b f - jacobi_mass (param_get pa) (param_get pb) / T * v) <= (b - a) / 2 * k * (top - bot).
Proof.
  intros t ext n pa pb r Hn Hal Hbe Hab Nd So Ex Hr Par T HT a b f bot top k v E Hf Hv Hk. set (m := Z.to_nat n).
  assert (Int := jacobi_interior t ext n pa pb r Hn Hal Hbe Hab Nd So Ex Hr). destruct Int as [Int Srt]. specialize (Srt Par).
  assert (Xt : forall p, polynomial (2 * m - 1) p -> exists v : R, jacobi_integral (param_get pa) (param_get pb) p v /\
     jacobi_value r (-1) 1 p = jacobi_mass (param_get pa) (param_get pb) / T * v).
  { intros p Hp. destruct (Z.eq_dec (n mod 2) 0) as [Ev|Od].
    - exact (jacobi_even_exact t ext n pa pb r Hn Hal Hbe Hab Nd So Ex Hr Ev T HT p Hp).
    - destruct Par as [|Eab]; [contradiction|]. assert (O := Z.mod_pos_bound n 2 ltac:(lia)).
      exact (jacobi_odd_symmetric_exact t ext n pa pb r Hn Hal Hbe Hab Nd So Ex Hr ltac:(lia) Eab T HT p Hp). }
  destruct (jacobi_roots t ext n pa pb r Hn Hal Hbe Hab Nd So Ex Hr Par) as [L _]. fold m in L. set (al := param_get pa : R) in *. set (be := param_get pb : R) in *.
  assert (ET : jacobi_L al be (fun _ => 1) = T) by (apply is_RInt_gen_unique; exact HT).
  assert (Tp := jacobi_one_pos al be Hal Hbe). rewrite ET in Tp.
  assert (Jp := jacobi_mass_pos al be Hal Hbe Hab). set (g := jacobi_mass al be) in *.
  unfold jacobi_value. rewrite jacobi_R.
  apply (interval_mono (jacw al be) (jacobi_pairs r) (g / T) m k); try assumption.
  - unfold m. lia.
  - intros x _. unfold jacw. left. apply Rmult_lt_0_compat; apply exp_pos.
  - left. apply Rdiv_lt_0_compat; assumption.
  - apply (with_bound (fun x => -1 < x < 1)); assumption.
  - intros p Hp. destruct (Xt p Hp) as (u & Hu & Eu). exists u. split; [exact Hu|].
    rewrite <- Eu. unfold jacobi_value. rewrite jacobi_R, gauss_on_unit. reflexivity.
Qed.
Lemma chebyshev1_mono : forall t n (r : GaussChebyshevFirstKind RA), (1 <= n < usize_max t)%Z -> chebyshev1_new t n = Ok r ->
  forall a b f bot top v, a < b -> rises_between (open_between a b) f bot top -> weighted_integral (fun x => / sqrt (1 - x * x)) a b f v ->
  sum_left bot f (carried a b (chebyshev1_pairs r)) <= v <= sum_right top f (carried a b (chebyshev1_pairs r)) /\
  Rabs (chebyshev1_value r a b f - v) <= (b - a) / 2 * (PI / IZR n) * (top - bot).
Proof.
  intros t n r Hn Hr a b f bot top v E Hf Hv. set (m := Z.to_nat n).
  destruct (cheb1_shape t n r Hn Hr) as (As & _ & In_ & _).
  assert (Pr := cheb1_pairs t n r Hn Hr). fold m in Pr.
  assert (Hm : (1 <= m)%nat) by (unfold m; lia). assert (N : IZR n = INR m) by (unfold m; rewrite INR_IZR_INZ, Z2Nat.id by lia; reflexivity).
  destruct (cheb1_norm t n r Hn Hr) as (L & _). fold m in L.
  unfold chebyshev1_value. rewrite chebyshev1_R. replace v with (1 * v) by ring.
  apply (interval_mono w1 (chebyshev1_pairs r) 1 m); try assumption.
  - intros x Hx. unfold w1. left. apply Rinv_0_lt_compat, sqrt_unit, Hx.
  - lra.
  - apply (with_bound (fun x => -1 < x < 1)); [exact In_|]. rewrite Pr. apply List.Forall_rev, List.Forall_map, List.Forall_forall.
    intros i _. simpl. rewrite N. lra.
  - intros p Hp. exists (L_1 p). split; [apply (wint_gen unit_open _ _ unit_convex unit_a unit_b w1 w1_cont mom1 _ p Hp)|].
    rewrite Rmult_1_l, Pr. apply cheb1_rule_L; [lia|exact Hp].
Qed.
Lemma sin_square_le : forall u q, 0 <= u -> u * sin q * sin q <= u.
Proof.
  intros u q Hu. assert (Q := sin2_cos2 q). unfold Rsqr in Q. assert (0 <= cos q * cos q) by apply Rle_0_sqr.
  assert (u * (sin q * sin q) <= u * 1) by (apply Rmult_le_compat_l; lra). lra.
Qed.
Lemma chebyshev2_mono : forall t n (r : GaussChebyshevSecondKind RA), (1 <= n < usize_max t)%Z -> chebyshev2_new t n = Ok r ->
  forall a b f bot top v, a < b -> rises_between (open_between a b) f bot top -> weighted_integral (fun x => sqrt (1 - x * x)) a b f v ->
  sum_left bot f (carried a b (chebyshev2_pairs r)) <= v <= sum_right top f (carried a b (chebyshev2_pairs r)) /\
  Rabs (chebyshev2_value r a b f - v) <= (b - a) / 2 * (PI / (IZR n + 1)) * (top - bot).
Proof.
  intros t n r Hn Hr a b f bot top v E Hf Hv. set (m := Z.to_nat n).
  destruct (cheb2_shape t n r Hn Hr) as (As & _ & In_ & _).
  assert (Pr := cheb2_pairs t n r Hn Hr). fold m in Pr.
  assert (Hm : (1 <= m)%nat) by (unfold m; lia). assert (N : IZR n = INR m) by (unfold m; rewrite INR_IZR_INZ, Z2Nat.id by lia; reflexivity).
  destruct (cheb2_norm t n r Hn Hr) as (L & _). fold m in L.
  unfold chebyshev2_value. rewrite chebyshev2_R. replace v with (1 * v) by ring.
  apply (interval_mono w2 (chebyshev2_pairs r) 1 m); try assumption.
  - intros x Hx. unfold w2. apply sqrt_pos.
  - lra.
  - apply (with_bound (fun x => -1 < x < 1)); [exact In_|]. rewrite Pr. apply List.Forall_rev, List.Forall_map, List.Forall_forall.
    intros i _. rewrite N. unfold pair2. cbn [snd]. replace (PI / (INR m + 1)) with (PI * (1 / (INR m + 1))) by (unfold Rdiv; ring). apply sin_square_le.
    apply Rmult_le_pos; [left; apply PI_RGT_0|]. assert (X := pos_INR m). unfold Rdiv. rewrite Rmult_1_l. left. apply Rinv_0_lt_compat. lra.
  - intros p Hp. exists (L_2 p). split; [apply (wint_gen unit_open _ _ unit_convex unit_a unit_b w2 (fun x _ => sq_cont x) mom2 _ p Hp)|].
    rewrite Rmult_1_l, Pr. apply cheb2_rule_L; [lia|exact Hp].
Qed.
