(** Convergence of the Gauss-Hermite and Gauss-Laguerre rules for integrands of exponential growth. *)
From Coq Require Import Reals Lra Lia List Arith ZArith FunctionalExtensionality.
From Coquelicot Require Import Coquelicot.
From Verif Require Import Arith RInst RInstProof Machine Param Rules RSum PolySpec PolyProof GolubWelsch GWSpec EigenSpec EigenProof
  Improper ImproperExist Gaussian LaguerreWeight WeightSpec Gamma Hermite Laguerre RuleSpec
  GaussProof GammaProof MassSpec ErrorSpec GaussErr GaussExact JacobiMore ErrRules ErrEx ErrConv ConvSpec ConvAbs ConvGen ConvRules GaussSide ExpConvSpec.
Import ListNotations.
Local Open Scope R_scope.

Lemma has_int_scale : forall (D : R -> Prop) (Fa Fb : (R -> Prop) -> Prop) w W s,
  (forall x, D x -> D (s * x)) -> filterlim (fun x => s * x) Fa Fa -> filterlim (fun x => s * x) Fb Fb ->
  has_int D Fa Fb w W -> has_int D Fa Fb (fun x => s * w (s * x)) W.
Proof.
  intros D Fa Fb w W s HD HA HB (F & la & lb & HF & Ha & Hb & E). exists (fun x => F (s * x)), la, lb. split; [|split; [|split]].
  - intros x Hx. apply (is_derive_comp (K := R_AbsRing) (V := R_NormedModule) F (fun x => s * x) x (w (s * x)) s); [apply HF, HD, Hx|].
    auto_derive; [trivial|ring].
  - exact (filterlim_comp _ _ _ _ _ _ _ _ HA Ha).
  - exact (filterlim_comp _ _ _ _ _ _ _ _ HB Hb).
  - exact E.
Qed.
Lemma scale_p : forall s, 0 < s -> filterlim (fun x => s * x) (Rbar_locally p_infty) (Rbar_locally p_infty).
Proof.
  intros s Hs P [M H]. exists (M / s). intros x Hx. apply H. apply (Rmult_lt_compat_l s) in Hx; [|exact Hs].
  replace (s * (M / s)) with M in Hx by (field; lra). exact Hx.
Qed.
Lemma scale_m : forall s, 0 < s -> filterlim (fun x => s * x) (Rbar_locally m_infty) (Rbar_locally m_infty).
Proof.
  intros s Hs P [M H]. exists (M / s). intros x Hx. apply H. apply (Rmult_lt_compat_l s) in Hx; [|exact Hs].
  replace (s * (M / s)) with M in Hx by (field; lra). exact Hx.
Qed.
Lemma scale_0 : forall s, 0 < s -> filterlim (fun x => s * x) (at_right 0) (at_right 0).
Proof.
  intros s Hs P [d H]. assert (Pd : 0 < d / s) by (apply Rdiv_lt_0_compat; [apply cond_pos|exact Hs]).
  exists (mkposreal _ Pd). intros x Hx Px. apply H; [|apply Rmult_lt_0_compat; assumption].
  change (Rabs (s * x - 0) < d). change (Rabs (x - 0) < d / s) in Hx. rewrite Rminus_0_r in *.
  rewrite Rabs_mult, (Rabs_pos_eq s) by lra. apply (Rmult_lt_compat_l s) in Hx; [|exact Hs].
  replace (s * (d / s)) with (d : R) in Hx by (field; lra). exact Hx.
Qed.
Lemma gauss_mass : exists I, has_int whole (Rbar_locally m_infty) (Rbar_locally p_infty) gauss I.
Proof. destruct (hermite_moments 0) as [I HI]. exists I. refine (has_int_ext _ _ _ _ _ I _ HI). intros; simpl; ring. Qed.

(** ** the integrals exist *)
Lemma hermite_gauss_int : forall c f, c < 1 -> (forall x, continuous f x) -> gaussian_growth c f -> exists v, hermite_integral f v.
Proof.
  intros c f Hc Hf [C H]. destruct gauss_mass as [W HW]. set (s := sqrt (1 - c)). assert (Hs : 0 < s) by (apply sqrt_lt_R0; lra).
  assert (Es : s * s = 1 - c) by (apply sqrt_sqrt; lra).
  assert (H2 := has_int_scale whole _ _ gauss W s (fun x _ => I) (scale_m s Hs) (scale_p s Hs) HW).
  assert (K0 : 0 < / s) by (apply Rinv_0_lt_compat, Hs).
  destruct (continuous_int whole (Rbar_locally m_infty) (Rbar_locally p_infty) whole_convex whole_open whole_cof_a whole_cof_b
    (fun x => s * gauss (s * x)) (fun x => / s * exp (- (c * (x * x))) * f x) W (/ s * C) 0) as [v Hv].
  - intros x _. apply Rmult_le_pos; [lra|left; apply exp_pos].
  - intros x _. apply (ex_derive_continuous (V := R_NormedModule)). unfold gauss. auto_derive. trivial.
  - exact H2.
  - intros x _. apply cont_mult; [|apply Hf]. apply (ex_derive_continuous (V := R_NormedModule)). auto_derive. trivial.
  - intros x _. rewrite !Rabs_mult, (Rabs_pos_eq (/ s)), (Rabs_pos_eq (exp _)) by (try lra; left; apply exp_pos).
    assert (B := H x). assert (P := exp_pos (- (c * (x * x)))).
    replace (/ s * C) with (/ s * exp (- (c * (x * x))) * (C * exp (c * (x * x)))). { apply Rmult_le_compat_l; [|exact B]. apply Rmult_le_pos; lra. }
    rewrite exp_Ropp. assert (Q := exp_pos (c * (x * x))). field. split; lra.
  - exact I.
  - exists v. apply (has_int_gen whole _ _ whole_convex whole_a whole_b (fun x => gauss x * f x)).
    + intros x _. apply cont_mult; [apply gauss_cont|apply Hf].
    + refine (has_int_ext _ _ _ _ _ v _ Hv). intros x _. cbv beta. unfold gauss.
      replace (exp (- (x * x))) with (exp (- (s * x * (s * x))) * exp (- (c * (x * x)))).
      2:{ rewrite <- exp_plus. f_equal. replace (s * x * (s * x)) with (s * s * (x * x)) by ring. rewrite Es. ring. }
      field. lra.
Qed.
Lemma lag_mass : forall al, -1 < al -> exists I, has_int halfline (at_right 0) (Rbar_locally p_infty) (lagw al) I.
Proof. intros al Hal. destruct (lagw_moments al Hal 0) as [I HI]. exists I. refine (has_int_ext _ _ _ _ _ I _ HI). intros; simpl; ring. Qed.
Lemma laguerre_exp_int : forall al c f, -1 < al -> c < 1 -> continuous_half f -> exponential_growth (fun x => 0 <= x) c f -> exists v, laguerre_integral al f v.
Proof.
  intros al c f Hal Hc Hf [C H]. destruct (lag_mass al Hal) as [W HW]. set (s := 1 - c). assert (Hs : 0 < s) by (unfold s; lra).
  assert (H2 := has_int_scale halfline _ _ (lagw al) W s ltac:(intros x Hx; unfold halfline in *; apply Rmult_lt_0_compat; assumption) (scale_0 s Hs) (scale_p s Hs) HW).
  set (K := / (s * Rpower s al)). assert (PK : 0 < s * Rpower s al) by (apply Rmult_lt_0_compat; [exact Hs|apply exp_pos]).
  assert (K0 : 0 < K) by (apply Rinv_0_lt_compat, PK).
  destruct (continuous_int halfline (at_right 0) (Rbar_locally p_infty) half_convex half_open half_cof_a half_cof_b
    (fun x => s * lagw al (s * x)) (fun x => K * exp (- (c * x)) * f x) W (K * C) 1) as [v Hv].
  - intros x _. apply Rmult_le_pos; [lra|left; apply lagw_pos].
  - intros x Hx. unfold halfline in Hx. apply (ex_derive_continuous (V := R_NormedModule)). unfold lagw, Rpower. auto_derive. apply Rmult_lt_0_compat; assumption.
  - exact H2.
  - intros x Hx. apply cont_mult; [|apply half_interior; assumption]. apply (ex_derive_continuous (V := R_NormedModule)). auto_derive. trivial.
  - intros x Hx. unfold halfline in Hx. rewrite !Rabs_mult, (Rabs_pos_eq K), (Rabs_pos_eq (exp _)) by (try lra; left; apply exp_pos).
    assert (B := H x ltac:(lra)). rewrite (Rabs_pos_eq x) in B by lra. assert (P := exp_pos (- (c * x))).
    replace (K * C) with (K * exp (- (c * x)) * (C * exp (c * x))). { apply Rmult_le_compat_l; [|exact B]. apply Rmult_le_pos; lra. }
    rewrite exp_Ropp. assert (exp (c * x) <> 0) by (assert (Q := exp_pos (c * x)); lra). field. assumption.
  - unfold halfline. lra.
  - exists v. apply (has_int_gen halfline _ _ half_convex half_a half_b (fun x => lagw al x * f x)).
    + intros x Hx. apply cont_mult; [apply lagw_cont, Hx|apply half_interior; assumption].
    + refine (has_int_ext _ _ _ _ _ v _ Hv). intros x Hx. unfold halfline in Hx. cbv beta. unfold lagw.
      rewrite <- Rpower_mult_distr by assumption.
      replace (exp (- x)) with (exp (- (s * x)) * exp (- (c * x))) by (rewrite <- exp_plus; f_equal; unfold s; ring).
      unfold K. field. split; [|lra]. assert (Q := exp_pos (al * ln s)). unfold Rpower. lra.
Qed.

(** ** truncation *)
Lemma exp_decay : forall A eps d, 0 <= A -> 0 < eps -> 0 < d -> exists X, 0 <= X /\ A * exp (- (d * X)) <= eps.
Proof.
  intros A eps d HA He Hd. exists (A / eps / d). assert (P : 0 <= A / eps) by (apply Rmult_le_pos; [exact HA|left; apply Rinv_0_lt_compat, He]).
  assert (P2 : 0 <= A / eps / d) by (apply Rmult_le_pos; [exact P|left; apply Rinv_0_lt_compat, Hd]). split; [exact P2|].
  replace (d * (A / eps / d)) with (A / eps) by (field; lra). rewrite exp_Ropp. assert (Q := exp_ineq1_le (A / eps)).
  apply (Rmult_le_reg_r (exp (A / eps))); [apply exp_pos|]. rewrite Rmult_assoc, Rinv_l, Rmult_1_r by (assert (Z := exp_pos (A / eps)); lra).
  replace A with (eps * (A / eps)) at 1 by (field; lra). apply Rmult_le_compat_l; lra.
Qed.
Definition clamp (lo hi x : R) : R := Rmax lo (Rmin hi x).
Lemma clamp_cases : forall lo hi x, lo <= hi -> lo <= clamp lo hi x <= hi /\ ((lo <= x <= hi /\ clamp lo hi x = x) \/ (x < lo /\ clamp lo hi x = lo) \/ (hi < x /\ clamp lo hi x = hi)).
Proof.
  intros lo hi x H. unfold clamp, Rmax, Rmin. destruct (Rle_dec hi x) as [A|A]; destruct (Rle_dec lo _) as [B|B]; (split; [lra|]).
  - destruct (Req_dec hi x); [left|right; right]; lra.
  - lra.
  - left. lra.
  - right. left. lra.
Qed.
Lemma clamp_near : forall lo hi x y, lo <= hi -> Rabs (clamp lo hi y - clamp lo hi x) <= Rabs (y - x).
Proof.
  intros lo hi x y H. destruct (clamp_cases lo hi x H) as (_ & A). destruct (clamp_cases lo hi y H) as (_ & B).
  unfold Rabs; destruct (Rcase_abs _), (Rcase_abs _); lra.
Qed.
Lemma clamp_cont : forall lo hi x, lo <= hi -> continuous (clamp lo hi) x.
Proof.
  intros lo hi x H. apply continuity_pt_filterlim. intros eps He. exists eps. split; [exact He|]. intros y [_ Hy].
  simpl in *. unfold R_dist in *. eapply Rle_lt_trans; [apply clamp_near, H|exact Hy].
Qed.
Lemma exp_le : forall x y, x <= y -> exp x <= exp y.
Proof. intros x y [H| ->]; [left; apply exp_increasing, H|right; reflexivity]. Qed.

(** ** Hermite *)
(** the derivatives of exp(k x^2): F(j+2) = 2k (x F(j+1) + (j+1) F(j)) *)
Fixpoint sq_pair (k : R) (j : nat) (x : R) : R * R :=
  match j with
  | O => (exp (k * (x * x)), 2 * k * (x * exp (k * (x * x))))
  | S i => let p := sq_pair k i x in (snd p, 2 * k * (x * snd p + INR j * fst p))
  end.
Definition sq_exp (k : R) (j : nat) (x : R) : R := fst (sq_pair k j x).
Lemma sq_exp_two : forall k j x, sq_exp k (S (S j)) x = 2 * k * (x * sq_exp k (S j) x + INR (S j) * sq_exp k j x).
Proof. reflexivity. Qed.
Lemma sq_exp_der1 : forall k j x, is_derive (sq_exp k j) x (sq_exp k (S j) x) /\ is_derive (sq_exp k (S j)) x (sq_exp k (S (S j)) x).
Proof.
  intros k j x. induction j as [|j [H1 H2]].
  - split.
    + unfold sq_exp. simpl. auto_derive; [trivial|ring].
    + rewrite sq_exp_two. unfold sq_exp. simpl. auto_derive; [trivial|ring].
  - split; [exact H2|]. rewrite (sq_exp_two k (S j)).
    apply (is_derive_ext (fun x => 2 * k * (x * sq_exp k (S j) x + INR (S j) * sq_exp k j x))); [intros t; symmetry; apply sq_exp_two|].
    apply (is_derive_val _ _ (2 * k * ((1 * sq_exp k (S j) x + x * sq_exp k (S (S j)) x) + INR (S j) * sq_exp k (S j) x))); [rewrite (S_INR (S j)); ring|].
    apply (is_derive_scal (fun x => x * sq_exp k (S j) x + INR (S j) * sq_exp k j x) x (2 * k)).
    apply (is_derive_plus (K := R_AbsRing) (V := R_NormedModule) (fun x => x * sq_exp k (S j) x) (fun x => INR (S j) * sq_exp k j x)).
    + apply (is_derive_mult (fun y => y) (sq_exp k (S j))); [apply (is_derive_id (K := R_AbsRing))|exact H2|intros; apply Rmult_comm].
    + apply (is_derive_scal (sq_exp k j) x (INR (S j))). exact H1.
Qed.
Lemma sq_exp_der : forall k m, has_derivatives (fun _ => True) m (sq_exp k).
Proof. intros k m i x _ _. apply sq_exp_der1. Qed.
Lemma sq_exp_even : forall k m x, 0 <= k -> 0 <= sq_exp k (2 * m) x.
Proof.
  intros k m x Hk. enough (G : 0 <= sq_exp k (2 * m) x /\ 0 <= x * sq_exp k (S (2 * m)) x) by apply G.
  induction m as [|m [H1 H2]].
  - unfold sq_exp. simpl. assert (P := exp_pos (k * (x * x))). split; [lra|].
    replace (x * (2 * k * (x * exp (k * (x * x))))) with (2 * k * (x * x) * exp (k * (x * x))) by ring. apply Rmult_le_pos; [|lra]. apply Rmult_le_pos; [lra|nra].
  - replace (2 * S m)%nat with (S (S (2 * m))) by lia. set (j := (2 * m)%nat) in *.
    assert (A : 0 <= sq_exp k (S (S j)) x).
    { rewrite sq_exp_two. apply Rmult_le_pos; [lra|]. assert (P := pos_INR (S j)). assert (0 <= INR (S j) * sq_exp k j x) by (apply Rmult_le_pos; assumption). lra. }
    split; [exact A|]. rewrite (sq_exp_two k (S j)).
    replace (x * (2 * k * (x * sq_exp k (S (S j)) x + INR (S (S j)) * sq_exp k (S j) x))) with (2 * k * (x * x * sq_exp k (S (S j)) x + INR (S (S j)) * (x * sq_exp k (S j) x))) by ring.
    apply Rmult_le_pos; [lra|]. assert (P := pos_INR (S (S j))). apply Rplus_le_le_0_compat; apply Rmult_le_pos; try assumption. nra.
Qed.
Lemma sq_exp_int : forall k, k < 1 -> exists V, hermite_integral (sq_exp k 0) V.
Proof.
  intros k Hk. apply (hermite_gauss_int k); [exact Hk| |].
  - intros x. apply (ex_derive_continuous (V := R_NormedModule)). unfold sq_exp. simpl. auto_derive. trivial.
  - exists 1. intros x. unfold sq_exp. simpl. rewrite Rmult_1_l, Rabs_pos_eq; [lra|left; apply exp_pos].
Qed.
Lemma hermite_gauss_converges : forall c f, c < 1 -> (forall x, continuous f x) -> gaussian_growth c f ->
  exists v, hermite_integral f v /\
  forall eps, 0 < eps -> exists N, forall (ext : Linalg RA) n (r : GaussHermite RA), (N <= n)%Z -> sorts ext ->
    exact_on ext (Z.to_nat n) (@hermite_diag RA) (@hermite_off_diag RA) -> hermite_new ext n = Ok r ->
    Rabs (hermite_value r f - v) <= eps.
Proof.
  intros c f Hc Hf Hg. destruct (hermite_gauss_int c f Hc Hf Hg) as [v Hv]. exists v. split; [exact Hv|]. intros eps He. destruct Hg as [C H].
  assert (C0 : 0 <= C). { assert (A := H 0). rewrite !Rmult_0_r, exp_0 in A. assert (B := Rabs_pos (f 0)). lra. }
  set (b := Rmax c 0). assert (Cb : c <= b) by apply Rmax_l. assert (B0 : 0 <= b) by apply Rmax_r.
  assert (B1 : b < 1) by (unfold b; apply Rmax_lub_lt; lra).
  set (k := (1 + b) / 2). assert (K1 : b < k < 1) by (unfold k; lra).
  destruct (sq_exp_int k ltac:(lra)) as [V HV]. set (Phi := sq_exp k 0) in *.
  assert (JL := J_lin (Rbar_locally m_infty) (Rbar_locally p_infty) gauss).
  assert (JE := J_le whole (Rbar_locally m_infty) (Rbar_locally p_infty) (conv_of _ whole_convex) whole_a whole_b le_whole gauss gauss_nonneg).
  assert (Ph : forall x, 0 <= Phi x) by (intros x; apply (sq_exp_even k 0); lra).
  assert (V0 : 0 <= V).
  { apply (J_nonneg whole (Rbar_locally m_infty) (Rbar_locally p_infty) (conv_of _ whole_convex) whole_a whole_b le_whole gauss gauss_nonneg Phi V); [intros x _; apply Ph|exact HV]. }
  destruct (exp_decay (2 * C * V) (eps / 3) (k - b)) as (Y & Y0 & HX); [apply Rmult_le_pos; lra|lra|lra|].
  set (X := sqrt Y). assert (X0 : 0 <= X) by apply sqrt_pos. assert (XX : X * X = Y) by (apply sqrt_sqrt, Y0). rewrite <- XX in HX.
  set (fX := fun x => f (clamp (- X) X x)).
  assert (FB : forall x, Rabs (f x) <= C * exp (b * (x * x))).
  { intros x. eapply Rle_trans; [apply (H x)|]. apply Rmult_le_compat_l; [exact C0|]. apply exp_le. assert (A : 0 <= x * x) by nra. nra. }
  assert (XB : forall x, Rabs (fX x) <= C * exp (b * (X * X))).
  { intros x. unfold fX. eapply Rle_trans; [apply FB|]. apply Rmult_le_compat_l; [exact C0|]. apply exp_le. apply Rmult_le_compat_l; [exact B0|].
    assert (A := proj1 (clamp_cases (- X) X x ltac:(lra))). nra. }
  assert (XC : forall x, continuous fX x). { intros x. apply (continuous_comp (clamp (- X) X) f); [apply clamp_cont; lra|apply Hf]. }
  set (de := 2 * C * exp (- ((k - b) * (X * X)))). assert (D0 : 0 <= de) by (apply Rmult_le_pos; [lra|left; apply exp_pos]).
  assert (DV : de * V <= eps / 3) by (unfold de; lra).
  assert (DD : forall x, Rabs (f x - fX x) <= de * Phi x).
  { intros x. destruct (clamp_cases (- X) X x ltac:(lra)) as (_ & [[_ E]|O]).
    - unfold fX. rewrite E, Rminus_diag_eq, Rabs_R0 by reflexivity. apply Rmult_le_pos; [exact D0|apply Ph].
    - assert (L : X * X <= x * x) by (destruct O as [O|O]; nra).
      apply Rle_trans with (2 * C * exp (b * (x * x))).
      + unfold Rminus. eapply Rle_trans; [apply Rabs_triang|]. rewrite Rabs_Ropp. assert (A := FB x). assert (B := XB x).
        assert (exp (b * (X * X)) <= exp (b * (x * x))) by (apply exp_le; apply Rmult_le_compat_l; assumption).
        assert (C * exp (b * (X * X)) <= C * exp (b * (x * x))) by (apply Rmult_le_compat_l; assumption). lra.
      + unfold de. rewrite (Rmult_assoc (2 * C) (exp _)). apply Rmult_le_compat_l; [lra|]. unfold Phi, sq_exp. simpl. rewrite <- exp_plus. apply exp_le. nra. }
  assert (D1 : forall x, 1 * f x + -1 * fX x <= de * Phi x + 0 * Phi x) by (intros x; assert (A := DD x); apply Rabs_le_between in A; lra).
  assert (D2 : forall x, -1 * f x + 1 * fX x <= de * Phi x + 0 * Phi x) by (intros x; assert (A := DD x); apply Rabs_le_between in A; lra).
  destruct (hermite_converges fX XC) as (vX & HvX & Conv).
  { exists (C * exp (b * (X * X))), O. intros x _. simpl. eapply Rle_trans; [apply XB|]. assert (A := exp_pos (b * (X * X))). nra. }
  assert (I1 : Rabs (v - vX) <= eps / 3).
  { assert (K2 := JE _ _ _ _ (JL 1 (-1) f fX v vX Hv HvX) (JL de 0 Phi Phi V V HV HV) (fun x _ => D1 x)).
    assert (K3 := JE _ _ _ _ (JL (-1) 1 f fX v vX Hv HvX) (JL de 0 Phi Phi V V HV HV) (fun x _ => D2 x)). apply Rabs_le. lra. }
  destruct (Conv (eps / 3) ltac:(lra)) as [N HN]. exists (Z.max N 1). intros ext n r Hn So Ex Hr.
  assert (I2 := HN ext n r ltac:(lia) So Ex Hr).
  assert (HVal : forall g, hermite_value r g = apply_rule (hermite_pairs r) g) by (intros; unfold hermite_value; rewrite hermite_R; reflexivity).
  assert (QP : hermite_value r Phi <= V).
  { assert (A := proj1 (hermite_side ext n r ltac:(lia) So Ex Hr (sq_exp k) V (sq_exp_der _ _) HV) 0 (fun x => sq_exp_even k _ x ltac:(lra))). fold Phi in A. lra. }
  assert (I3 : Rabs (hermite_value r f - hermite_value r fX) <= eps / 3).
  { destruct (hermite_interior ext n r ltac:(lia) So Ex Hr) as (_ & _ & PW). rewrite Forall_forall in PW.
    assert (RL := fun f g => rule_le whole (hermite_pairs r) f g (fun _ _ => I) (fun xw Hx => Rlt_le _ _ (PW xw Hx))).
    assert (K2 := RL _ _ (fun x _ => D1 x)). assert (K3 := RL _ _ (fun x _ => D2 x)). rewrite !rule_lin, <- !HVal in K2, K3.
    assert (de * hermite_value r Phi <= de * V) by (apply Rmult_le_compat_l; assumption). apply Rabs_le. lra. }
  apply Rabs_le_between in I1. apply Rabs_le_between in I2. apply Rabs_le_between in I3. apply Rabs_le. lra.
Qed.

Lemma exp_gaussian : forall c f, exponential_growth (fun _ => True) c f -> gaussian_growth (1 / 2) f.
Proof.
  intros c f [C H]. exists (C * exp (c * c / 2)). intros x. eapply Rle_trans; [apply (H x I)|].
  assert (C0 : 0 <= C). { assert (A := H 0 I). rewrite Rabs_R0, Rmult_0_r, exp_0 in A. assert (B := Rabs_pos (f 0)). lra. }
  rewrite Rmult_assoc, <- exp_plus. apply Rmult_le_compat_l; [exact C0|]. apply exp_le.
  assert (A := Rle_0_sqr (Rabs x - c)). unfold Rsqr in A. replace (x * x) with (Rabs x * Rabs x) by (rewrite <- Rabs_mult; apply Rabs_pos_eq; nra). lra.
Qed.

Lemma hermite_exp_converges : forall c f, (forall x, continuous f x) -> exponential_growth (fun _ => True) c f ->
  exists v, hermite_integral f v /\
  forall eps, 0 < eps -> exists N, forall (ext : Linalg RA) n (r : GaussHermite RA), (N <= n)%Z -> sorts ext ->
    exact_on ext (Z.to_nat n) (@hermite_diag RA) (@hermite_off_diag RA) -> hermite_new ext n = Ok r ->
    Rabs (hermite_value r f - v) <= eps.
Proof. intros c f Hf Hg. apply (hermite_gauss_converges (1 / 2)); [lra|exact Hf|exact (exp_gaussian c f Hg)]. Qed.

(** ** Laguerre *)
Definition one_exp (k : R) (j : nat) (x : R) : R := k ^ j * exp (k * x).
Lemma one_exp_der : forall k m, has_derivatives (fun x => 0 < x) m (one_exp k).
Proof. intros k m i x _ _. unfold one_exp. auto_derive; [trivial|]. simpl. ring. Qed.
Lemma one_exp_int : forall al k, -1 < al -> k < 1 -> exists V, laguerre_integral al (one_exp k 0) V.
Proof.
  intros al k Hal Hk. apply (laguerre_exp_int al k); [exact Hal|exact Hk| |].
  - intros x _ eps He. assert (Cc : continuity_pt (one_exp k 0) x).
    { apply continuity_pt_filterlim, (ex_derive_continuous (V := R_NormedModule)). unfold one_exp. auto_derive. trivial. }
    destruct (Cc eps He) as (d & Hd & G). exists d. split; [exact Hd|]. intros y _ L. destruct (Req_dec x y) as [<-|N].
    + rewrite Rminus_diag_eq, Rabs_R0 by reflexivity. exact He.
    + apply G. split; [split; [exact I|exact N]|exact L].
  - exists 1. intros x Hx. unfold one_exp. simpl. rewrite !Rmult_1_l, (Rabs_pos_eq x) by exact Hx. rewrite Rabs_pos_eq; [lra|left; apply exp_pos].
Qed.
Lemma laguerre_exp_converges : forall al : Param RA, -1 < param_get al -> forall G, is_Gamma (param_get al + 1) G ->
  forall c f, c < 1 -> continuous_half f -> exponential_growth (fun x => 0 <= x) c f ->
  exists v, laguerre_integral (param_get al) f v /\
  forall eps, 0 < eps -> exists N, forall (ext : Linalg RA) n (r : GaussLaguerre RA), (N <= n)%Z -> sorts ext ->
    exact_on ext (Z.to_nat n) (@laguerre_diag RA (param_get al)) (@laguerre_off_diag RA (param_get al)) ->
    laguerre_new ext n al = Ok r ->
    Rabs (laguerre_value r f - @gamma RA (param_get al + 1) / G * v) <= eps.
Proof.
  intros pa Hal G HG c f Hc Hf Hg. set (al := param_get pa : R) in *.
  destruct (laguerre_exp_int al c f Hal Hc Hf Hg) as [v Hv]. exists v. split; [exact Hv|]. intros eps He. destruct Hg as [C H].
  assert (EG := gamma_mass al G Hal HG). assert (Gp : 0 < G) by (rewrite EG; apply laguerre_one_pos, Hal).
  assert (Pg := gamma_pos (al + 1) ltac:(lra)). set (g := @gamma RA (al + 1) : R) in *.
  set (q := g / G). assert (q0 : 0 < q) by (apply Rdiv_lt_0_compat; assumption).
  assert (C0 : 0 <= C). { assert (A := H 0 ltac:(lra)). rewrite Rabs_R0, Rmult_0_r, exp_0 in A. assert (B := Rabs_pos (f 0)). lra. }
  set (b := Rmax c 0). assert (Cb : c <= b) by apply Rmax_l. assert (B0 : 0 <= b) by apply Rmax_r.
  assert (B1 : b < 1) by (unfold b; apply Rmax_lub_lt; lra).
  set (k := (1 + b) / 2). assert (K1 : b < k < 1) by (unfold k; lra).
  destruct (one_exp_int al k Hal ltac:(lra)) as [V HV]. set (Phi := one_exp k 0) in *.
  assert (JL := J_lin (at_right 0) (Rbar_locally p_infty) (lagw al)).
  assert (JE := J_le halfline (at_right 0) (Rbar_locally p_infty) (conv_of _ half_convex) half_a half_b le_half (lagw al) (lagw_nonneg al)).
  assert (Ph : forall x, Phi x = exp (k * x)) by (intros x; unfold Phi, one_exp; simpl; ring).
  assert (Pp : forall x, 0 <= Phi x) by (intros x; rewrite Ph; left; apply exp_pos).
  assert (V0 : 0 <= V).
  { apply (J_nonneg halfline (at_right 0) (Rbar_locally p_infty) (conv_of _ half_convex) half_a half_b le_half (lagw al) (lagw_nonneg al) Phi V); [intros x _; apply Pp|exact HV]. }
  destruct (exp_decay (2 * C * (q * V)) (eps / 3) (k - b)) as (X & X0 & HX); [apply Rmult_le_pos; [lra|apply Rmult_le_pos; lra]|lra|lra|].
  set (fX := fun x => f (clamp 0 X x)).
  assert (FB : forall x, 0 <= x -> Rabs (f x) <= C * exp (b * x)).
  { intros x Hx. eapply Rle_trans; [apply (H x Hx)|]. rewrite (Rabs_pos_eq x Hx). apply Rmult_le_compat_l; [exact C0|]. apply exp_le. nra. }
  assert (XB : forall x, Rabs (fX x) <= C * exp (b * X)).
  { intros x. unfold fX. assert (A := proj1 (clamp_cases 0 X x X0)). eapply Rle_trans; [apply FB; lra|]. apply Rmult_le_compat_l; [exact C0|]. apply exp_le. apply Rmult_le_compat_l; lra. }
  assert (XC : continuous_half fX).
  { intros x Hx e E0. destruct (Hf (clamp 0 X x) (proj1 (proj1 (clamp_cases 0 X x X0))) e E0) as (d & Hd & HH). exists d. split; [exact Hd|].
    intros y Hy L. apply HH; [apply (clamp_cases 0 X y X0)|]. eapply Rle_lt_trans; [apply clamp_near, X0|exact L]. }
  set (de := 2 * C * exp (- ((k - b) * X))). assert (D0 : 0 <= de) by (apply Rmult_le_pos; [lra|left; apply exp_pos]).
  assert (DV : de * (q * V) <= eps / 3) by (unfold de; lra).
  assert (DD : forall x, halfline x -> Rabs (f x - fX x) <= de * Phi x).
  { intros x Hx. unfold halfline in Hx. destruct (clamp_cases 0 X x X0) as (_ & [[_ E]|O]).
    - unfold fX. rewrite E, Rminus_diag_eq, Rabs_R0 by reflexivity. apply Rmult_le_pos; [exact D0|apply Pp].
    - assert (L : X <= x) by lra.
      apply Rle_trans with (2 * C * exp (b * x)).
      + unfold Rminus. eapply Rle_trans; [apply Rabs_triang|]. rewrite Rabs_Ropp. assert (A := FB x ltac:(lra)). assert (B := XB x).
        assert (exp (b * X) <= exp (b * x)) by (apply exp_le; apply Rmult_le_compat_l; assumption).
        assert (C * exp (b * X) <= C * exp (b * x)) by (apply Rmult_le_compat_l; assumption). lra.
      + unfold de. rewrite (Rmult_assoc (2 * C) (exp _)), Ph. apply Rmult_le_compat_l; [lra|]. rewrite <- exp_plus. apply exp_le. nra. }
  assert (D1 : forall x, halfline x -> 1 * f x + -1 * fX x <= de * Phi x + 0 * Phi x) by (intros x Hx; assert (A := DD x Hx); apply Rabs_le_between in A; lra).
  assert (D2 : forall x, halfline x -> -1 * f x + 1 * fX x <= de * Phi x + 0 * Phi x) by (intros x Hx; assert (A := DD x Hx); apply Rabs_le_between in A; lra).
  destruct (laguerre_converges pa Hal G HG fX XC) as (vX & HvX & Conv).
  { exists (C * exp (b * X)), O. intros x _. simpl. eapply Rle_trans; [apply XB|]. assert (A := exp_pos (b * X)). nra. }
  fold al in HvX, Conv. fold g in Conv. fold q in Conv |- *.
  assert (I1 : Rabs (q * v - q * vX) <= eps / 3).
  { assert (K2 := JE _ _ _ _ (JL 1 (-1) f fX v vX Hv HvX) (JL de 0 Phi Phi V V HV HV) D1).
    assert (K3 := JE _ _ _ _ (JL (-1) 1 f fX v vX Hv HvX) (JL de 0 Phi Phi V V HV HV) D2).
    apply (Rmult_le_compat_l q) in K2; [|lra]. apply (Rmult_le_compat_l q) in K3; [|lra]. apply Rabs_le. lra. }
  destruct (Conv (eps / 3) ltac:(lra)) as [N HN]. exists (Z.max N 1). intros ext n r Hn So Ex Hr.
  assert (I2 := HN ext n r ltac:(lia) So Ex Hr).
  assert (HVal : forall g, laguerre_value r g = apply_rule (laguerre_pairs r) g) by (intros; unfold laguerre_value; rewrite laguerre_R; reflexivity).
  assert (QP : laguerre_value r Phi <= q * V).
  { assert (A := proj1 (laguerre_side ext n pa r G ltac:(lia) Hal So Ex Hr HG (one_exp k) V (one_exp_der _ _) HV) 0).
    fold al in A. fold g in A. fold q in A. fold Phi in A.
    assert (B : laguerre_value r Phi <= q * V - 0 / INR (fact (2 * Z.to_nat n)) * (INR (fact (Z.to_nat n)) * rising al (Z.to_nat n) * g)).
    { apply A. intros x Hx. unfold one_exp. apply Rmult_le_pos; [apply pow_le; lra|left; apply exp_pos]. } unfold Rdiv in B. rewrite !Rmult_0_l in B. lra. }
  assert (I3 : Rabs (laguerre_value r f - laguerre_value r fX) <= eps / 3).
  { destruct (laguerre_interior ext n pa r ltac:(lia) Hal So Ex Hr) as (PW & _). rewrite Forall_forall in PW.
    assert (RL := fun f g => rule_le halfline (laguerre_pairs r) f g).
    assert (N1 : forall x, In x (map fst (laguerre_pairs r)) -> halfline x) by (intros x Hx; apply in_map_iff in Hx; destruct Hx as (p & <- & Ip); apply (PW p Ip)).
    assert (N2 : forall xw, In xw (laguerre_pairs r) -> 0 <= snd xw) by (intros xw Hx; left; apply (PW xw Hx)).
    assert (K2 := RL _ _ N1 N2 D1). assert (K3 := RL _ _ N1 N2 D2). rewrite !rule_lin, <- !HVal in K2, K3.
    assert (de * laguerre_value r Phi <= de * (q * V)) by (apply Rmult_le_compat_l; assumption). apply Rabs_le. lra. }
  apply Rabs_le_between in I1. apply Rabs_le_between in I2. apply Rabs_le_between in I3. apply Rabs_le. lra.
Qed.
