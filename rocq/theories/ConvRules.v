(** Convergence of the Gauss-Laguerre and Gauss-Hermite rules. *)
From Coq Require Import Reals Lra Lia List Arith ZArith FunctionalExtensionality.
From Coquelicot Require Import Coquelicot.
From Verif Require Import Arith RInst RInstProof Machine Param Rules RSum PolySpec PolyProof GolubWelsch GWSpec EigenSpec EigenProof
  Improper ImproperExist Gaussian LaguerreWeight WeightSpec Gamma Hermite Laguerre RuleSpec
  GaussProof GammaProof MassSpec ErrorSpec GaussErr GaussExact JacobiMore ErrRules ErrEx ConvSpec ConvAbs ConvGen.
Import ListNotations.
Local Open Scope R_scope.

Lemma half_interior : forall f x, continuous_half f -> 0 < x -> continuous f x.
Proof.
  intros f x H Hx. apply continuity_pt_filterlim. intros eps He. destruct (H x ltac:(lra) eps He) as (d & Hd & G).
  exists (Rmin d x). split; [apply Rmin_pos; lra|]. intros y [_ Hy]. simpl in Hy |- *. unfold R_dist in *.
  assert (Y1 : Rabs (y - x) < d) by (eapply Rlt_le_trans; [exact Hy|apply Rmin_l]).
  assert (Y2 : Rabs (y - x) < x) by (eapply Rlt_le_trans; [exact Hy|apply Rmin_r]). apply Rabs_def2 in Y2. apply G; [lra|exact Y1].
Qed.
Lemma x_poly : polynomial 1 (fun x => x).
Proof. apply (poly_ext 1 (fun x => x ^ 1)); [intros; simpl; ring|apply poly_pow]. Qed.

Section Lag.
Variable al : R.
Hypothesis Hal : -1 < al.
Lemma lag_rec : forall j, has_int halfline (at_right 0) (Rbar_locally p_infty) (fun x => lagw al x * ((INR j + (al + 1)) * x ^ j - x ^ S j)) 0.
Proof.
  intros k. replace 0 with (0 - 0) at 2 by ring.
  apply (has_int_derive _ _ _ (fun x => x * lagw al x * x ^ k)); [|apply lagw_bound_a, Hal|apply lagw_bound_b].
  intros x Hx. unfold halfline in Hx.
  apply (is_derive_val _ _ ((al + 1 - x) * lagw al x * x ^ k + x * lagw al x * (INR k * x ^ pred k))).
  - destruct k as [|k]; [simpl; ring|]. simpl pred. simpl pow. ring.
  - apply (is_derive_mult (fun y => y * lagw al y) (fun y => y ^ k)); [apply lagw_pearson; exact Hx| |intros; apply Rmult_comm].
    auto_derive; [trivial|]. ring.
Qed.
Lemma lagw_nonneg : forall x, halfline x -> 0 <= lagw al x.
Proof. intros x _. left. apply lagw_pos. Qed.
Lemma half_growth : forall f, polynomial_growth (fun x => 0 <= x) f -> exists C d, forall x, 0 <= x -> Rabs (f x) <= C * (1 + x ^ d).
Proof. intros f (C & k & H). exists C, k. intros x Hx. rewrite <- (Rabs_pos_eq x Hx) at 2. apply H, Hx. Qed.
Lemma laguerre_growth_int : forall f, continuous_half f -> polynomial_growth (fun x => 0 <= x) f -> exists v, laguerre_integral al f v.
Proof.
  intros f Hf Hg. destruct (half_growth f Hg) as (C & d & H).
  apply (growth_int halfline (at_right 0) (Rbar_locally p_infty) half_convex half_open half_cof_a half_cof_b half_a half_b
    (lagw al) 1 ltac:(unfold halfline; lra) lagw_nonneg (lagw_cont al) (lagw_moments al Hal) 1 (fun x => x) x_poly ltac:(unfold halfline; intros; lra) f C d).
  - intros x Hx. apply half_interior; assumption.
  - intros x Hx. apply H. unfold halfline in Hx. lra.
Qed.
End Lag.

Lemma laguerre_converges : forall al : Param RA, -1 < param_get al -> forall G, is_Gamma (param_get al + 1) G ->
  forall f, continuous_half f -> polynomial_growth (fun x => 0 <= x) f ->
  exists v, laguerre_integral (param_get al) f v /\
  forall eps, 0 < eps -> exists N, forall (ext : Linalg RA) n (r : GaussLaguerre RA), (N <= n)%Z -> sorts ext ->
    exact_on ext (Z.to_nat n) (@laguerre_diag RA (param_get al)) (@laguerre_off_diag RA (param_get al)) ->
    laguerre_new ext n al = Ok r ->
    Rabs (laguerre_value r f - @gamma RA (param_get al + 1) / G * v) <= eps.
Proof.
  intros pa Hal G HG f Hf Hgr. set (al := param_get pa : R) in *.
  destruct (laguerre_growth_int al Hal f Hf Hgr) as [v Hv]. exists v. split; [exact Hv|]. intros eps He.
  destruct (half_growth f Hgr) as (C & d & H).
  assert (EG := gamma_mass al G Hal HG). assert (Gp : 0 < G) by (rewrite EG; apply laguerre_one_pos, Hal).
  assert (Pg := gamma_pos (al + 1) ltac:(lra)). set (g := @gamma RA (al + 1) : R) in *.
  destruct (gen_converges halfline (at_right 0) (Rbar_locally p_infty) half_convex (conv_of _ half_convex) half_open half_cof_a half_cof_b half_a half_b le_half
    (lagw al) 1 ltac:(unfold halfline; lra) (lagw_nonneg al) (lagw_cont al) (lagw_moments al Hal) 1 (fun x => x) (al + 1) x_poly ltac:(unfold halfline; intros; lra)
    ltac:(lra) (lag_rec al Hal) (g / G) ltac:(apply Rdiv_lt_0_compat; assumption) f C d Hf H v Hv eps He) as [N HN].
  exists (Z.of_nat (S N)). intros ext n r Hn So Ex Hr. unfold laguerre_value. rewrite laguerre_R.
  apply (HN (Z.to_nat n) (laguerre_pairs r) ltac:(lia)). split; [|split]; cbn [fst snd].
  - intros x Hx. destruct (laguerre_interior ext n pa r ltac:(lia) Hal So Ex Hr) as [I _]. rewrite Forall_forall in I.
    apply in_map_iff in Hx. destruct Hx as (p & <- & Ip). apply (I p Ip).
  - intros xw Hx. destruct (laguerre_interior ext n pa r ltac:(lia) Hal So Ex Hr) as [I _]. rewrite Forall_forall in I. left. apply (I xw Hx).
  - intros p Hp. destruct (laguerre_exact ext n pa r G ltac:(lia) Hal So Ex Hr HG p Hp) as (u & Hu & E). exists u. split; [exact Hu|].
    unfold laguerre_value in E. rewrite laguerre_R in E. exact E.
Qed.

(** ** Hermite *)
Lemma sq_poly : polynomial 2 (fun x => x * x).
Proof. apply (poly_ext 2 (fun x => x ^ 2)); [intros; simpl; ring|apply poly_pow]. Qed.
Lemma her_rec : forall j, has_int whole (Rbar_locally m_infty) (Rbar_locally p_infty) (fun x => gauss x * ((INR j + / 2) * (x * x) ^ j - (x * x) ^ S j)) 0.
Proof.
  intros j. replace 0 with (1 / 2 * 0 - 1 / 2 * 0) at 1 by ring.
  apply (has_int_derive _ _ _ (fun x => 1 / 2 * (gauss x * x ^ S (2 * j)))).
  - intros x _. apply (is_derive_val _ _ (1 / 2 * (- (2 * x) * gauss x * x ^ S (2 * j) + gauss x * (INR (S (2 * j)) * x ^ (2 * j))))).
    + rewrite S_INR, mult_INR. simpl (INR 2). replace ((x * x) ^ j) with (x ^ (2 * j)) by (rewrite pow_mult; f_equal; simpl; ring).
      replace ((x * x) ^ S j) with (x * x * x ^ (2 * j)) by (rewrite pow_mult; simpl; f_equal; f_equal; ring).
      change (x ^ S (2 * j)) with (x * x ^ (2 * j)). field.
    + apply (is_derive_scal (fun x => gauss x * x ^ S (2 * j)) x (1 / 2)).
      apply (is_derive_mult gauss (fun y => y ^ S (2 * j))); [apply gauss_der| |intros; apply Rmult_comm].
      apply (is_derive_val _ _ (INR (S (2 * j)) * 1 * x ^ (2 * j))); [ring|].
      apply (is_derive_pow (fun x => x) (S (2 * j)) x 1). apply (is_derive_id (K := R_AbsRing)).
  - apply lim_scal; [apply filter_filter|apply pow_exp_lim_m].
  - apply lim_scal; [apply filter_filter|apply pow_exp_lim].
Qed.
Lemma whole_le : forall u v x, whole u -> whole v -> u <= x <= v -> whole x.
Proof. intros; exact I. Qed.
Lemma gauss_nonneg : forall x, whole x -> 0 <= gauss x.
Proof. intros x _. left. apply exp_pos. Qed.
Lemma growth_square : forall f, polynomial_growth (fun _ => True) f -> exists C k, 0 <= C /\ forall x, Rabs (f x) <= C * (1 + (x * x) ^ k).
Proof.
  intros f (C & k & H). exists (2 * C), k.
  assert (C0 : 0 <= C). { assert (A := H 0 I). assert (B := Rabs_pos (f 0)). assert (P := pow_le (Rabs 0) k (Rabs_pos 0)). nra. }
  split; [lra|]. intros x. eapply Rle_trans; [apply (H x I)|].
  replace ((x * x) ^ k) with (Rabs x ^ k * Rabs x ^ k).
  2:{ rewrite <- Rpow_mult_distr. f_equal. rewrite <- Rabs_mult. apply Rabs_pos_eq. nra. }
  assert (P := pow_le (Rabs x) k (Rabs_pos x)). set (q := Rabs x ^ k) in *. assert (q <= 1 + q * q) by nra. nra.
Qed.
Lemma hermite_growth_int : forall f, (forall x, continuous f x) -> polynomial_growth (fun _ => True) f -> exists v, hermite_integral f v.
Proof.
  intros f Hf Hg. destruct (growth_square f Hg) as (C & d & C0 & H).
  apply (growth_int whole (Rbar_locally m_infty) (Rbar_locally p_infty) whole_convex whole_open whole_cof_a whole_cof_b whole_a whole_b
    gauss 0 I gauss_nonneg (fun x _ => gauss_cont x) hermite_moments 2 (fun x => x * x) sq_poly ltac:(intros; nra) f C d).
  - intros x _. apply Hf.
  - intros x _. apply H.
Qed.
(** the integral of the reflected function *)
Lemma hermite_flip : forall (f : R -> R) v, (forall x, continuous f x) -> hermite_integral f v -> hermite_integral (fun x => f (- x)) v.
Proof.
  intros f v Hc H. unfold hermite_integral in *.
  intros P HP. destruct (H P HP) as [Q R0 [M1 HQ] [M2 HR] HQR].
  exists (fun x => x < - M2) (fun x => - M1 < x); [exists (- M2); auto|exists (- M1); auto|].
  intros a b Ha Hb. specialize (HQR (- b) (- a) (HQ (- b) ltac:(lra)) (HR (- a) ltac:(lra))). cbn [fst snd] in *. destruct HQR as (z & Hz & Pz).
  exists z. split; [|exact Pz].
  assert (G := is_RInt_comp_opp (V := R_NormedModule) (fun x => exp (- (x * x)) * f x) b a z Hz).
  apply is_RInt_swap in G. replace z with (opp (opp z)) by (unfold opp; simpl; ring).
  refine (is_RInt_ext _ _ a b _ _ (is_RInt_opp _ a b _ G)). intros x _. unfold opp; simpl. replace (- x * - x) with (x * x) by ring. ring.
Qed.
Lemma symmetric_flip : forall (l : list (R * R)) f, symmetric_rule l -> apply_rule l (fun x => f (- x)) = apply_rule l f.
Proof.
  intros l f S. unfold apply_rule.
  transitivity (lsum (map (fun xw : R * R => f (fst xw) * snd xw) (map (fun xw => (- fst xw, snd xw)) l))).
  - rewrite map_map. reflexivity.
  - rewrite S. change (apply_rule (rev l) f = apply_rule l f). apply apply_rule_perm. apply Permutation.Permutation_sym, Permutation.Permutation_rev.
Qed.

Lemma hermite_converges : forall f, (forall x, continuous f x) -> polynomial_growth (fun _ => True) f ->
  exists v, hermite_integral f v /\
  forall eps, 0 < eps -> exists N, forall (ext : Linalg RA) n (r : GaussHermite RA), (N <= n)%Z -> sorts ext ->
    exact_on ext (Z.to_nat n) (@hermite_diag RA) (@hermite_off_diag RA) -> hermite_new ext n = Ok r ->
    Rabs (hermite_value r f - v) <= eps.
Proof.
  intros f Hf Hgr. destruct (hermite_growth_int f Hf Hgr) as [v Hv]. exists v. split; [exact Hv|]. intros eps He.
  destruct (growth_square f Hgr) as (C & d & C0 & H).
  set (F := fun t => / 2 * f (sqrt t) + / 2 * f (- sqrt t)).
  assert (Fy : forall x, F (x * x) = / 2 * f x + / 2 * f (- x)).
  { intros x. unfold F. replace (sqrt (x * x)) with (Rabs x) by (rewrite <- sqrt_Rsqr_abs; reflexivity). unfold Rabs. destruct (Rcase_abs x); [rewrite Ropp_involutive; ring|ring]. }
  assert (Fc : forall t, 0 <= t -> forall eps, 0 < eps -> exists delta, 0 < delta /\ forall s, 0 <= s -> Rabs (s - t) < delta -> Rabs (F s - F t) < eps).
  { intros t Ht ep Hep.
    assert (Sc : continuous sqrt t) by apply continuous_sqrt.
    assert (Cc : continuity_pt F t).
    { apply continuity_pt_filterlim. apply cont_plus; apply cont_mult; try apply continuous_const.
      - apply (continuous_comp sqrt f); [exact Sc|apply Hf].
      - apply (continuous_comp (fun t => - sqrt t) f); [apply (continuous_opp (V := R_NormedModule) sqrt), Sc|apply Hf]. }
    destruct (Cc ep Hep) as (d1 & Hd1 & H1). exists d1. split; [exact Hd1|]. intros s _ L. destruct (Req_dec t s) as [<-|N].
    - rewrite Rminus_diag_eq, Rabs_R0 by reflexivity. exact Hep.
    - apply (H1 s). split; [split; [exact I|exact N]|exact L]. }
  assert (Fg : forall t, 0 <= t -> Rabs (F t) <= C * (1 + t ^ d)).
  { intros t Ht. unfold F. eapply Rle_trans; [apply Rabs_triang|]. rewrite !Rabs_mult, (Rabs_pos_eq (/ 2)) by lra.
    assert (A := H (sqrt t)). assert (B := H (- sqrt t)). replace (- sqrt t * - sqrt t) with (sqrt t * sqrt t) in B by ring. rewrite sqrt_sqrt in A, B by exact Ht. lra. }
  assert (Jv : hermite_integral (fun x => F (x * x)) v).
  { assert (Q := J_lin (Rbar_locally m_infty) (Rbar_locally p_infty) gauss (/ 2) (/ 2) f (fun x => f (- x)) v v Hv (hermite_flip f v Hf Hv)).
    replace (/ 2 * v + / 2 * v) with v in Q by field.
    refine (eq_ind _ (fun h => is_RInt_gen h (Rbar_locally m_infty) (Rbar_locally p_infty) v) Q _ _). extensionality x. rewrite Fy. reflexivity. }
  destruct (gen_converges whole (Rbar_locally m_infty) (Rbar_locally p_infty) whole_convex whole_le whole_open whole_cof_a whole_cof_b whole_a whole_b le_whole
    gauss 0 I gauss_nonneg (fun x _ => gauss_cont x) hermite_moments 2 (fun x => x * x) (/ 2) sq_poly ltac:(intros; nra)
    ltac:(lra) her_rec 1 ltac:(lra) F C d Fc Fg v Jv eps He) as [N HN].
  exists (Z.of_nat (S N)). intros ext n r Hn So Ex Hr.
  destruct (hermite_interior ext n r ltac:(lia) So Ex Hr) as (Sy & _ & Wp).
  assert (HV : forall f, hermite_value r f = apply_rule (hermite_pairs r) f) by (intros; unfold hermite_value; rewrite hermite_R; reflexivity).
  rewrite HV. replace (apply_rule (hermite_pairs r) f) with (apply_rule (hermite_pairs r) (fun x => F (x * x))).
  - rewrite <- (Rmult_1_l v). apply (HN (Z.to_nat n) (hermite_pairs r) ltac:(lia)). split; [|split]; cbn [fst snd].
    + intros; exact I.
    + intros xw Hx. rewrite Forall_forall in Wp. left. apply (Wp xw Hx).
    + intros p Hp. exists (hermite_value r p). split; [exact (hermite_exact ext n r ltac:(lia) So Ex Hr p Hp)|rewrite HV; ring].
  - transitivity (apply_rule (hermite_pairs r) (fun x => / 2 * f x + / 2 * f (- x))).
    + f_equal. extensionality x. apply Fy.
    + rewrite rule_lin, (symmetric_flip _ f Sy). field.
Qed.
