(** Nested Newton-Cotes rules converge to the double integral. *)
From Coq Require Import Reals Lra Lia.
From Coquelicot Require Import Coquelicot.
From Verif Require Import RSum NCSpec NCReal NCExact NCBound NCMore Mirror Fourier DoubleSpec.
Local Open Scope R_scope.

Section Rule.
Variable V : nat -> R -> R -> (R -> R) -> R.
Hypothesis HV : newton_cotes V.
Lemma v_small : forall n a b g e, a < b -> (1 <= n)%nat -> (forall x, a <= x <= b -> Rabs (g x) <= e) -> Rabs (V n a b g) <= (b - a) * e.
Proof. intros n a b g e H Hn Hg. destruct (small_values a b n g e H Hn Hg) as (S1 & S2 & S3). destruct HV as [-> | [-> | ->]]; assumption. Qed.
Lemma v_linear : forall n a b c d f g, (1 <= n)%nat -> V n a b (fun x => c * f x + d * g x) = c * V n a b f + d * V n a b g.
Proof. intros. destruct HV as [-> | [-> | ->]]; [apply midpoint_linear|apply trapezoid_linear|apply simpson_linear]; assumption. Qed.
Lemma v_near : forall n a b f g e, a < b -> (1 <= n)%nat -> (forall x, a <= x <= b -> Rabs (f x - g x) <= e) -> Rabs (V n a b f - V n a b g) <= (b - a) * e.
Proof.
  intros n a b f g e H Hn Hg. replace (V n a b f - V n a b g) with (V n a b (fun x => 1 * f x + -1 * g x)) by (rewrite v_linear by exact Hn; ring).
  apply v_small; [exact H|exact Hn|]. intros x Hx. replace (1 * f x + -1 * g x) with (f x - g x) by ring. apply Hg, Hx.
Qed.
Lemma v_affine : forall n c d f, (1 <= n)%nat -> V n c d f = V n 0 1 (fun t => (d - c) * f ((d - c) * t + c)).
Proof.
  intros n c d f Hn. destruct (nc_affine n 0 1 (d - c) c f Hn) as (A1 & A2 & A3).
  replace ((d - c) * 0 + c) with c in A1, A2, A3 by ring. replace ((d - c) * 1 + c) with d in A1, A2, A3 by ring.
  replace (V n 0 1 (fun t => (d - c) * f ((d - c) * t + c))) with ((d - c) * V n 0 1 (fun t => f ((d - c) * t + c))).
  - destruct HV as [-> | [-> | ->]]; assumption.
  - transitivity ((d - c) * V n 0 1 (fun t => f ((d - c) * t + c)) + 0 * V n 0 1 (fun t => f ((d - c) * t + c))); [ring|]. rewrite <- v_linear by exact Hn.
    f_equal. apply FunctionalExtensionality.functional_extensionality. intros t. ring.
Qed.
Lemma v_converges : forall f a b, (forall x, Rmin a b <= x <= Rmax a b -> continuous f x) -> is_lim_seq (fun n => V (S n) a b f) (RInt f a b).
Proof. intros f a b Hf. destruct HV as [-> | [-> | ->]]; [apply midpoint_converges|apply trapezoid_converges|apply simpson_converges]; exact Hf. Qed.
Lemma v_modulus : forall f a b n e dl, a <= b -> (forall x, a <= x <= b -> continuity_pt f x) -> (1 <= n)%nat -> (b - a) / INR n < dl ->
  (forall x y, a <= x <= b -> a <= y <= b -> Rabs (x - y) < dl -> Rabs (f x - f y) <= e) -> Rabs (V n a b f - RInt f a b) <= (b - a) * e.
Proof. intros. destruct HV as [-> | [-> | ->]]; [eapply midpoint_modulus|eapply trapezoid_modulus|eapply simpson_modulus]; eassumption. Qed.
End Rule.

(** errors add up *)
Theorem double_error : forall V1 (Q : R -> R -> (R -> R) -> R) a b (c d : R -> R) (g : R -> R -> R) n e1 e2, newton_cotes V1 -> a < b -> (1 <= n)%nat ->
  (forall x, a <= x <= b -> Rabs (Q (c x) (d x) (g x) - RInt (g x) (c x) (d x)) <= e2) ->
  Rabs (V1 n a b (fun x => RInt (g x) (c x) (d x)) - region_integral a b c d g) <= e1 ->
  Rabs (V1 n a b (fun x => Q (c x) (d x) (g x)) - region_integral a b c d g) <= e1 + (b - a) * e2.
Proof.
  intros V1 Q a b c d g n e1 e2 HV Hab Hn H2 H1. assert (N := v_near V1 HV n a b _ _ e2 Hab Hn H2).
  replace (V1 n a b (fun x => Q (c x) (d x) (g x)) - region_integral a b c d g) with
    ((V1 n a b (fun x => RInt (g x) (c x) (d x)) - region_integral a b c d g) + (V1 n a b (fun x => Q (c x) (d x) (g x)) - V1 n a b (fun x => RInt (g x) (c x) (d x)))) by ring.
  eapply Rle_trans; [apply Rabs_triang|]. apply Rplus_le_compat; assumption.
Qed.

Section Region.
Variables (c d : R -> R) (g : R -> R -> R).
Hypothesis Hc : forall x, continuous c x.
Hypothesis Hd : forall x, continuous d x.
Hypothesis Hg : continuous2 g.
Definition k (x t : R) : R := (d x - c x) * g x ((d x - c x) * t + c x).
Lemma k_cont : forall x t, continuous (fun z : R * R => k (fst z) (snd z)) (x, t).
Proof.
  intros x t. unfold k.
  assert (F : continuous (fun z : R * R => fst z) (x, t)) by apply continuous_fst.
  assert (Sn : continuous (fun z : R * R => snd z) (x, t)) by apply continuous_snd.
  assert (C : continuous (fun z : R * R => c (fst z)) (x, t)) by (apply (continuous_comp (fun z : R * R => fst z) c); [exact F|apply Hc]).
  assert (D : continuous (fun z : R * R => d (fst z)) (x, t)) by (apply (continuous_comp (fun z : R * R => fst z) d); [exact F|apply Hd]).
  assert (W : continuous (fun z : R * R => d (fst z) - c (fst z)) (x, t)) by (apply (continuous_minus (V := R_NormedModule)); assumption).
  apply (continuous_mult (K := R_AbsRing) (fun z : R * R => d (fst z) - c (fst z)) (fun z : R * R => g (fst z) ((d (fst z) - c (fst z)) * snd z + c (fst z)))); [exact W|].
  apply (continuous_comp_2 (fun z : R * R => fst z) (fun z : R * R => (d (fst z) - c (fst z)) * snd z + c (fst z)) g); [exact F| |apply Hg].
  apply (continuous_plus (V := R_NormedModule)); [|exact C]. apply (continuous_mult (K := R_AbsRing) (fun z : R * R => d (fst z) - c (fst z)) (fun z : R * R => snd z)); assumption.
Qed.
Lemma k_2d : forall x t, continuity_2d_pt k x t.
Proof. intros x t. apply continuity_2d_pt_filterlim, k_cont. Qed.
Lemma k_t : forall x t, continuous (k x) t.
Proof.
  intros x t. apply (continuous_comp_2 (fun _ : R => x) (fun t : R => t) k t); [apply continuous_const|apply continuous_id|apply k_cont].
Qed.
Lemma g_y : forall x y, continuous (g x) y.
Proof. intros x y. apply (continuous_comp_2 (fun _ : R => x) (fun t : R => t) g y); [apply continuous_const|apply continuous_id|apply Hg]. Qed.
Lemma k_int : forall x u v, ex_RInt (k x) u v.
Proof. intros x u v. apply (ex_RInt_continuous (V := R_CompleteNormedModule)). intros t _. apply k_t. Qed.
Lemma k_RInt : forall x, RInt (g x) (c x) (d x) = RInt (k x) 0 1.
Proof.
  intros x. assert (E := RInt_comp_lin (V := R_CompleteNormedModule) (g x) (d x - c x) (c x) 0 1).
  replace ((d x - c x) * 0 + c x) with (c x) in E by ring. replace ((d x - c x) * 1 + c x) with (d x) in E by ring.
  rewrite <- E; [reflexivity|]. apply (ex_RInt_continuous (V := R_CompleteNormedModule)). intros y _. apply g_y.
Qed.
Lemma inner_cont : forall x, continuous (fun x => RInt (k x) 0 1) x.
Proof.
  intros x. apply filterlim_locally. intros eps.
  assert (E2 : 0 < eps / 2) by (pose proof (cond_pos eps); lra).
  destruct (uniform_continuity_2d k (x - 1) (x + 1) 0 1 (fun x y _ _ => k_2d x y) (mkposreal _ E2)) as [dl Hdl]. simpl in Hdl.
  assert (P : 0 < Rmin dl 1) by (apply Rmin_pos; [apply cond_pos|lra]). exists (mkposreal _ P). intros y Hy.
  assert (Hy' : Rabs (y - x) < Rmin dl 1) by exact Hy. clear Hy. assert (Hy1 := Rmin_l dl 1). assert (Hy2 := Rmin_r dl 1).
  change (Rabs (RInt (k y) 0 1 - RInt (k x) 0 1) < eps).
  replace (RInt (k y) 0 1 - RInt (k x) 0 1) with (RInt (fun t => minus (k y t) (k x t)) 0 1) by (rewrite (RInt_minus (V := R_CompleteNormedModule)); [reflexivity|apply k_int|apply k_int]).
  assert (Hx : x - 1 <= y <= x + 1) by (apply Rabs_lt_between in Hy'; lra).
  eapply Rle_lt_trans; [apply (abs_RInt_le_const _ 0 1 (eps / 2)); [lra|apply (ex_RInt_minus (V := R_NormedModule)); apply k_int|]|lra].
  intros t Ht. left. apply (Hdl x t y t); try lra. replace (t - t) with 0 by ring. rewrite Rabs_R0. apply cond_pos.
Qed.
Theorem double_converges : forall V1 V2 a b, newton_cotes V1 -> newton_cotes V2 -> a < b -> forall eps : posreal, exists N, forall n m, (N < n)%nat -> (N < m)%nat ->
  Rabs (V1 n a b (fun x => V2 m (c x) (d x) (g x)) - region_integral a b c d g) < eps.
Proof.
  intros V1 V2 a b HV1 HV2 Hab eps. pose proof (cond_pos eps) as Pe.
  assert (E1 : 0 < eps / 3) by lra. assert (E2 : 0 < eps / (3 * (b - a))) by (apply Rdiv_lt_0_compat; lra).
  assert (G : forall x, continuous (fun x => RInt (g x) (c x) (d x)) x) by (intros x; apply (continuous_ext (fun x => RInt (k x) 0 1)); [intros; symmetry; apply k_RInt|apply inner_cont]).
  assert (L := v_converges V1 HV1 (fun x => RInt (g x) (c x) (d x)) a b (fun x _ => G x)). apply is_lim_seq_spec in L. destruct (L (mkposreal _ E1)) as [N1 L1]. simpl in L1.
  destruct (uniform_continuity_2d k a b 0 1 (fun x y _ _ => k_2d x y) (mkposreal _ E2)) as [dl Hdl]. simpl in Hdl. pose proof (cond_pos dl) as Pd.
  destruct (nfloor_ex (1 / dl)) as [N2 [_ HN2]]; [apply Rmult_le_pos; [lra|left; apply Rinv_0_lt_compat; exact Pd]|].
  exists (N1 + N2)%nat. intros n m Hn Hm.
  assert (In2 : forall x, a <= x <= b -> Rabs (V2 m (c x) (d x) (g x) - RInt (g x) (c x) (d x)) <= eps / (3 * (b - a))).
  { intros x Hx. rewrite (v_affine V2 HV2) by lia. rewrite k_RInt. change (fun t => (d x - c x) * g x ((d x - c x) * t + c x)) with (k x).
    replace (eps / (3 * (b - a))) with ((1 - 0) * (eps / (3 * (b - a)))) by ring. apply (v_modulus V2 HV2) with (dl := dl); [lra|intros t _; apply continuity_pt_filterlim, k_t|lia| |].
    - assert (M : 0 < INR m) by (apply lt_0_INR; lia). apply Rlt_div_l; [exact M|]. assert (Q : INR N2 + 1 <= INR m) by (rewrite <- S_INR; apply le_INR; lia).
      rewrite Rminus_0_r. replace 1 with (dl * (1 / dl)) at 1 by (field; lra). apply Rmult_lt_compat_l; lra.
    - intros t u Ht Hu Htu. left. apply (Hdl x u x t); try lra. replace (x - x) with 0 by ring. rewrite Rabs_R0. exact Pd. }
  assert (O1 : Rabs (V1 n a b (fun x => RInt (g x) (c x) (d x)) - region_integral a b c d g) < eps / 3) by (specialize (L1 (n - 1)%nat ltac:(lia)); replace (S (n - 1)) with n in L1 by lia; exact L1).
  eapply Rle_lt_trans; [apply (double_error V1 (V2 m) a b c d g n _ _ HV1 Hab ltac:(lia) In2 (Rlt_le _ _ O1))|].
  replace ((b - a) * (eps / (3 * (b - a)))) with (eps / 3) by (field; lra). lra.
Qed.
End Region.
Lemma half_disc : continuous2 (fun x y => x + y) /\ (forall x, continuous (fun x => sqrt (1 - x * x)) x) /\ newton_cotes simpson_value.
Proof.
  split; [|split; [|right; right; reflexivity]].
  - intros x y. apply (continuous_plus (V := R_NormedModule)); [apply continuous_fst|apply continuous_snd].
  - intros x. apply (continuous_comp (fun x => 1 - x * x) sqrt); [|apply continuous_sqrt]. apply (ex_derive_continuous (V := R_NormedModule)). auto_derive. trivial.
Qed.
