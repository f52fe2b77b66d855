(** Newton-Cotes rules in exact arithmetic: composite error bounds and
    convergence, from the panel bounds. *)
From Coq Require Import Reals ZArith Lra Lia List.
From Coquelicot Require Import Coquelicot.
From Verif Require Import RSum NCSpec NCReal NCExact NCError.
Local Open Scope R_scope.

(** ** Clamping a function to [a,b] makes it continuous everywhere *)
Definition clamp (a b x : R) : R := Rmax a (Rmin b x).

Lemma clamp_in : forall a b x, a <= b -> a <= clamp a b x <= b.
Proof.
  intros a b x H. unfold clamp. split; [apply Rmax_l|].
  apply Rmax_lub; [exact H|apply Rmin_l].
Qed.
Lemma clamp_id : forall a b x, a <= x <= b -> clamp a b x = x.
Proof. intros a b x H. unfold clamp. rewrite Rmin_right, Rmax_right by lra. reflexivity. Qed.
Lemma clamp_lip : forall a b x y, Rabs (clamp a b x - clamp a b y) <= Rabs (x - y).
Proof.
  intros a b x y. unfold clamp, Rmax, Rmin.
  repeat destruct (Rle_dec _ _); unfold Rabs; repeat destruct (Rcase_abs _); lra.
Qed.
Lemma clamp_cont : forall a b x, continuity_pt (clamp a b) x.
Proof.
  intros a b x. unfold continuity_pt, continue_in, limit1_in, limit_in. intros eps He.
  exists eps. split; [exact He|]. intros y [_ Hy]. simpl in *. unfold R_dist in *.
  apply Rle_lt_trans with (2 := Hy). apply clamp_lip.
Qed.

Section Clamped.
Variables (f : R -> R) (a b : R).
Hypothesis Hab : a <= b.
Hypothesis Hc : forall x, a <= x <= b -> continuity_pt f x.
Let fc x := f (clamp a b x).

Lemma fc_cont : forall x, continuity_pt fc x.
Proof.
  intros x. apply (continuity_pt_comp (clamp a b) f); [apply clamp_cont|].
  apply Hc. apply clamp_in. exact Hab.
Qed.
Lemma fc_in : forall x, a <= x <= b -> fc x = f x.
Proof. intros x H. unfold fc. rewrite clamp_id by exact H. reflexivity. Qed.

Lemma fc_ex_RInt : forall x y, ex_RInt fc x y.
Proof.
  intros x y. apply (ex_RInt_continuous fc). intros z _. apply continuity_pt_filterlim. apply fc_cont.
Qed.
Let F x := RInt fc a x.
Lemma F_derive : forall x, is_derive F x (fc x).
Proof.
  intros x. apply (is_derive_RInt fc F a x).
  - exists (mkposreal 1 Rlt_0_1). intros y _. apply (RInt_correct fc). apply fc_ex_RInt.
  - apply continuity_pt_filterlim. apply fc_cont.
Qed.
Lemma F_total : F b - F a = RInt f a b.
Proof.
  unfold F. rewrite (RInt_point a fc). change (RInt fc a b - 0 = RInt f a b). rewrite Rminus_0_r.
  apply RInt_ext. intros x Hx. rewrite Rmin_left, Rmax_right in Hx by lra. apply fc_in. lra.
Qed.
Lemma fc_derive : forall f' x, a < x < b -> is_derive f x f' -> is_derive fc x f'.
Proof.
  intros f' x Hx H. apply (is_derive_ext_loc f); [|exact H].
  assert (P : 0 < Rmin (x - a) (b - x)) by (apply Rmin_pos; lra).
  exists (mkposreal _ P).
  intros y Hy. unfold ball in Hy; simpl in Hy; unfold AbsRing_ball, abs, minus, plus, opp in Hy; simpl in Hy.
  symmetry. apply fc_in. apply Rabs_def2 in Hy.
  pose proof (Rmin_l (x - a) (b - x)). pose proof (Rmin_r (x - a) (b - x)). lra.
Qed.

Variable n : nat.
Hypothesis Hn : (1 <= n)%nat.
Let h := (b - a) / INR n.

Lemma n_pos : 0 < INR n. Proof. apply lt_0_INR. lia. Qed.
Lemma h_nonneg : 0 <= h.
Proof. unfold h. apply Rmult_le_pos; [lra|]. left. apply Rinv_0_lt_compat, n_pos. Qed.
Lemma h_total : INR n * h = b - a.
Proof. unfold h. field. pose proof n_pos. lra. Qed.

Lemma panel_sub : forall i, (i < n)%nat -> a <= a + h * INR i /\ a + h * INR (S i) <= b.
Proof.
  intros i Hi. pose proof h_nonneg. pose proof (pos_INR i). split; [nra|].
  apply (le_INR (S i) n) in Hi. pose proof h_total. nra.
Qed.

(* sum of panel errors *)
Lemma composite : forall (Q : nat -> R) B,
  (forall i, (i < n)%nat -> Rabs (Q i - (F (a + h * INR (S i)) - F (a + h * INR i))) <= B) ->
  Rabs (rsum n Q - RInt f a b) <= INR n * B.
Proof.
  intros Q B H. rewrite <- F_total. rewrite <- (telescope_panels n a b F Hn). fold h.
  rewrite <- rsum_minus. apply Rle_trans with (1 := rsum_abs _ _).
  rewrite <- (rsum_const n B). apply rsum_le. exact H.
Qed.

Lemma mid_r : forall i, a + h * INR (S i) = a + h * (INR i + / 2) + h / 2.
Proof. intros. rewrite S_INR. field. Qed.
Lemma mid_l : forall i, a + h * INR i = a + h * (INR i + / 2) - h / 2.
Proof. intros. field. Qed.

Section Order2.
Variables (f1 f2 : R -> R) (M : R).
Hypothesis H1 : forall x, a < x < b -> is_derive f x (f1 x).
Hypothesis H2 : forall x, a < x < b -> is_derive f1 x (f2 x).
Hypothesis HM : forall x, a < x < b -> Rabs (f2 x) <= M.

Lemma midpoint_bound_le : Rabs (midpoint_value n a b f - RInt f a b) <= M * (b - a) ^ 3 / (24 * INR n ^ 2).
Proof.
  rewrite (midpoint_ext n a b f fc Hn).
  2: { intros x Hx. unfold between in Hx. rewrite Rmin_left, Rmax_right in Hx by lra. symmetry. apply fc_in. lra. }
  rewrite midpoint_panels by exact Hn. fold h.
  apply Rle_trans with (INR n * (M * (h / 2) ^ 3 / 3)).
  - apply composite. intros i Hi. rewrite mid_r, (mid_l i).
    destruct (panel_sub i Hi) as [P1 P2]. rewrite mid_l in P1. rewrite mid_r in P2.
    set (m := a + h * (INR i + / 2)) in *.
    rewrite Rabs_minus_sym.
    replace (h * fc m) with (2 * (h / 2) * fc m) by field.
    apply (midpoint_panel fc F m (h / 2)) with (f1 := f1) (f2 := f2).
    + pose proof h_nonneg. lra.
    + apply F_derive.
    + apply fc_cont.
    + intros x Hx. apply fc_derive; [lra|]. apply H1. lra.
    + intros x Hx. apply H2. lra.
    + intros x Hx. apply HM. lra.
  - unfold h. right. field. pose proof n_pos. lra.
Qed.

Lemma trapezoid_bound_le : Rabs (trapezoid_value n a b f - RInt f a b) <= M * (b - a) ^ 3 / (12 * INR n ^ 2).
Proof.
  rewrite (trapezoid_ext n a b f fc Hn).
  2: { intros x Hx. unfold between in Hx. rewrite Rmin_left, Rmax_right in Hx by lra. symmetry. apply fc_in. lra. }
  rewrite trapezoid_panels by exact Hn. fold h.
  apply Rle_trans with (INR n * (2 * M * (h / 2) ^ 3 / 3)).
  - apply composite. intros i Hi. rewrite mid_r, (mid_l i).
    destruct (panel_sub i Hi) as [P1 P2]. rewrite mid_l in P1. rewrite mid_r in P2.
    set (m := a + h * (INR i + / 2)) in *.
    rewrite Rabs_minus_sym. rewrite (Rplus_comm (fc (m - h / 2))).
    apply (trapezoid_panel fc F m (h / 2)) with (f1 := f1) (f2 := f2).
    + pose proof h_nonneg. lra.
    + apply F_derive.
    + apply fc_cont.
    + intros x Hx. apply fc_derive; [lra|]. apply H1. lra.
    + intros x Hx. apply H2. lra.
    + intros x Hx. apply HM. lra.
  - unfold h. right. field. pose proof n_pos. lra.
Qed.
End Order2.

Section Order4.
Variables (f1 f2 f3 f4 : R -> R) (M : R).
Hypothesis H1 : forall x, a < x < b -> is_derive f x (f1 x).
Hypothesis H2 : forall x, a < x < b -> is_derive f1 x (f2 x).
Hypothesis H3 : forall x, a < x < b -> is_derive f2 x (f3 x).
Hypothesis H4 : forall x, a < x < b -> is_derive f3 x (f4 x).
Hypothesis HM : forall x, a < x < b -> Rabs (f4 x) <= M.

Lemma simpson_bound_le : Rabs (simpson_value n a b f - RInt f a b) <= M * (b - a) ^ 5 / (2880 * INR n ^ 4).
Proof.
  rewrite (simpson_ext n a b f fc Hn).
  2: { intros x Hx. unfold between in Hx. rewrite Rmin_left, Rmax_right in Hx by lra. symmetry. apply fc_in. lra. }
  rewrite simpson_panels by exact Hn. fold h.
  apply Rle_trans with (INR n * (M * (h / 2) ^ 5 / 90)).
  - apply composite. intros i Hi. rewrite mid_r, (mid_l i).
    destruct (panel_sub i Hi) as [P1 P2]. rewrite mid_l in P1. rewrite mid_r in P2.
    set (m := a + h * (INR i + / 2)) in *.
    rewrite Rabs_minus_sym.
    replace (h / 6 * (fc (m - h / 2) + 4 * fc m + fc (m + h / 2))) with
      ((h / 2) / 3 * (fc (m + h / 2) + 4 * fc m + fc (m - h / 2))) by field.
    apply (simpson_panel fc F m (h / 2)) with (f1 := f1) (f2 := f2) (f3 := f3) (f4 := f4).
    + pose proof h_nonneg. lra.
    + apply F_derive.
    + apply fc_cont.
    + intros x Hx. apply fc_derive; [lra|]. apply H1. lra.
    + intros x Hx. apply H2. lra.
    + intros x Hx. apply H3. lra.
    + intros x Hx. apply H4. lra.
    + intros x Hx. apply HM. lra.
  - unfold h. right. field. pose proof n_pos. lra.
Qed.
End Order4.

(** ** Modulus-of-continuity bounds *)
Section Modulus.
Variables (eps delta : R).
Hypothesis Hd : h < delta.
Hypothesis Hu : forall x y, a <= x <= b -> a <= y <= b -> Rabs (x - y) < delta -> Rabs (f x - f y) <= eps.

Lemma panel_mean : forall i, (i < n)%nat -> exists z,
  a + h * INR i <= z <= a + h * INR (S i) /\
  F (a + h * INR (S i)) - F (a + h * INR i) = h * f z.
Proof.
  intros i Hi. destruct (panel_sub i Hi) as [P1 P2].
  assert (Hh := h_nonneg). rewrite S_INR in *.
  destruct (MVT_gen F (a + h * INR i) (a + h * (INR i + 1)) fc) as (z & Hz & E).
  - intros x _. apply F_derive.
  - intros x _. eapply deriv_cont. apply F_derive.
  - rewrite Rmin_left, Rmax_right in Hz by lra. exists z. split; [lra|].
    rewrite E, fc_in by lra. ring.
Qed.

Lemma panel_close : forall i x, (i < n)%nat -> a + h * INR i <= x <= a + h * INR (S i) ->
  forall z, a + h * INR i <= z <= a + h * INR (S i) -> Rabs (f x - f z) <= eps.
Proof.
  intros i x Hi Hx z Hz. destruct (panel_sub i Hi) as [P1 P2].
  apply Hu; [lra|lra|]. rewrite S_INR in *. apply Rabs_def1; lra.
Qed.

Lemma half_in : forall i, a + h * INR i <= a + h * (INR i + / 2) <= a + h * INR (S i).
Proof. intros i. rewrite S_INR. pose proof h_nonneg. lra. Qed.
Lemma left_in : forall i, a + h * INR i <= a + h * INR i <= a + h * INR (S i).
Proof. intros i. rewrite S_INR. pose proof h_nonneg. lra. Qed.
Lemma right_in : forall i, a + h * INR i <= a + h * INR (S i) <= a + h * INR (S i).
Proof. intros i. rewrite S_INR. pose proof h_nonneg. lra. Qed.

Lemma midpoint_modulus : Rabs (midpoint_value n a b f - RInt f a b) <= (b - a) * eps.
Proof.
  rewrite midpoint_panels by exact Hn. fold h.
  apply Rle_trans with (INR n * (h * eps)); [|right; rewrite <- h_total; ring].
  apply composite. intros i Hi. destruct (panel_mean i Hi) as (z & Hz & ->).
  rewrite <- Rmult_minus_distr_l, Rabs_mult, (Rabs_pos_eq h) by apply h_nonneg.
  apply Rmult_le_compat_l; [apply h_nonneg|].
  apply (panel_close i); [exact Hi|apply half_in|exact Hz].
Qed.
Lemma trapezoid_modulus : Rabs (trapezoid_value n a b f - RInt f a b) <= (b - a) * eps.
Proof.
  rewrite trapezoid_panels by exact Hn. fold h.
  apply Rle_trans with (INR n * (h * eps)); [|right; rewrite <- h_total; ring].
  apply composite. intros i Hi. destruct (panel_mean i Hi) as (z & Hz & ->).
  pose proof (panel_close i _ Hi (left_in i) z Hz) as C1.
  pose proof (panel_close i _ Hi (right_in i) z Hz) as C2.
  replace (h / 2 * (f (a + h * INR i) + f (a + h * INR (S i))) - h * f z) with
    (h * (/ 2 * (f (a + h * INR i) - f z) + / 2 * (f (a + h * INR (S i)) - f z))) by field.
  rewrite Rabs_mult, (Rabs_pos_eq h) by apply h_nonneg.
  apply Rmult_le_compat_l; [apply h_nonneg|].
  apply Rabs_le_between in C1. apply Rabs_le_between in C2. apply Rabs_le. lra.
Qed.
Lemma simpson_modulus : Rabs (simpson_value n a b f - RInt f a b) <= (b - a) * eps.
Proof.
  rewrite simpson_panels by exact Hn. fold h.
  apply Rle_trans with (INR n * (h * eps)); [|right; rewrite <- h_total; ring].
  apply composite. intros i Hi. destruct (panel_mean i Hi) as (z & Hz & ->).
  pose proof (panel_close i _ Hi (left_in i) z Hz) as C1.
  pose proof (panel_close i _ Hi (right_in i) z Hz) as C2.
  pose proof (panel_close i _ Hi (half_in i) z Hz) as C3.
  replace (h / 6 * (f (a + h * INR i) + 4 * f (a + h * (INR i + / 2)) + f (a + h * INR (S i))) - h * f z) with
    (h * (/ 6 * (f (a + h * INR i) - f z) + / 6 * (f (a + h * INR (S i)) - f z)
          + 4 / 6 * (f (a + h * (INR i + / 2)) - f z))) by field.
  rewrite Rabs_mult, (Rabs_pos_eq h) by apply h_nonneg.
  apply Rmult_le_compat_l; [apply h_nonneg|].
  apply Rabs_le_between in C1. apply Rabs_le_between in C2. apply Rabs_le_between in C3.
  apply Rabs_le. lra.
Qed.
End Modulus.
End Clamped.

(** ** Arbitrary orientation *)
Lemma cont_pt : forall (f : R -> R) x, continuous f x -> continuity_pt f x.
Proof. intros. apply continuity_pt_filterlim. assumption. Qed.

Lemma midpoint_bound : forall (f f1 f2 : R -> R) a b n M, (1 <= n)%nat ->
  (forall x, Rmin a b <= x <= Rmax a b -> continuous f x) ->
  (forall x, Rmin a b < x < Rmax a b -> is_derive f x (f1 x)) ->
  (forall x, Rmin a b < x < Rmax a b -> is_derive f1 x (f2 x)) ->
  (forall x, Rmin a b < x < Rmax a b -> Rabs (f2 x) <= M) ->
  Rabs (midpoint_value n a b f - RInt f a b) <= M * Rabs (b - a) ^ 3 / (24 * INR n ^ 2).
Proof.
  intros f f1 f2 a b n M Hn Hc H1 H2 HM. destruct (Rle_dec a b) as [L|L].
  - rewrite Rmin_left, Rmax_right in * by lra. rewrite (Rabs_pos_eq (b - a)) by lra.
    apply midpoint_bound_le with (f1 := f1) (f2 := f2); try assumption.
    intros x Hx. apply cont_pt. apply Hc. exact Hx.
  - rewrite Rmin_right, Rmax_left in * by lra. rewrite (Rabs_minus_sym b a), (Rabs_pos_eq (a - b)) by lra.
    rewrite midpoint_antisym by assumption. rewrite <- (opp_RInt_swap f).
    + match goal with |- Rabs (- ?u - opp ?v) <= _ => change (opp v) with (- v); replace (- u - - v) with (- (u - v)) by ring end.
      rewrite Rabs_Ropp. apply midpoint_bound_le with (f1 := f1) (f2 := f2); try assumption; try lra.
      intros x Hx. apply cont_pt. apply Hc. exact Hx.
    + apply (ex_RInt_continuous f). intros x Hx. apply Hc. rewrite Rmin_left, Rmax_right in Hx by lra. exact Hx.
Qed.
Lemma trapezoid_bound : forall (f f1 f2 : R -> R) a b n M, (1 <= n)%nat ->
  (forall x, Rmin a b <= x <= Rmax a b -> continuous f x) ->
  (forall x, Rmin a b < x < Rmax a b -> is_derive f x (f1 x)) ->
  (forall x, Rmin a b < x < Rmax a b -> is_derive f1 x (f2 x)) ->
  (forall x, Rmin a b < x < Rmax a b -> Rabs (f2 x) <= M) ->
  Rabs (trapezoid_value n a b f - RInt f a b) <= M * Rabs (b - a) ^ 3 / (12 * INR n ^ 2).
Proof.
  intros f f1 f2 a b n M Hn Hc H1 H2 HM. destruct (Rle_dec a b) as [L|L].
  - rewrite Rmin_left, Rmax_right in * by lra. rewrite (Rabs_pos_eq (b - a)) by lra.
    apply trapezoid_bound_le with (f1 := f1) (f2 := f2); try assumption.
    intros x Hx. apply cont_pt. apply Hc. exact Hx.
  - rewrite Rmin_right, Rmax_left in * by lra. rewrite (Rabs_minus_sym b a), (Rabs_pos_eq (a - b)) by lra.
    rewrite trapezoid_antisym by assumption. rewrite <- (opp_RInt_swap f).
    + match goal with |- Rabs (- ?u - opp ?v) <= _ => change (opp v) with (- v); replace (- u - - v) with (- (u - v)) by ring end.
      rewrite Rabs_Ropp. apply trapezoid_bound_le with (f1 := f1) (f2 := f2); try assumption; try lra.
      intros x Hx. apply cont_pt. apply Hc. exact Hx.
    + apply (ex_RInt_continuous f). intros x Hx. apply Hc. rewrite Rmin_left, Rmax_right in Hx by lra. exact Hx.
Qed.
Lemma simpson_bound : forall (f f1 f2 f3 f4 : R -> R) a b n M, (1 <= n)%nat ->
  (forall x, Rmin a b <= x <= Rmax a b -> continuous f x) ->
  (forall x, Rmin a b < x < Rmax a b -> is_derive f x (f1 x)) ->
  (forall x, Rmin a b < x < Rmax a b -> is_derive f1 x (f2 x)) ->
  (forall x, Rmin a b < x < Rmax a b -> is_derive f2 x (f3 x)) ->
  (forall x, Rmin a b < x < Rmax a b -> is_derive f3 x (f4 x)) ->
  (forall x, Rmin a b < x < Rmax a b -> Rabs (f4 x) <= M) ->
  Rabs (simpson_value n a b f - RInt f a b) <= M * Rabs (b - a) ^ 5 / (2880 * INR n ^ 4).
Proof.
  intros f f1 f2 f3 f4 a b n M Hn Hc H1 H2 H3 H4 HM. destruct (Rle_dec a b) as [L|L].
  - rewrite Rmin_left, Rmax_right in * by lra. rewrite (Rabs_pos_eq (b - a)) by lra.
    apply simpson_bound_le with (f1 := f1) (f2 := f2) (f3 := f3) (f4 := f4); try assumption.
    intros x Hx. apply cont_pt. apply Hc. exact Hx.
  - rewrite Rmin_right, Rmax_left in * by lra. rewrite (Rabs_minus_sym b a), (Rabs_pos_eq (a - b)) by lra.
    rewrite simpson_antisym by assumption. rewrite <- (opp_RInt_swap f).
    + match goal with |- Rabs (- ?u - opp ?v) <= _ => change (opp v) with (- v); replace (- u - - v) with (- (u - v)) by ring end.
      rewrite Rabs_Ropp. apply simpson_bound_le with (f1 := f1) (f2 := f2) (f3 := f3) (f4 := f4); try assumption; try lra.
      intros x Hx. apply cont_pt. apply Hc. exact Hx.
    + apply (ex_RInt_continuous f). intros x Hx. apply Hc. rewrite Rmin_left, Rmax_right in Hx by lra. exact Hx.
Qed.

(** ** Convergence *)
Section Conv.
Variables (f : R -> R) (a b : R).
Hypothesis Hc : forall x, Rmin a b <= x <= Rmax a b -> continuous f x.
Variable value : nat -> R -> R -> R.
Hypothesis anti : forall n u v, (1 <= n)%nat -> value n v u = - value n u v.
Hypothesis modul : forall u v, u <= v -> (forall x, u <= x <= v -> continuity_pt f x) ->
  forall n, (1 <= n)%nat -> forall eps delta, (v - u) / INR n < delta ->
  (forall x y, u <= x <= v -> u <= y <= v -> Rabs (x - y) < delta -> Rabs (f x - f y) <= eps) ->
  Rabs (value n u v - RInt f u v) <= (v - u) * eps.

Lemma conv_le : forall u v, u <= v -> (forall x, u <= x <= v -> continuous f x) ->
  is_lim_seq (fun n => value (S n) u v) (RInt f u v).
Proof.
  intros u v L C. apply is_lim_seq_spec. intros eps.
  set (e := eps / (v - u + 1)).
  assert (He : 0 < e).
  { unfold e. apply Rdiv_lt_0_compat; [apply cond_pos|lra]. }
  destruct (unifcont_1d f u v C (mkposreal e He)) as [[d Hd] HU]. simpl in HU.
  destruct (nfloor_ex ((v - u) / d)) as [N [HN1 HN2]].
  { apply Rmult_le_pos; [lra|]. left; apply Rinv_0_lt_compat; exact Hd. }
  exists N. intros n Hn.
  apply Rle_lt_trans with ((v - u) * e).
  - apply (modul u v L) with (delta := d); [|lia| |].
    + intros x Hx. apply cont_pt, C, Hx.
    + assert (P : 0 < INR (S n)) by (apply lt_0_INR; lia).
      apply (Rmult_lt_reg_r (INR (S n))); [exact P|].
      replace ((v - u) / INR (S n) * INR (S n)) with (v - u) by (field; lra).
      apply le_INR in Hn. rewrite S_INR in *.
      replace (v - u) with ((v - u) / d * d) by (field; lra). 
      rewrite (Rmult_comm d). apply Rmult_lt_compat_r; [exact Hd|lra].
    + intros x y Hx Hy Hxy.
      destruct (Rle_dec (Rabs (f x - f y)) e) as [|NL]; [assumption|exfalso].
      apply (HU x y Hx Hy).
      * unfold ball; simpl; unfold AbsRing_ball, abs, minus, plus, opp; simpl.
        rewrite Rabs_minus_sym in Hxy. exact Hxy.
      * intros B. unfold ball in B; simpl in B; unfold AbsRing_ball, abs, minus, plus, opp in B; simpl in B.
        apply NL. left. rewrite Rabs_minus_sym. exact B.
  - unfold e. pose proof (cond_pos eps).
    replace ((v - u) * (eps / (v - u + 1))) with (eps * ((v - u) / (v - u + 1))) by (field; lra).
    rewrite <- (Rmult_1_r eps) at 2. apply Rmult_lt_compat_l; [lra|].
    apply (Rmult_lt_reg_r (v - u + 1)); [lra|]. 
    replace ((v - u) / (v - u + 1) * (v - u + 1)) with (v - u) by (field; lra). lra.
Qed.

Lemma conv : is_lim_seq (fun n => value (S n) a b) (RInt f a b).
Proof.
  destruct (Rle_dec a b) as [L|L].
  - rewrite Rmin_left, Rmax_right in * by lra. apply conv_le; assumption.
  - rewrite Rmin_right, Rmax_left in * by lra.
    apply (is_lim_seq_ext (fun n => - value (S n) b a)).
    { intros n. rewrite <- anti by lia. reflexivity. }
    rewrite <- (opp_RInt_swap f).
    + change (Finite (opp (RInt f b a))) with (Rbar_opp (RInt f b a)).
      apply (is_lim_seq_opp (fun n => value (S n) b a)). apply conv_le; [lra|assumption].
    + apply (ex_RInt_continuous f). intros x Hx. apply Hc. rewrite Rmin_left, Rmax_right in Hx by lra. exact Hx.
Qed.
End Conv.

Lemma midpoint_converges : forall (f : R -> R) a b,
  (forall x, Rmin a b <= x <= Rmax a b -> continuous f x) ->
  is_lim_seq (fun n => midpoint_value (S n) a b f) (RInt f a b).
Proof.
  intros f a b Hc. apply (conv f a b Hc (fun n u v => midpoint_value n u v f)).
  - intros. apply midpoint_antisym. assumption.
  - intros u v L C n Hn eps delta. apply midpoint_modulus; assumption.
Qed.
Lemma trapezoid_converges : forall (f : R -> R) a b,
  (forall x, Rmin a b <= x <= Rmax a b -> continuous f x) ->
  is_lim_seq (fun n => trapezoid_value (S n) a b f) (RInt f a b).
Proof.
  intros f a b Hc. apply (conv f a b Hc (fun n u v => trapezoid_value n u v f)).
  - intros. apply trapezoid_antisym. assumption.
  - intros u v L C n Hn eps delta. apply trapezoid_modulus; assumption.
Qed.
Lemma simpson_converges : forall (f : R -> R) a b,
  (forall x, Rmin a b <= x <= Rmax a b -> continuous f x) ->
  is_lim_seq (fun n => simpson_value (S n) a b f) (RInt f a b).
Proof.
  intros f a b Hc. apply (conv f a b Hc (fun n u v => simpson_value n u v f)).
  - intros. apply simpson_antisym. assumption.
  - intros u v L C n Hn eps delta. apply simpson_modulus; assumption.
Qed.
