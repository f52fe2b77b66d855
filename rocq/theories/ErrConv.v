(** Convergence of the Gauss rules on bounded intervals for continuous integrands. *)
From Coq Require Import Reals Lra Lia List Arith ZArith FunctionalExtensionality.
From Coquelicot Require Import Coquelicot.
From Verif Require Import Arith RInst RSum PolySpec PolyProof Improper ImproperExist Gaussian JacobiWeight Spectral ErrorSpec Interp GaussErr ErrRules
  GaussProof TransferSpec TransferProof Bernstein.
Import ListNotations.
Local Open Scope R_scope.

Lemma clamp_between : forall a b y, closed_between a b (Rmax (Rmin a b) (Rmin (Rmax a b) y)).
Proof. intros. unfold closed_between, Rmin, Rmax. repeat destruct Rle_dec; lra. Qed.
Lemma clamp_id : forall a b y, closed_between a b y -> Rmax (Rmin a b) (Rmin (Rmax a b) y) = y.
Proof. intros a b y. unfold closed_between, Rmin, Rmax. intros. repeat destruct Rle_dec; lra. Qed.
Lemma clamp_dist : forall lo hi x y, lo <= x <= hi -> Rabs (Rmax lo (Rmin hi y) - x) <= Rabs (y - x).
Proof. intros. unfold Rmin, Rmax. repeat destruct Rle_dec; unfold Rabs; repeat destruct Rcase_abs; lra. Qed.
Lemma uniform_continuity : forall a b f, continuous_on a b f -> forall om, 0 < om -> exists de, 0 < de /\ oscillation a b f de om.
Proof.
  intros a b f H om Hom. set (g := fun y => f (Rmax (Rmin a b) (Rmin (Rmax a b) y))).
  assert (Cg : forall x, Rmin a b <= x <= Rmax a b -> continuity_pt g x).
  { intros x Hx eps Heps. destruct (H x Hx eps Heps) as (d & Hd & Hf). exists d. split; [exact Hd|].
    intros y [_ Hy]. simpl in Hy |- *. unfold R_dist in *. unfold g. rewrite (clamp_id a b x Hx).
    apply Hf; [apply clamp_between|]. eapply Rle_lt_trans; [apply clamp_dist, Hx|exact Hy]. }
  destruct (Heine_cor2 Cg (mkposreal om Hom)) as [de Hde]. exists (de / 2). assert (P := cond_pos de). split; [lra|]. intros x y Hx Hy Hd.
  assert (Q : Rabs (g x - g y) < om) by (apply Hde; [exact Hx|exact Hy|lra]).
    unfold g in Q. rewrite (clamp_id a b x Hx), (clamp_id a b y Hy) in Q. lra.
Qed.
Lemma closed_pull : forall a b x, -1 <= x <= 1 -> closed_between a b ((b - a) / 2 * x + (a + b) / 2).
Proof. intros a b x H. unfold closed_between, Rmin, Rmax. destruct (Rle_dec a b); nra. Qed.
Lemma oscillation_pull : forall a b f de om, a <> b -> oscillation a b f de om ->
  forall x y, -1 <= x <= 1 -> -1 <= y <= 1 -> Rabs (x - y) <= 2 * de / Rabs (b - a) -> Rabs (pulled a b f x - pulled a b f y) <= om.
Proof.
  intros a b f de om E H x y Hx Hy L. apply H; [apply closed_pull, Hx|apply closed_pull, Hy|].
  assert (P : 0 < Rabs (b - a)) by (apply Rabs_pos_lt; lra).
  replace ((b - a) / 2 * x + (a + b) / 2 - ((b - a) / 2 * y + (a + b) / 2)) with ((b - a) * / 2 * (x - y)) by field.
  rewrite !Rabs_mult, (Rabs_right (/ 2)) by lra.
  apply Rle_trans with (Rabs (b - a) * / 2 * (2 * de / Rabs (b - a))); [apply Rmult_le_compat_l; [nra|exact L]|]. right. field. lra.
Qed.
(** a polynomial close to f on [a,b] *)
Lemma interval_bernstein : forall a b f de om d, a <> b -> (1 <= d)%nat -> 0 < de -> oscillation a b f de om ->
  exists p, polynomial d p /\ forall x, -1 <= x <= 1 -> Rabs (pulled a b f x - p x) <= (1 + (b - a) * (b - a) / (4 * INR d * (de * de))) * om.
Proof.
  intros a b f de om d E Hd Hde H. assert (P : 0 < Rabs (b - a)) by (apply Rabs_pos_lt; lra).
  assert (Q : 0 < 2 * de / Rabs (b - a)) by (apply Rdiv_lt_0_compat; lra).
  destruct (bernstein (pulled a b f) _ om Q (oscillation_pull a b f de om E H) d Hd) as (p & Hp & B).
  exists p. split; [exact Hp|]. intros x Hx. eapply Rle_trans; [apply B, Hx|]. right. f_equal. f_equal.
  assert (D : 0 < INR d) by (apply lt_0_INR; lia).
  replace ((b - a) * (b - a)) with (Rabs (b - a) * Rabs (b - a)) by (rewrite <- Rabs_mult; apply Rabs_right, Rle_ge, Rle_0_sqr).
  field. lra.
Qed.

Lemma interval_best : forall (w : R -> R) (ps : list (R * R)) c m W, (1 <= m)%nat -> (forall x, unit_open x -> 0 <= w x) -> 0 <= c ->
  List.Forall (fun xw : R * R => -1 < fst xw < 1 /\ 0 < snd xw) ps ->
  (forall p, polynomial (2 * m - 1) p -> exists v : R, is_RInt_gen (fun x => w x * p x) (at_right (-1)) (at_left 1) v /\ apply_rule ps p = c * v) ->
  is_RInt_gen (fun x => w x * 1) (at_right (-1)) (at_left 1) W ->
  forall a b (f p : R -> R) e v, a <> b -> polynomial (2 * m - 1) p -> (forall x, -1 <= x <= 1 -> Rabs (pulled a b f x - p x) <= e) ->
  weighted_integral w a b f v ->
  Rabs (gauss_on ps a b f - c * v) <= Rabs (b - a) * (c * W) * e.
Proof.
  intros w ps c m W Hm Hw Hc In_ Ex HW a b f p e v E Hp He Hv. rewrite Forall_forall in In_.
  rewrite gauss_pulled. set (h := (b - a) / 2). assert (Hh : h <> 0) by (unfold h; lra).
  assert (HP := weighted_pull w a b f v E Hv). fold h in HP.
  assert (B := gen_best unit_open (at_right (-1)) (at_left 1) (conv_of _ unit_convex) unit_a unit_b le_unit w ps c m Hw Hc
    ltac:(intros x Hx; apply in_map_iff in Hx; destruct Hx as (q & <- & Iq); apply (In_ q Iq)) Ex
    (pulled a b f) p e (v / h) W ltac:(intros q Iq; left; apply (In_ q Iq)) Hp ltac:(intros x Hx; apply He; unfold unit_open in Hx; lra) HP HW Hm).
  replace (h * apply_rule ps (pulled a b f) - c * v) with (h * (apply_rule ps (pulled a b f) - c * (v / h))) by (field; exact Hh).
  rewrite Rabs_mult.
  replace (Rabs (b - a)) with (2 * Rabs h) by (unfold h, Rdiv; rewrite Rabs_mult, (Rabs_right (/ 2)) by lra; field).
  replace (2 * Rabs h * (c * W) * e) with (Rabs h * (2 * (c * W) * e)) by ring.
  apply Rmult_le_compat_l; [apply Rabs_pos|exact B].
Qed.
Lemma interval_modulus : forall (w : R -> R) (ps : list (R * R)) c m W, (1 <= m)%nat -> (forall x, unit_open x -> 0 <= w x) -> 0 <= c ->
  List.Forall (fun xw : R * R => -1 < fst xw < 1 /\ 0 < snd xw) ps ->
  (forall p, polynomial (2 * m - 1) p -> exists v : R, is_RInt_gen (fun x => w x * p x) (at_right (-1)) (at_left 1) v /\ apply_rule ps p = c * v) ->
  is_RInt_gen (fun x => w x * 1) (at_right (-1)) (at_left 1) W ->
  forall a b f de om v, a <> b -> 0 < de -> oscillation a b f de om -> weighted_integral w a b f v ->
  Rabs (gauss_on ps a b f - c * v) <= Rabs (b - a) * (c * W) * ((1 + (b - a) * (b - a) / (4 * INR (2 * m - 1) * (de * de))) * om).
Proof.
  intros w ps c m W Hm Hw Hc In_ Ex HW a b f de om v E Hde H Hv.
  destruct (interval_bernstein a b f de om (2 * m - 1) E ltac:(lia) Hde H) as (p & Hp & B).
  apply (interval_best w ps c m W Hm Hw Hc In_ Ex HW a b f p _ v E Hp B Hv).
Qed.
(** the bound tends to zero *)
Lemma modulus_limit : forall a b f K eps, a <> b -> 0 <= K -> continuous_on a b f -> 0 < eps ->
  exists de om N, 0 < de /\ oscillation a b f de om /\ (1 <= N)%Z /\
    forall m, (N <= Z.of_nat m)%Z -> K * ((1 + (b - a) * (b - a) / (4 * INR (2 * m - 1) * (de * de))) * om) <= eps.
Proof.
  intros a b f K eps E HK Hf Heps. set (om := eps / (2 * (K + 1))). assert (O : 0 < om) by (apply Rdiv_lt_0_compat; lra).
  destruct (uniform_continuity a b f Hf om O) as (de & Hde & Ho).
  set (q := (b - a) * (b - a) / (4 * (de * de))).
  assert (Q : 0 < q) by (unfold q; apply Rdiv_lt_0_compat; nra).
  destruct (archimed q) as [A1 _]. exists de, om, (up q). split; [exact Hde|]. split; [exact Ho|].
  assert (U : (1 <= up q)%Z). { assert (0 < up q)%Z by (apply lt_IZR; simpl; lra). lia. }
  split; [exact U|]. intros m Hm.
  assert (M : q <= INR (2 * m - 1)).
  { apply Rle_trans with (INR m); [rewrite INR_IZR_INZ; apply IZR_le in Hm; lra|]. apply le_INR. lia. }
  assert (R1 : (b - a) * (b - a) / (4 * INR (2 * m - 1) * (de * de)) <= 1).
  { replace ((b - a) * (b - a) / (4 * INR (2 * m - 1) * (de * de))) with (q / INR (2 * m - 1)) by (unfold q; field; lra).
    apply (Rmult_le_reg_r (INR (2 * m - 1))); [lra|]. unfold Rdiv. rewrite Rmult_assoc, Rinv_l by lra. lra. }
  apply Rle_trans with (K * (2 * om)); [apply Rmult_le_compat_l; [exact HK|]; apply Rmult_le_compat_r; lra|].
  assert (Eo : (K + 1) * (2 * om) = eps) by (unfold om; field; lra). nra.
Qed.

(** ** the integral of a continuous function exists *)
Section Exist.
Variables (D : R -> Prop) (Fa Fb : (R -> Prop) -> Prop).
Context {PA : ProperFilter' Fa} {PB : ProperFilter' Fb}.
Hypothesis convex : forall u v x, D u -> D v -> Rmin u v <= x <= Rmax u v -> D x.
Hypothesis D_open : forall x, D x -> locally x D.
Hypothesis cof_a : forall y, D y -> Fa (fun x => D x /\ x < y).
Hypothesis cof_b : forall y, D y -> Fb (fun x => D x /\ y < x).
Variables (w f : R -> R) (W C c : R).
Hypothesis w_nonneg : forall x, D x -> 0 <= w x.
Hypothesis w_cont : forall x, D x -> continuous w x.
Hypothesis w_int : has_int D Fa Fb w W.
Hypothesis f_cont : forall x, D x -> continuous f x.
Hypothesis f_bound : forall x, D x -> Rabs (f x) <= C.
Hypothesis Dc : D c.
Lemma continuous_int : exists v, has_int D Fa Fb (fun x => w x * f x) v.
Proof.
  destruct w_int as (F & la & lb & HF & Ha & Hb & EW).
  assert (C0 : 0 <= C) by (eapply Rle_trans; [apply Rabs_pos|apply (f_bound c Dc)]).
  assert (Mono : forall u v, D u -> D v -> u <= v -> F u <= F v) by (intros; apply (F_mono D convex w F HF w_nonneg); assumption).
  assert (Lo : forall x, D x -> la <= F x).
  { intros x Dx. apply Rnot_lt_le. intros L. assert (P : 0 < la - F x) by lra.
    assert (N : Fa (fun y => Rabs (F y - la) < la - F x)) by (apply (Ha (fun z => Rabs (z - la) < la - F x)); exists (mkposreal _ P); intros z Hz; exact Hz).
    assert (FF : Filter Fa) by apply PA.
    assert (A := filter_and _ _ (cof_a x Dx) N). apply (filter_imp _ (fun _ => False)) in A; [exact (filter_not_empty (F := Fa) A)|].
    intros y [[Dy Ly] Ab]. assert (F y <= F x) by (apply Mono; [exact Dy|exact Dx|lra]). apply Rabs_def2 in Ab. lra. }
  assert (Hi : forall x, D x -> F x <= lb).
  { intros x Dx. apply Rnot_lt_le. intros L. assert (P : 0 < F x - lb) by lra.
    assert (N : Fb (fun y => Rabs (F y - lb) < F x - lb)) by (apply (Hb (fun z => Rabs (z - lb) < F x - lb)); exists (mkposreal _ P); intros z Hz; exact Hz).
    assert (FF : Filter Fb) by apply PB.
    assert (A := filter_and _ _ (cof_b x Dx) N). apply (filter_imp _ (fun _ => False)) in A; [exact (filter_not_empty (F := Fb) A)|].
    intros y [[Dy Ly] Ab]. assert (F x <= F y) by (apply Mono; [exact Dx|exact Dy|lra]). apply Rabs_def2 in Ab. lra. }
  destruct (dom_int D Fa Fb convex D_open cof_a cof_b (fun x => w x * (f x + C)) c
     (fun x => 2 * C * w x) (fun x => 2 * C * F x) (2 * C * la) (fun x => 2 * C * w x) (fun x => 2 * C * F x) (2 * C * lb) Dc) as [I HI].
  - intros x Dx. assert (B := f_bound x Dx). apply Rabs_le_between in B. apply Rmult_le_pos; [apply w_nonneg, Dx|lra].
  - intros x Dx. apply (continuous_mult (K := R_AbsRing)); [apply w_cont, Dx|]. apply (continuous_plus (V := R_NormedModule)); [apply f_cont, Dx|apply continuous_const].
  - intros x Dx _. assert (B := f_bound x Dx). apply Rabs_le_between in B. assert (Wx := w_nonneg x Dx). split; [|split].
    + apply (is_derive_scal F x (2 * C)). apply HF, Dx.
    + nra.
    + apply Rmult_le_compat_l; [lra|apply Lo, Dx].
  - intros x Dx _. assert (B := f_bound x Dx). apply Rabs_le_between in B. assert (Wx := w_nonneg x Dx). split; [|split].
    + apply (is_derive_scal F x (2 * C)). apply HF, Dx.
    + nra.
    + apply Rmult_le_compat_l; [lra|apply Hi, Dx].
  - exists (1 * I + (- C) * W). apply (has_int_ext D Fa Fb (fun x => 1 * (w x * (f x + C)) + - C * w x)); [intros; ring|].
    apply (has_int_lin D Fa Fb); assumption.
Qed.
End Exist.

Lemma continuous_pull : forall a b f x, a <> b -> continuous_on a b f -> unit_open x -> continuous (pulled a b f) x.
Proof.
  intros a b f x E H Hx. apply continuity_pt_filterlim. intros eps Heps.
  destruct (H _ (closed_pull a b x ltac:(unfold unit_open in Hx; lra)) eps Heps) as (d & Hd & Hf).
  assert (P : 0 < Rabs (b - a)) by (apply Rabs_pos_lt; lra).
  assert (U : 0 < Rmin (Rmin (1 - x) (x + 1)) (2 * d / Rabs (b - a))).
  { unfold unit_open in Hx. apply Rmin_pos; [apply Rmin_pos; lra|apply Rdiv_lt_0_compat; lra]. }
  exists (Rmin (Rmin (1 - x) (x + 1)) (2 * d / Rabs (b - a))). split; [exact U|].
  intros y [_ Hy]. simpl in Hy |- *. unfold R_dist in *. apply Hf.
  - apply closed_pull. assert (A1 := Rmin_l (Rmin (1 - x) (x + 1)) (2 * d / Rabs (b - a))).
    assert (A2 := Rmin_l (1 - x) (x + 1)). assert (A3 := Rmin_r (1 - x) (x + 1)). apply Rabs_def2 in Hy. lra.
  - replace ((b - a) / 2 * y + (a + b) / 2 - ((b - a) / 2 * x + (a + b) / 2)) with ((b - a) * / 2 * (y - x)) by field.
    rewrite !Rabs_mult, (Rabs_right (/ 2)) by lra.
    apply Rlt_le_trans with (Rabs (b - a) * / 2 * (2 * d / Rabs (b - a))); [|right; field; lra].
    apply Rmult_lt_compat_l; [nra|]. eapply Rlt_le_trans; [exact Hy|apply Rmin_r].
Qed.
Lemma continuous_bounded : forall a b f, continuous_on a b f -> exists C, forall x, closed_between a b x -> Rabs (f x) <= C.
Proof.
  intros a b f H. destruct (uniform_continuity a b f H 1 Rlt_0_1) as (de & Hde & Ho).
  assert (Hm : Rmin a b <= Rmax a b) by (unfold Rmin, Rmax; destruct (Rle_dec a b); lra).
  set (lo := Rmin a b) in *. set (hi := Rmax a b) in *.
  assert (G : forall k x, lo <= x <= hi -> x - lo <= INR k * de -> Rabs (f x - f lo) <= INR k).
  { induction k; intros x Hx L.
    - simpl in L |- *. replace x with lo by lra. rewrite Rminus_diag_eq by reflexivity. rewrite Rabs_R0. lra.
    - rewrite S_INR in L |- *. set (y := Rmax lo (x - de)).
      assert (Hy : lo <= y <= hi /\ y - lo <= INR k * de /\ Rabs (x - y) <= de).
      { assert (K0 : 0 <= INR k * de) by (apply Rmult_le_pos; [apply pos_INR|lra]). unfold y, Rmax. destruct (Rle_dec lo (x - de)); (split; [lra|split; [lra|rewrite Rabs_right by lra; lra]]). }
      destruct Hy as (Y1 & Y2 & Y3). replace (f x - f lo) with ((f x - f y) + (f y - f lo)) by ring.
      eapply Rle_trans; [apply Rabs_triang|]. assert (I1 := IHk y Y1 Y2). assert (I2 := Ho x y Hx Y1 Y3). lra. }
  destruct (nfloor_ex ((hi - lo) / de)) as (k & K1 & K2); [apply Rmult_le_pos; [lra|apply Rlt_le, Rinv_0_lt_compat, Hde]|].
  exists (Rabs (f lo) + INR (S k)). intros x Hx.
  assert (B : Rabs (f x - f lo) <= INR (S k)).
  { apply G; [exact Hx|]. rewrite S_INR. unfold closed_between in Hx. fold lo hi in Hx.
    apply Rle_trans with ((hi - lo) / de * de); [unfold Rdiv; rewrite Rmult_assoc, Rinv_l by lra; lra|]. apply Rmult_le_compat_r; lra. }
  replace (f x) with ((f x - f lo) + f lo) by ring. eapply Rle_trans; [apply Rabs_triang|]. lra.
Qed.
Lemma weighted_push : forall w a b f v, a <> b -> is_RInt_gen (fun x => w x * pulled a b f x) (at_right (-1)) (at_left 1) v ->
  weighted_integral w a b f ((b - a) / 2 * v).
Proof.
  intros w a b f v E H.
  set (u := 2 / (b - a)). set (k := - (2 * a) / (b - a) - 1).
  assert (U : u <> 0). { unfold u. apply Rmult_integral_contrapositive. split; [lra|]. apply Rinv_neq_0_compat. lra. }
  assert (A1 : u * a + k = -1) by (unfold u, k; field; lra).
  assert (B1 : u * b + k = 1) by (unfold u, k; field; lra).
  replace ((b - a) / 2 * v) with (v / u) by (unfold u; field; lra).
  unfold weighted_integral.
  assert (G : (fun x => w (to_unit a b x) * f x) = (fun x => (fun y => w y * pulled a b f y) (u * x + k))).
  { extensionality x. cbv beta. unfold u, k. rewrite <- to_unit_lin by exact E. rewrite pulled_back by exact E. reflexivity. }
  rewrite G. destruct (Rtotal_order a b) as [L|[L|L]]; [left|contradiction|right]; (split; [exact L|]).
  - assert (0 < u) by (unfold u; apply Rdiv_lt_0_compat; lra).
    apply (gen_lin (fun y => w y * pulled a b f y) u k _ _ (at_right (-1)) (at_left 1)); [exact U|apply affine_right; assumption|apply affine_left; assumption|exact H].
  - assert (u < 0). { unfold u. apply Ropp_lt_cancel. rewrite Ropp_0. replace (- (2 / (b - a))) with (2 / (a - b)) by (field; lra). apply Rdiv_lt_0_compat; lra. }
    apply (gen_lin (fun y => w y * pulled a b f y) u k _ _ (at_right (-1)) (at_left 1)); [exact U|apply affine_flip_r; assumption|apply affine_flip_l; assumption|exact H].
Qed.
