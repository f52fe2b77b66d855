(** Existence of improper integrals of positive functions by domination. *)
From Coq Require Import Reals Lra Lia.
From Coquelicot Require Import Coquelicot.
From Verif Require Import Improper.
Local Open Scope R_scope.

Section Dom.
Variables (D : R -> Prop) (Fa Fb : (R -> Prop) -> Prop).
Context {PA : ProperFilter' Fa} {PB : ProperFilter' Fb}.
Hypothesis convex : forall u v x, D u -> D v -> Rmin u v <= x <= Rmax u v -> D x.
Hypothesis D_open : forall x, D x -> locally x D.
Hypothesis cof_a : forall y, D y -> Fa (fun x => D x /\ x < y).
Hypothesis cof_b : forall y, D y -> Fb (fun x => D x /\ y < x).

Lemma between : forall u v x, D u -> D v -> u <= x <= v -> D x.
Proof.
  intros u v x Hu Hv Hx. apply (convex u v); auto. rewrite Rmin_left, Rmax_right by lra. exact Hx.
Qed.

Section Mono.
Variables (f F : R -> R) (c : R).
Hypothesis HF : forall x, D x -> is_derive F x (f x).
Hypothesis f_pos : forall x, D x -> 0 <= f x.
Hypothesis Dc : D c.

Lemma F_mono : forall u v, D u -> D v -> u <= v -> F u <= F v.
Proof.
  intros u v Hu Hv Huv. destruct (Req_dec u v) as [->|N]; [lra|].
  destruct (MVT_gen F u v f) as (z & Hz & E).
  - intros x Hx. apply HF. rewrite Rmin_left, Rmax_right in Hx by lra. apply (between u v); auto. lra.
  - intros x Hx. rewrite Rmin_left, Rmax_right in Hx by lra. apply continuity_pt_filterlim.
    apply (ex_derive_continuous (V := R_NormedModule) F x). exists (f x). apply HF. apply (between u v); auto.
  - rewrite Rmin_left, Rmax_right in Hz by lra. assert (0 <= f z) by (apply f_pos, (between u v); auto).
    assert (0 <= f z * (v - u)) by (apply Rmult_le_pos; lra). lra.
Qed.
Lemma lim_b : forall M, (forall x, D x -> c <= x -> F x <= M) -> exists l, filterlim F Fb (locally l).
Proof.
  intros M HM.
  destruct (completeness (fun y => exists x, D x /\ y = F x)) as [l [Ub Lb]].
  - exists M. intros y (x & Dx & ->). destruct (Rle_dec c x); [apply HM; assumption|].
    apply Rle_trans with (F c); [apply F_mono; auto; lra|apply HM; [assumption|lra]].
  - exists (F c). exists c. auto.
  - exists l. apply filterlim_locally. intros eps.
    assert (exists y, D y /\ l - eps < F y) as (y & Dy & Hy).
    { apply Classical_Prop.NNPP. intros N. assert (l <= l - eps); [|assert (P := cond_pos eps); lra].
      apply Lb. intros z (x & Dx & ->). apply Rnot_lt_le. intros L. apply N. exists x. auto. }
    eapply filter_imp; [|apply (cof_b y Dy)]. intros x [Dx Hx].
    assert (F y <= F x) by (apply F_mono; auto; lra).
    assert (F x <= l) by (apply Ub; exists x; auto).
    change (Rabs (F x - l) < eps). apply Rabs_def1; assert (P := cond_pos eps); lra.
Qed.
Lemma lim_a : forall M, (forall x, D x -> x <= c -> M <= F x) -> exists l, filterlim F Fa (locally l).
Proof.
  intros M HM.
  destruct (completeness (fun y => exists x, D x /\ y = - F x)) as [l [Ub Lb]].
  - exists (- M). intros y (x & Dx & ->). destruct (Rle_dec x c); [assert (M <= F x) by (apply HM; assumption); lra|].
    assert (F c <= F x) by (apply F_mono; auto; lra). assert (M <= F c) by (apply HM; [assumption|lra]). lra.
  - exists (- F c). exists c. auto.
  - exists (- l). apply filterlim_locally. intros eps.
    assert (exists y, D y /\ l - eps < - F y) as (y & Dy & Hy).
    { apply Classical_Prop.NNPP. intros N. assert (l <= l - eps); [|assert (P := cond_pos eps); lra].
      apply Lb. intros z (x & Dx & ->). apply Rnot_lt_le. intros L. apply N. exists x. auto. }
    eapply filter_imp; [|apply (cof_a y Dy)]. intros x [Dx Hx].
    assert (F x <= F y) by (apply F_mono; auto; lra).
    assert (- F x <= l) by (apply Ub; exists x; auto).
    change (Rabs (F x - - l) < eps). apply Rabs_def1; assert (P := cond_pos eps); lra.
Qed.
End Mono.

Lemma dom_int : forall f c ga Ga ma gb Gb mb, D c -> (forall x, D x -> 0 <= f x) -> (forall x, D x -> continuous f x) ->
  (forall x, D x -> x <= c -> is_derive Ga x (ga x) /\ f x <= ga x /\ ma <= Ga x) ->
  (forall x, D x -> c <= x -> is_derive Gb x (gb x) /\ f x <= gb x /\ Gb x <= mb) ->
  exists I, has_int D Fa Fb f I.
Proof.
  intros f c ga Ga ma gb Gb mb Dc Hpos Hcont HA HB.
  set (F := fun x => RInt f c x).
  assert (HF : forall x, D x -> is_derive F x (f x)).
  { intros x Dx. apply (is_derive_RInt f F c x); [|apply Hcont, Dx].
    eapply filter_imp; [|apply (D_open x Dx)]. intros y Dy. apply (RInt_correct (V := R_CompleteNormedModule)).
    apply (ex_RInt_continuous (V := R_CompleteNormedModule)). intros z Hz. apply Hcont. apply (convex c y); assumption. }
  assert (Cmp : forall G g u v, D u -> D v -> u <= v -> (forall x, u <= x <= v -> is_derive G x (g x) /\ f x <= g x) ->
                F v - F u <= G v - G u).
  { intros G g u v Du Dv Huv H. destruct (Req_dec u v) as [->|N]; [lra|].
    destruct (MVT_gen (fun x => G x - F x) u v (fun x => g x - f x)) as (z & Hz & E).
    - intros x Hx. rewrite Rmin_left, Rmax_right in Hx by lra.
      apply (is_derive_minus (K := R_AbsRing) (V := R_NormedModule) G F); [apply H; lra|apply HF; apply (between u v); auto; lra].
    - intros x Hx. rewrite Rmin_left, Rmax_right in Hx by lra. apply continuity_pt_filterlim.
      apply (ex_derive_continuous (V := R_NormedModule) (fun x => G x - F x) x). exists (g x - f x).
      apply (is_derive_minus (K := R_AbsRing) (V := R_NormedModule) G F); [apply H; lra|apply HF; apply (between u v); auto; lra].
    - rewrite Rmin_left, Rmax_right in Hz by lra. destruct (H z Hz) as [_ Hle].
      assert (0 <= (g z - f z) * (v - u)) by (apply Rmult_le_pos; lra). lra. }
  destruct (lim_a f F c HF Hpos Dc (F c - (Ga c - ma))) as [la Hla].
  { intros x Dx Hx. assert (C := Cmp Ga ga x c Dx Dc Hx). destruct (HA x Dx Hx) as (_ & _ & Hm).
    assert (F c - F x <= Ga c - Ga x) by (apply C; intros y Hy; destruct (HA y) as (H1 & H2 & _); [apply (between x c); auto|lra|auto]). lra. }
  destruct (lim_b f F c HF Hpos Dc (F c + (mb - Gb c))) as [lb Hlb].
  { intros x Dx Hx. assert (C := Cmp Gb gb c x Dc Dx Hx). destruct (HB x Dx Hx) as (_ & _ & Hm).
    assert (F x - F c <= Gb x - Gb c) by (apply C; intros y Hy; destruct (HB y) as (H1 & H2 & _); [apply (between c x); auto|lra|auto]). lra. }
  exists (lb - la), F, la, lb. auto.
Qed.
(** a positive function has a positive integral *)
Lemma int_pos : forall f I c, D c -> (forall x, D x -> 0 <= f x) -> (forall x, D x -> continuous f x) -> 0 < f c -> has_int D Fa Fb f I -> 0 < I.
Proof.
  intros f I c Dc Hpos Hcont Hc (F & la & lb & HF & Ha & Hb & ->).
  (* F is increasing, strictly near c *)
  assert (L : locally c (fun x => 0 < f x /\ D x)).
  { apply filter_and; [|apply D_open, Dc].
    apply (Hcont c Dc). exists (mkposreal _ Hc). intros y Hy. change (Rabs (y - f c) < f c) in Hy. apply Rabs_def2 in Hy. lra. }
  destruct L as [eps He]. set (u := c - eps / 2). set (v := c + eps / 2). assert (Ep := cond_pos eps).
  assert (Hin : forall x, u <= x <= v -> 0 < f x /\ D x).
  { intros x Hx. apply He. change (Rabs (x - c) < eps). unfold u, v in Hx. apply Rabs_def1; lra. }
  assert (Du : D u) by (apply Hin; unfold u, v; lra). assert (Dv : D v) by (apply Hin; unfold u, v; lra).
  assert (Lt : F u < F v).
  { destruct (MVT_gen F u v f) as (z & Hz & E).
    - intros x Hx. rewrite Rmin_left, Rmax_right in Hx by (unfold u, v; lra). apply HF, Hin. lra.
    - intros x Hx. rewrite Rmin_left, Rmax_right in Hx by (unfold u, v; lra). apply continuity_pt_filterlim.
      apply (ex_derive_continuous (V := R_NormedModule) F x). exists (f x). apply HF, Hin, Hx.
    - rewrite Rmin_left, Rmax_right in Hz by (unfold u, v; lra). destruct (Hin z Hz) as [Hf _].
      assert (0 < f z * (v - u)) by (apply Rmult_lt_0_compat; [exact Hf|unfold u, v; lra]). lra. }
  assert (A : la <= F u).
  { apply Rnot_lt_le. intros N.
    assert (X : Fa (fun x => F x > F u)).
    { apply Ha. exists (mkposreal (la - F u) ltac:(lra)). intros y Hy. change (Rabs (y - la) < la - F u) in Hy. apply Rabs_def2 in Hy. lra. }
    assert (FFA : Filter Fa) by apply filter_filter'.
    apply (filter_not_empty (F := Fa)). eapply filter_imp; [|apply (filter_and _ _ X (cof_a u Du))].
    intros x [H1 [Dx H2]]. assert (F x <= F u) by (apply (F_mono f F); auto; lra). lra. }
  assert (B : F v <= lb).
  { apply Rnot_lt_le. intros N.
    assert (X : Fb (fun x => F x < F v)).
    { apply (Hb (fun y => y < F v)). exists (mkposreal (F v - lb) ltac:(lra)). intros y Hy. change (Rabs (y - lb) < F v - lb) in Hy. apply Rabs_def2 in Hy. lra. }
    assert (FFB : Filter Fb) by apply filter_filter'.
    apply (filter_not_empty (F := Fb)). eapply filter_imp; [|apply (filter_and _ _ X (cof_b v Dv))].
    intros x [H1 [Dx H2]]. assert (F v <= F x) by (apply (F_mono f F); auto; lra). lra. }
  lra.
Qed.
End Dom.
