(** Monotone functions are integrable, also against a weight and over unbounded domains. *)
From Coq Require Import Reals List Sorted Lra Lia.
From Coquelicot Require Import Coquelicot.
From Verif Require Import MonoSpec VarSpec Jordan.
Local Open Scope R_scope.

(** staircase below [t] with steps of height [d] *)
Fixpoint stairs (d : R) (N : nat) (t : R) : R :=
  match N with
  | O => 0
  | S m => stairs d m t + d * (if Rle_dec (INR N * d) t then 1 else 0)
  end.
Lemma stairs_near : forall d N t, 0 < d -> 0 <= t -> stairs d N t <= t /\ (t <= INR N * d -> t - d <= stairs d N t) /\ (INR N * d <= t -> stairs d N t = INR N * d).
Proof.
  intros d N t Hd Ht. induction N as [|m IH].
  - cbn [stairs INR]. split; [exact Ht|]. split; intros H; lra.
  - destruct IH as (I1 & I2 & I3). cbn [stairs]. rewrite S_INR. destruct (Rle_dec ((INR m + 1) * d) t) as [L|L].
    + assert (E : stairs d m t = INR m * d) by (apply I3; nra). rewrite E. split; [lra|]. split; intros; lra.
    + split; [lra|]. split; [|intros; lra]. intros _. destruct (Rle_lt_dec t (INR m * d)) as [Q|Q]; [specialize (I2 Q); lra|]. rewrite (I3 (Rlt_le _ _ Q)). nra.
Qed.

Ltac req := match goal with |- @eq _ ?a ?b => change (@eq R a b) end; cbv beta.
(** a function that is 0 up to some place and [w] from there on *)
Lemma ex_late : forall (w g : R -> R) (c : R) a b, a <= b -> ex_RInt w a b -> (forall x y, a <= x -> x <= y -> y <= b -> g x <= g y) ->
  ex_RInt (fun x => w x * (if Rle_dec c (g x) then 1 else 0)) a b.
Proof.
  intros w g c a b Hab Hw Hg.
  set (D := fun x => a <= x <= b /\ g x < c).
  destruct (Classical_Prop.classic (exists x, D x)) as [X|X].
  - destruct (sup_on D (fun x => x) b X) as (s & U & A); [intros x [Hx _]; apply Hx|].
    assert (Hs : a <= s <= b). { destruct X as [x Hx]. split; [destruct (U x Hx); destruct Hx as [[Q1 Q2] _]; lra|].
      apply Rnot_lt_le. intros L. destruct (A (s - b) ltac:(lra)) as (y & [Hy _] & Q). lra. }
    apply (ex_RInt_Chasles (V := R_NormedModule) _ a s b).
    + apply (ex_RInt_ext (V := R_NormedModule) (fun _ => 0)); [|apply ex_RInt_const]. intros x Hx. rewrite Rmin_left, Rmax_right in Hx by lra.
      destruct (Rle_dec c (g x)) as [L|L]; [|req; ring]. exfalso. destruct (A (s - x) ltac:(lra)) as (y & [Hy Gy] & Q). assert (g x <= g y) by (apply Hg; lra). lra.
    + apply (ex_RInt_ext (V := R_NormedModule) w).
      * intros x Hx. rewrite Rmin_left, Rmax_right in Hx by lra. destruct (Rle_dec c (g x)) as [L|L]; [req; ring|]. exfalso.
        assert (x <= s); [|lra]. apply U. split; [lra|lra].
      * apply (ex_RInt_Chasles_2 (V := R_CompleteNormedModule) w a s b Hs Hw).
  - apply (ex_RInt_ext (V := R_NormedModule) w); [|exact Hw]. intros x Hx. rewrite Rmin_left, Rmax_right in Hx by lra. destruct (Rle_dec c (g x)) as [L|L]; [req; ring|].
    exfalso. apply X. exists x. split; lra.
Qed.
Lemma ex_stairs : forall (w g : R -> R) d N a b, a <= b -> ex_RInt w a b -> (forall x y, a <= x -> x <= y -> y <= b -> g x <= g y) -> ex_RInt (fun x => w x * stairs d N (g x)) a b.
Proof.
  intros w g d N a b Hab Hw Hg. induction N as [|m IH].
  - apply (ex_RInt_ext (V := R_NormedModule) (fun _ => 0)); [intros x _; req; cbn [stairs]; ring|apply ex_RInt_const].
  - apply (ex_RInt_ext (V := R_NormedModule) (fun x => plus (w x * stairs d m (g x)) (scal d (w x * (if Rle_dec (INR (S m) * d) (g x) then 1 else 0))))).
    + intros x _. unfold plus, scal. simpl. unfold mult. simpl. req. cbn [stairs]. match goal with |- context [if ?q then _ else _] => destruct q end; ring.
    + apply (ex_RInt_plus (V := R_NormedModule)); [exact IH|]. apply (ex_RInt_scal (V := R_NormedModule)). apply ex_late; assumption.
Qed.
Definition clamp (a b x : R) : R := Rmax a (Rmin b x).
Lemma clamp_in : forall a b x, a <= b -> a <= clamp a b x <= b.
Proof. intros a b x H. unfold clamp, Rmax, Rmin. destruct (Rle_dec b x); destruct (Rle_dec a _); lra. Qed.
Lemma clamp_id : forall a b x, a <= x <= b -> clamp a b x = x.
Proof. intros a b x H. unfold clamp, Rmax, Rmin. destruct (Rle_dec b x); destruct (Rle_dec a _); lra. Qed.
(** a monotone function times a bounded integrable one *)
Lemma ex_mono_weighted : forall (w g : R -> R) a b W, a <= b -> ex_RInt w a b -> (forall x, a <= x <= b -> Rabs (w x) <= W) ->
  (forall x y, a <= x -> x <= y -> y <= b -> g x <= g y) -> ex_RInt (fun x => w x * g x) a b.
Proof.
  intros w g a b W Hab Hw HW Hg. assert (W0 : 0 <= W) by (assert (Q := HW a ltac:(lra)); assert (Q' := Rabs_pos (w a)); lra).
  set (C := g b - g a). assert (HC : 0 <= C) by (unfold C; assert (Q := Hg a b ltac:(lra) Hab ltac:(lra)); lra).
  set (k := fun x => g (clamp a b x) - g a). set (w' := fun x => w (clamp a b x)).
  assert (Hk : forall x, 0 <= k x <= C). { intros x. destruct (clamp_in a b x Hab) as [c1 c2]. unfold k, C. assert (Q1 := Hg a _ ltac:(lra) c1 c2). assert (Q2 := Hg _ b c1 c2 ltac:(lra)). lra. }
  assert (Hw' : ex_RInt w' a b). { apply (ex_RInt_ext (V := R_NormedModule) w); [|exact Hw]. intros x Hx. rewrite Rmin_left, Rmax_right in Hx by lra. unfold w'. rewrite clamp_id by lra. reflexivity. }
  assert (Up : forall n : nat, {N : nat | C <= INR N * / INR (S n)}).
  { intros n. assert (P : 0 < INR (S n)) by (apply lt_0_INR; lia). destruct (nfloor_ex (C * INR (S n)) ltac:(nra)) as (m & _ & Q). exists (S m). rewrite S_INR at 1.
    apply (Rmult_le_reg_r (INR (S n))); [exact P|]. rewrite Rmult_assoc, Rinv_l by lra. lra. }
  set (N := fun n => proj1_sig (Up n)). assert (HN : forall n, C <= INR (N n) * / INR (S n)) by (intros n; exact (proj2_sig (Up n))).
  set (h := fun (n : nat) x => w' x * stairs (/ INR (S n)) (N n) (k x)).
  assert (Ih : forall n, ex_RInt (h n) a b).
  { intros n. apply ex_stairs; [exact Hab|exact Hw'|]. intros x y H1 H2 H3. unfold k. rewrite !clamp_id by lra. assert (Q := Hg x y H1 H2 H3). lra. }
  destruct (filterlim_RInt (V := R_CompleteNormedModule) h a b eventually eventually_filter (fun x => w' x * k x) (fun n => RInt (h n) a b)) as (I & _ & HI).
  - intros n. apply (RInt_correct (V := R_CompleteNormedModule)), Ih.
  - apply filterlim_locally. intros eps. assert (P := cond_pos eps).
    destruct (nfloor_ex ((W + 1) / eps)) as (m & _ & Q); [apply Rdiv_le_0_compat; lra|]. exists m. intros n Hn t. change (Rabs (h n t - w' t * k t) < eps).
    assert (Pn : 0 < INR (S n)) by (apply lt_0_INR; lia).
    destruct (stairs_near (/ INR (S n)) (N n) (k t) (Rinv_0_lt_compat _ Pn) (proj1 (Hk t))) as (S1 & S2 & _).
    assert (S3 := S2 (Rle_trans _ _ _ (proj2 (Hk t)) (HN n))). unfold h. rewrite <- Rmult_minus_distr_l, Rabs_mult.
    assert (A1 : Rabs (w' t) <= W) by (apply HW, clamp_in, Hab).
    assert (A2 : Rabs (stairs (/ INR (S n)) (N n) (k t) - k t) <= / INR (S n)) by (apply Rabs_le; lra).
    apply (Rle_lt_trans _ (W * / INR (S n))); [apply Rmult_le_compat; try apply Rabs_pos; assumption|].
    assert (Q' : (W + 1) / eps < INR (S n)). { apply (Rlt_le_trans _ _ _ Q). rewrite S_INR. apply le_INR in Hn. lra. }
    apply (Rmult_lt_reg_r (INR (S n))); [exact Pn|]. rewrite Rmult_assoc, Rinv_l by lra.
    apply (Rmult_lt_compat_r eps) in Q'; [|exact P]. unfold Rdiv in Q'. rewrite Rmult_assoc, Rinv_l in Q' by lra. lra.
  - apply (ex_RInt_ext (V := R_NormedModule) (fun x => plus (w' x * k x) (scal (g a) (w' x)))).
    + intros x Hx. rewrite Rmin_left, Rmax_right in Hx by lra. unfold plus, scal. simpl. unfold mult. simpl. req. unfold w', k. rewrite clamp_id by lra. ring.
    + apply (ex_RInt_plus (V := R_NormedModule)); [exists I; exact HI|]. apply (ex_RInt_scal (V := R_NormedModule)). exact Hw'.
Qed.
Lemma ex_mono : forall (g : R -> R) a b, a <= b -> (forall x y, a <= x -> x <= y -> y <= b -> g x <= g y) -> ex_RInt g a b.
Proof.
  intros g a b Hab Hg. apply (ex_RInt_ext (V := R_NormedModule) (fun x => 1 * g x)); [intros x _; req; ring|].
  apply (ex_mono_weighted (fun _ => 1) g a b 1 Hab (ex_RInt_const _ _ _)); [|exact Hg]. intros x _. rewrite Rabs_R1. lra.
Qed.

(** over a domain with open ends *)
Lemma ex_mono_gen : forall (Fa Fb : (R -> Prop) -> Prop) (D : R -> Prop) (w g : R -> R) bot top T, ProperFilter Fa -> ProperFilter Fb ->
  filter_prod Fa Fb (fun ab => fst ab <= snd ab /\ forall x, fst ab <= x <= snd ab -> D x) ->
  (forall x, D x -> continuous w x /\ 0 <= w x) -> rises_between D g bot top -> is_RInt_gen w Fa Fb T -> exists v, is_RInt_gen (fun x => w x * g x) Fa Fb v.
Proof.
  intros Fa Fb D w g bot top T PFa PFb Dm Hw [Hg Hb] HT.
  assert (Wi : forall c d, c <= d -> (forall x, c <= x <= d -> D x) -> ex_RInt w c d).
  { intros c d Hcd Hd. apply (ex_RInt_continuous (V := R_CompleteNormedModule)). intros x Hx. rewrite Rmin_left, Rmax_right in Hx by lra. apply Hw, Hd, Hx. }
  assert (Gi : forall c d, c <= d -> (forall x, c <= x <= d -> D x) -> ex_RInt (fun x => w x * g x) c d).
  { intros c d Hcd Hd. destruct (continuity_ab_maj w c d Hcd) as (M & HM & _). { intros x Hx. apply continuity_pt_filterlim. apply (proj1 (Hw x (Hd x Hx))). }
    apply (ex_mono_weighted w g c d (w M) Hcd (Wi c d Hcd Hd)).
    - intros x Hx. rewrite Rabs_pos_eq by apply (proj2 (Hw x (Hd x Hx))). apply HM, Hx.
    - intros x y H1 H2 H3. apply Hg; [apply Hd; lra|apply Hd; lra|exact H2]. }
  set (C := Rmax (Rabs bot) (Rabs top)).
  assert (HC : forall x, D x -> Rabs (g x) <= C).
  { intros x Hx. assert (Q := Hb x Hx). assert (A := Rmax_l (Rabs bot) (Rabs top)). assert (B := Rmax_r (Rabs bot) (Rabs top)). fold C in A, B.
    assert (A' := Rle_abs (- bot)). rewrite Rabs_Ropp in A'. assert (B' := Rle_abs top). apply Rabs_le. lra. }
  assert (C0 : 0 <= C) by (unfold C; apply (Rle_trans _ (Rabs bot)); [apply Rabs_pos|apply Rmax_l]).
  assert (Piece : forall c d, c <= d -> (forall x, c <= x <= d -> D x) -> Rabs (RInt (fun x => w x * g x) c d) <= C * RInt w c d).
  { intros c d Hcd Hd. assert (X := RInt_correct (V := R_CompleteNormedModule) _ _ _ (Wi c d Hcd Hd)). assert (Y := RInt_correct (V := R_CompleteNormedModule) _ _ _ (Gi c d Hcd Hd)).
    apply (norm_RInt_le (V := R_NormedModule) (fun x => w x * g x) (fun x => C * w x) c d _ _ Hcd); [|exact Y|exact (is_RInt_scal (V := R_NormedModule) w c d C _ X)].
    intros x Hx. change (Rabs (w x * g x) <= C * w x). rewrite Rabs_mult, (Rabs_pos_eq (w x)) by apply (proj2 (Hw x (Hd x Hx))). rewrite Rmult_comm.
    apply Rmult_le_compat_r; [apply (proj2 (Hw x (Hd x Hx)))|apply HC, Hd, Hx]. }
  pose (G := RInt (V := R_CompleteNormedModule) (fun x => w x * g x) : R -> R -> R). pose (H := RInt (V := R_CompleteNormedModule) w : R -> R -> R).
  change (forall c d, c <= d -> (forall x, c <= x <= d -> D x) -> Rabs (G c d) <= C * H c d) in Piece.
  assert (Ch : forall c m d, c <= m <= d -> (forall x, c <= x <= d -> D x) -> G c d = G c m + G m d /\ H c d = H c m + H m d).
  { intros c m d Hm Hd. split; symmetry; apply (RInt_Chasles (V := R_CompleteNormedModule)); (apply Gi || apply Wi); try lra; intros x Hx; apply Hd; lra. }
  assert (StepL' : forall c c' d, c <= c' <= d -> (forall x, c <= x <= d -> D x) -> Rabs (G c d - G c' d) <= C * Rabs (H c d - H c' d)).
  { intros c c' d Hc Hd. destruct (Ch c c' d ltac:(lra) Hd) as [-> ->]. replace (G c c' + G c' d - G c' d) with (G c c') by ring. replace (H c c' + H c' d - H c' d) with (H c c') by ring.
    apply (Rle_trans _ _ _ (Piece c c' ltac:(lra) ltac:(intros x Hx; apply Hd; lra))). apply Rmult_le_compat_l; [exact C0|apply Rle_abs]. }
  assert (StepL : forall c c' d, c <= d -> c' <= d -> (forall x, c <= x <= d -> D x) -> (forall x, c' <= x <= d -> D x) -> Rabs (G c d - G c' d) <= C * Rabs (H c d - H c' d)).
  { intros c c' d H1 H2 D1 D2. destruct (Rle_lt_dec c c') as [L|L]; [apply StepL'; [lra|exact D1]|]. rewrite (Rabs_minus_sym (G c d)), (Rabs_minus_sym (H c d)). apply StepL'; [lra|exact D2]. }
  assert (StepR' : forall c d d', c <= d <= d' -> (forall x, c <= x <= d' -> D x) -> Rabs (G c d' - G c d) <= C * Rabs (H c d' - H c d)).
  { intros c d d' Hc Hd. destruct (Ch c d d' ltac:(lra) Hd) as [-> ->]. replace (G c d + G d d' - G c d) with (G d d') by ring. replace (H c d + H d d' - H c d) with (H d d') by ring.
    apply (Rle_trans _ _ _ (Piece d d' ltac:(lra) ltac:(intros x Hx; apply Hd; lra))). apply Rmult_le_compat_l; [exact C0|apply Rle_abs]. }
  assert (StepR : forall c d d', c <= d -> c <= d' -> (forall x, c <= x <= d -> D x) -> (forall x, c <= x <= d' -> D x) -> Rabs (G c d - G c d') <= C * Rabs (H c d - H c d')).
  { intros c d d' H1 H2 D1 D2. destruct (Rle_lt_dec d d') as [L|L]; [|apply StepR'; [lra|exact D1]]. rewrite (Rabs_minus_sym (G c d)), (Rabs_minus_sym (H c d)). apply StepR'; [lra|exact D2]. }
  assert (Cy : exists v, filterlim (fun ab : R * R => G (fst ab) (snd ab)) (filter_prod Fa Fb) (locally v)).
  { apply (filterlim_locally_cauchy (U := R_CompleteSpace)). intros eps. assert (Pe := cond_pos eps).
    set (e := eps / (8 * (C + 1))). assert (He : 0 < e) by (unfold e; apply Rdiv_lt_0_compat; lra).
    assert (Near := HT (fun y => Rabs (y - T) < e)). unfold filtermapi in Near. specialize (Near (locally_ball T (mkposreal e He))).
    assert (Q := filter_and _ _ Near Dm). destruct Q as [Qa Qb HQa HQb Q].
    exists (fun ab => Qa (fst ab) /\ Qb (snd ab)). split; [apply (Filter_prod _ _ _ Qa Qb HQa HQb); intros x y Hx Hy; split; assumption|].
    assert (Val : forall c d, Qa c -> Qb d -> c <= d /\ (forall x, c <= x <= d -> D x) /\ Rabs (H c d - T) < e).
    { intros c d Hc Hd. destruct (Q c d Hc Hd) as [(y & Hy & Ny) [L1 L2]]. cbn [fst snd] in *. split; [exact L1|]. split; [exact L2|].
      unfold H. rewrite (is_RInt_unique (V := R_CompleteNormedModule) _ _ _ _ Hy). exact Ny. }
    intros [c d] [c' d'] [Hc Hd] [Hc' Hd']. cbn [fst snd] in *. change (Rabs (G c' d' - G c d) < eps).
    destruct (Val c d Hc Hd) as (L1 & D1 & N1). destruct (Val c' d Hc' Hd) as (L2 & D2 & N2). destruct (Val c' d' Hc' Hd') as (L3 & D3 & N3).
    assert (S1 := StepL c c' d L1 L2 D1 D2). assert (S2 := StepR c' d d' L2 L3 D2 D3).
    assert (B1 : Rabs (H c d - H c' d) <= 2 * e) by (replace (H c d - H c' d) with ((H c d - T) - (H c' d - T)) by ring; apply (Rle_trans _ _ _ (Rabs_triang _ _)); rewrite Rabs_Ropp; lra).
    assert (B2 : Rabs (H c' d - H c' d') <= 2 * e) by (replace (H c' d - H c' d') with ((H c' d - T) - (H c' d' - T)) by ring; apply (Rle_trans _ _ _ (Rabs_triang _ _)); rewrite Rabs_Ropp; lra).
    apply (Rmult_le_compat_l C _ _ C0) in B1. apply (Rmult_le_compat_l C _ _ C0) in B2.
    replace (G c' d' - G c d) with (- ((G c d - G c' d) + (G c' d - G c' d'))) by ring. rewrite Rabs_Ropp. apply (Rle_lt_trans _ _ _ (Rabs_triang _ _)).
    assert (Ce : C * e * 8 <= eps). { unfold e. apply (Rmult_le_reg_r (C + 1)); [lra|]. replace (C * (eps / (8 * (C + 1))) * 8 * (C + 1)) with (C * eps) by (field; lra). nra. }
    lra. }
  destruct Cy as [v Hv]. exists v. intros P HP. unfold filtermapi. assert (K0 : filter_prod Fa Fb (fun ab => P (G (fst ab) (snd ab)))) by exact (Hv P HP).
  generalize (filter_and _ _ K0 Dm). apply filter_imp. intros [c d] [K1 [K2 K3]]. cbn [fst snd] in *.
  exists (G c d). split; [|exact K1]. apply (RInt_correct (V := R_CompleteNormedModule)). apply Gi; [lra|exact K3].
Qed.
