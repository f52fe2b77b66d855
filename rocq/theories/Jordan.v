(** Functions of bounded variation are differences of monotone ones, and integrable. *)
From Coq Require Import Reals List Sorted Lra Lia.
From Coquelicot Require Import Rcomplements.
From Verif Require Import MonoSpec VarSpec.
Local Open Scope R_scope.
Import ListNotations.

Lemma sup_on : forall (D : R -> Prop) (g : R -> R) K, (exists x, D x) -> (forall x, D x -> g x <= K) ->
  exists s, (forall x, D x -> g x <= s) /\ forall e, 0 < e -> exists x, D x /\ s - e < g x.
Proof.
  intros D g K [x0 H0] B. destruct (completeness (fun y => exists x, D x /\ y = g x)) as [s [U L]].
  - exists K. intros y (x & Hx & ->). apply B, Hx.
  - exists (g x0), x0. split; [exact H0|reflexivity].
  - exists s. split; [intros x Hx; apply U; exists x; split; [exact Hx|reflexivity]|].
    intros e He. destruct (Classical_Prop.classic (exists x, D x /\ s - e < g x)) as [E|N]; [exact E|]. exfalso.
    assert (s <= s - e); [|lra]. apply L. intros y (x & Hx & ->). destruct (Rle_lt_dec (g x) (s - e)) as [Q|Q]; [exact Q|]. exfalso. apply N. exists x. split; assumption.
Qed.
Lemma inf_on : forall (D : R -> Prop) (g : R -> R) K, (exists x, D x) -> (forall x, D x -> K <= g x) ->
  exists s, (forall x, D x -> s <= g x) /\ forall e, 0 < e -> exists x, D x /\ g x < s + e.
Proof.
  intros D g K X B. destruct (sup_on D (fun x => - g x) (- K) X) as (s & U & A); [intros x Hx; specialize (B x Hx); lra|].
  exists (- s). split; [intros x Hx; specialize (U x Hx); lra|]. intros e He. destruct (A e He) as (x & Hx & Q). exists x. split; [exact Hx|lra].
Qed.

Lemma travel_ext : forall f x l y z, Sorted Rle (x :: l) -> Forall (fun t => t <= y) (x :: l) -> y <= z ->
  Sorted Rle (x :: l ++ [y; z]) /\ travel f x l + Rabs (f z - f y) <= travel f x (l ++ [y; z]).
Proof.
  intros f x l. revert x. induction l as [|u l IH]; intros x y z S F Hyz; cbn [app travel].
  - split; [constructor; [constructor; [constructor; [constructor|constructor]|constructor; exact Hyz]|constructor; exact (Forall_inv F)]|].
    assert (P := Rabs_pos (f y - f x)). lra.
  - apply Sorted_inv in S. destruct S as [S H]. destruct (IH u y z S (Forall_inv_tail F) Hyz) as [S' T]. split; [|lra].
    constructor; [exact S'|]. constructor. inversion H; assumption.
Qed.

Section Jordan.
Variables (D : R -> Prop) (f : R -> R) (V : R).
Hypothesis Hv : varies_at_most D f V.
Hypothesis Hd : exists x, D x.
Lemma V_nonneg : 0 <= V.
Proof. destruct Hd as [x Hx]. exact (Hv x [] (Sorted_cons (Sorted_nil _) (HdRel_nil _ _)) (Forall_cons _ Hx (Forall_nil _))). Qed.
Let reached (x s : R) : Prop := s = 0 \/ exists y l, Sorted Rle (y :: l) /\ Forall D (y :: l) /\ Forall (fun t => t <= x) (y :: l) /\ s = travel f y l.
Lemma reached_bound : forall x, bound (reached x).
Proof. intros x. exists V. intros s [->|(y & l & S & F & _ & ->)]; [exact V_nonneg|exact (Hv y l S F)]. Qed.
Definition gone (x : R) : R := proj1_sig (completeness (reached x) (reached_bound x) (ex_intro _ 0 (or_introl eq_refl))).
Lemma gone_lub : forall x, is_lub (reached x) (gone x).
Proof. intros x. unfold gone. destruct (completeness _ _ _) as [s H]. exact H. Qed.
Lemma gone_range : forall x, 0 <= gone x <= V.
Proof.
  intros x. destruct (gone_lub x) as [U L]. split; [apply U; left; reflexivity|].
  apply L. intros s [->|(y & l & S & F & _ & ->)]; [exact V_nonneg|exact (Hv y l S F)].
Qed.
Lemma gone_step : forall x y, D x -> D y -> x <= y -> Rabs (f y - f x) <= gone y - gone x.
Proof.
  intros x y Hx Hy Hxy. destruct (gone_lub x) as [U L]. destruct (gone_lub y) as [U' L'].
  assert (G : gone x <= gone y - Rabs (f y - f x)); [|lra]. apply L. intros s [->|(z & l & S & F & F' & ->)].
  - assert (0 + Rabs (f y - f x) <= gone y); [|lra]. apply U'. right. exists x, [y]. split; [|split; [|split]].
    + constructor; [constructor; constructor|constructor; exact Hxy].
    + constructor; [exact Hx|constructor; [exact Hy|constructor]].
    + constructor; [exact Hxy|constructor; [apply Rle_refl|constructor]].
    + cbn [travel]. ring.
  - destruct (travel_ext f z l x y S F' Hxy) as [S' T]. assert (travel f z (l ++ [x; y]) <= gone y); [|lra]. apply U'. right. exists z, (l ++ [x; y]).
    split; [exact S'|]. split; [|split; [|reflexivity]].
    + change (Forall D ((z :: l) ++ [x; y])). apply Forall_app. split; [exact F|]. constructor; [exact Hx|constructor; [exact Hy|constructor]].
    + change (Forall (fun t => t <= y) ((z :: l) ++ [x; y])). apply Forall_app. split; [|constructor; [exact Hxy|constructor; [apply Rle_refl|constructor]]].
      eapply Forall_impl; [|exact F']. intros t Ht. simpl in Ht. lra.
Qed.
Lemma swing : forall x y, D x -> D y -> Rabs (f y - f x) <= V.
Proof.
  intros x y Hx Hy. assert (Gx := gone_range x). assert (Gy := gone_range y). destruct (Rle_lt_dec x y) as [L|L].
  - assert (S := gone_step x y Hx Hy L). lra.
  - assert (S := gone_step y x Hy Hx (Rlt_le _ _ L)). rewrite Rabs_minus_sym in S. lra.
Qed.
Lemma jordan : exists P N c VP VN, rises_between D P c (c + VP) /\ rises_between D N 0 VN /\ (forall x, D x -> f x = P x - N x) /\ 0 <= VP /\ 0 <= VN /\ VP + VN <= V /\
  forall M, (forall x, D x -> Rabs (f x) <= M) -> Rabs c <= M.
Proof.
  destruct Hd as [x0 H0].
  set (P := fun x => (gone x + f x) / 2). set (N := fun x => (gone x - f x) / 2).
  assert (Rf : forall x, D x -> f x0 - V <= f x <= f x0 + V). { intros x Hx. assert (S := swing x0 x H0 Hx). apply Rabs_le_between in S. lra. }
  assert (MP : forall x y, D x -> D y -> x <= y -> P x <= P y). { intros x y Hx Hy L. assert (S := gone_step x y Hx Hy L). apply Rabs_le_between in S. unfold P. lra. }
  assert (MN : forall x y, D x -> D y -> x <= y -> N x <= N y). { intros x y Hx Hy L. assert (S := gone_step x y Hx Hy L). apply Rabs_le_between in S. unfold N. lra. }
  destruct (sup_on D P (V + Rabs (f x0)) Hd) as (pt & Pt & Pt'). { intros x Hx. assert (G := gone_range x). assert (Q := Rf x Hx). assert (A := Rle_abs (f x0)). assert (B := Rabs_pos (f x0)). unfold P. lra. }
  destruct (inf_on D P (- V - Rabs (f x0)) Hd) as (pb & Pb & Pb'). { intros x Hx. assert (G := gone_range x). assert (Q := Rf x Hx). assert (A := Rle_abs (- f x0)). rewrite Rabs_Ropp in A. assert (B := Rabs_pos (f x0)). unfold P. lra. }
  destruct (sup_on D N (V + Rabs (f x0)) Hd) as (nt & Nt & Nt'). { intros x Hx. assert (G := gone_range x). assert (Q := Rf x Hx). assert (A := Rle_abs (- f x0)). rewrite Rabs_Ropp in A. assert (B := Rabs_pos (f x0)). unfold N. lra. }
  destruct (inf_on D N (- V - Rabs (f x0)) Hd) as (nb & Nb & Nb'). { intros x Hx. assert (G := gone_range x). assert (Q := Rf x Hx). assert (A := Rle_abs (f x0)). assert (B := Rabs_pos (f x0)). unfold N. lra. }
  assert (Ends : forall e, 0 < e -> exists x y, D x /\ D y /\ x <= y /\ P x < pb + e /\ N x < nb + e /\ pt - e < P y /\ nt - e < N y).
  { intros e He. destruct (Pt' e He) as (x1 & D1 & Q1). destruct (Pb' e He) as (x2 & D2 & Q2). destruct (Nt' e He) as (x3 & D3 & Q3). destruct (Nb' e He) as (x4 & D4 & Q4).
    assert (Lo : exists x, D x /\ P x < pb + e /\ N x < nb + e).
    { destruct (Rle_lt_dec x2 x4) as [L|L]; [exists x2; assert (Z := MN x2 x4 D2 D4 L)|exists x4; assert (Z := MP x4 x2 D4 D2 (Rlt_le _ _ L))]; repeat split; try assumption; lra. }
    assert (Up : exists x, D x /\ pt - e < P x /\ nt - e < N x).
    { destruct (Rle_lt_dec x1 x3) as [L|L]; [exists x3; assert (Z := MP x1 x3 D1 D3 L)|exists x1; assert (Z := MN x3 x1 D3 D1 (Rlt_le _ _ L))]; repeat split; try assumption; lra. }
    destruct Lo as (x & Dx & X1 & X2). destruct Up as (y & Dy & Y1 & Y2).
    destruct (Rle_lt_dec x y) as [L|L]; [exists x, y; repeat split; assumption|].
    exists y, x. assert (Z1 := MP y x Dy Dx (Rlt_le _ _ L)). assert (Z2 := MN y x Dy Dx (Rlt_le _ _ L)). repeat split; try assumption; lra. }
  exists (fun x => P x - nb), (fun x => N x - nb), (pb - nb), (pt - pb), (nt - nb).
  assert (E0 : forall x, D x -> f x = P x - nb - (N x - nb)) by (intros x _; unfold P, N; lra).
  split; [split; [intros x y Hx Hy L; assert (Z := MP x y Hx Hy L); lra|intros x Hx; assert (Z := Pt x Hx); assert (Z' := Pb x Hx); lra]|].
  split; [split; [intros x y Hx Hy L; assert (Z := MN x y Hx Hy L); lra|intros x Hx; assert (Z := Nt x Hx); assert (Z' := Nb x Hx); lra]|].
  split; [exact E0|]. split; [assert (Z := Pt x0 H0); assert (Z' := Pb x0 H0); lra|]. split; [assert (Z := Nt x0 H0); assert (Z' := Nb x0 H0); lra|]. split.
  - apply Rnot_lt_le. intros L. destruct (Ends ((pt - pb + (nt - nb) - V) / 8) ltac:(lra)) as (x & y & Dx & Dy & Hxy & Q1 & Q2 & Q3 & Q4).
    assert (Gx := gone_range x). assert (Gy := gone_range y). assert (Sx : P x + N x = gone x) by (unfold P, N; field). assert (Sy : P y + N y = gone y) by (unfold P, N; field). lra.
  - intros M HM. apply Rnot_lt_le. intros L. destruct (Ends ((Rabs (pb - nb) - M) / 8) ltac:(lra)) as (x & y & Dx & _ & _ & Q1 & Q2 & _).
    assert (B := HM x Dx). apply Rabs_le_between in B. assert (Z' := Pb x Dx). assert (Z := Nb x Dx). assert (E := E0 x Dx). 
    destruct (Rabs_le_between (pb - nb) ((Rabs (pb - nb) + M) / 2)) as [_ K]. assert (Rabs (pb - nb) <= (Rabs (pb - nb) + M) / 2); [|lra]. apply K. lra.
Qed.
End Jordan.
(** conversely *)
Lemma difference : forall D P N bp tp bn tn, rises_between D P bp tp -> rises_between D N bn tn -> varies_at_most D (fun x => P x - N x) (tp - bp + (tn - bn)).
Proof.
  intros D P N bp tp bn tn [MP RP] [MN RN] x l S F.
  assert (T : travel (fun x => P x - N x) x l <= tp - P x + (tn - N x)).
  { revert x S F. induction l as [|y l IH]; intros x S F; assert (Hx := Forall_inv F); cbn [travel].
    - assert (A := RP x Hx). assert (B := RN x Hx). lra.
    - apply Sorted_inv in S. destruct S as [S H]. assert (L : x <= y) by (inversion H; assumption). assert (F' := Forall_inv_tail F). assert (Hy := Forall_inv F').
      assert (I := IH y S F'). assert (A := MP x y Hx Hy L). assert (B := MN x y Hx Hy L).
      assert (Rabs (P y - N y - (P x - N x)) <= P y - P x + (N y - N x)) by (apply Rabs_le; lra). lra. }
  assert (A := RP x (Forall_inv F)). assert (B := RN x (Forall_inv F)). lra.
Qed.
