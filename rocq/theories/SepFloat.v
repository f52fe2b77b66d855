(** Separation of computed nodes: from gaps between angles to gaps between cosines. *)
From Coq Require Import Reals ZArith List Lia Lra Sorting.Sorted.
From Flocq Require Import Core IEEE754.Binary.
From Verif Require Import Arith F64 F64Spec Machine Rules RoundSpec RoundNC AccF64 TrigSpec GWSpec KeyOrder SepSpec LegAsym LegBig ChebFloat LegFloat.
Import ListNotations.
Local Open Scope R_scope.

Lemma sin_wide : forall x m, 0 < m -> m <= x <= PI - m -> m / 2 <= sin x.
Proof.
  intros x m Hm Hx. pose proof PI_lo as PL. pose proof PI_up as PU. destruct (Rle_or_lt x (PI / 2)) as [H|H].
  - pose proof (sin_half x ltac:(lra)). lra.
  - rewrite <- sin_PI_x. pose proof (sin_half (PI - x) ltac:(lra)). lra.
Qed.
Lemma cos_gap : forall a b m g, 0 < m -> 0 < g -> m <= a -> a + g <= b -> b <= PI - m -> g * (m + g / 2) / 4 <= cos a - cos b.
Proof.
  intros a b m g Hm Hg Ha Hb HP. pose proof PI_lo as PL. pose proof PI_up as PU. rewrite form2.
  pose proof (sin_wide ((a + b) / 2) (m + g / 2) ltac:(lra) ltac:(lra)) as S1.
  pose proof (sin_half ((b - a) / 2) ltac:(lra)) as S2. replace ((a - b) / 2) with (- ((b - a) / 2)) by field. rewrite sin_neg.
  assert (S3 : g / 4 <= sin ((b - a) / 2)) by lra. set (s1 := sin ((a + b) / 2)) in *. set (s2 := sin ((b - a) / 2)) in *. clearbody s1 s2.
  replace (-2 * - s2 * s1) with (2 * (s2 * s1)) by ring.
  assert (g / 4 * ((m + g / 2) / 2) <= s2 * s1) by (apply Rmult_le_compat; lra). lra.
Qed.
Lemma cos_inside : forall a m, 0 < m -> m <= a <= PI - m -> -1 + m * m / 8 <= cos a <= 1 - m * m / 8.
Proof.
  intros a m Hm Ha. pose proof PI_lo as PL. pose proof PI_up as PU.
  assert (K : forall b, m <= b <= PI -> cos b <= 1 - m * m / 8).
  { intros b Hb. replace b with (2 * (b / 2)) by field. rewrite cos_2a_sin. pose proof (sin_half (b / 2) ltac:(lra)) as S. set (s := sin (b / 2)) in *. nra. }
  split; [|apply K; lra]. pose proof (K (PI - a) ltac:(lra)) as Q. rewrite <- (Ropp_involutive (cos (PI - a))), Rtrigo_facts.cos_pi_minus in Q. lra.
Qed.

Lemma sorted_rev : forall X (Q : X -> X -> Prop) (p : nat -> X) n, (forall i j, (i < j)%nat -> (j < n)%nat -> Q (p j) (p i)) -> StronglySorted Q (rev (map p (seq 0 n))).
Proof.
  intros X Q p n. induction n as [|n IH]; intros H; [constructor|].
  rewrite seq_S, map_app, rev_app_distr. cbn [map rev app]. constructor.
  - apply IH. intros; apply H; lia.
  - apply List.Forall_forall. intros q Hq. apply in_rev in Hq. apply in_map_iff in Hq. destruct Hq as (i & <- & Hi). apply in_seq in Hi. apply H; lia.
Qed.

Section Sep.
Variable be : Backend.
Notation A := (F64 be).
Variables (n : nat) (ang wf : nat -> A) (th : nat -> R) (m g dt : R).
Hypothesis Hm : 0 < m.
Hypothesis Hg : 0 < g.
Hypothesis Ha : forall i, (i < n)%nat -> ffin (ang i) /\ 0 <= fval (ang i) <= 4 /\ Rabs (fval (ang i) - th i) <= dt.
Hypothesis Ht : forall i, (i < n)%nat -> m <= th i <= PI - m.
Hypothesis Hs : forall i j, (i < j)%nat -> (j < n)%nat -> th i + g <= th j.
Let l : list (A * A) := rev (map (fun i => (ncos (ang i) : A, wf i)) (seq 0 n)).

Lemma angles_rise : 2 * dt < g -> forall i j, (i < j)%nat -> (j < n)%nat -> fval (ang i) < fval (ang j).
Proof.
  intros D i j Hij Hj. destruct (Ha i ltac:(lia)) as (_ & _ & A1). destruct (Ha j Hj) as (_ & _ & A2). pose proof (Hs i j Hij Hj).
  pose proof (abs_upper _ _ A1). pose proof (abs_lower _ _ A2). lra.
Qed.
Lemma weak_order : falling_cos be -> 2 * dt < g -> dt <= m -> @ascending A l.
Proof.
  intros FC D M. apply sorted_rev. intros i j Hij Hj. cbn [fst]. destruct (Ha i ltac:(lia)) as (F1 & B1 & A1). destruct (Ha j Hj) as (F2 & B2 & A2).
  apply FC; [exact F1|exact F2| |].
  - pose proof (angles_rise D i j Hij Hj). lra.
  - pose proof (Ht j Hj). pose proof (abs_upper _ _ A2). lra.
Qed.
Lemma strict_order : forall kappa, accurate_trig be kappa -> 2 * (kappa + dt + eta) < g * (m + g / 2) / 4 -> kappa + dt + eta < m * m / 8 ->
  (forall i, (i < n)%nat -> ffin (wf i) /\ 0 < fval (wf i)) -> separated l /\ @ascending A l.
Proof.
  intros kappa HT D1 D2 HW.
  assert (C : forall i, (i < n)%nat -> ffin (ncos (ang i) : A) /\ Rabs (fval (ncos (ang i) : A) - cos (th i)) <= kappa + dt + eta).
  { intros i Hi. destruct (Ha i Hi) as (F1 & B1 & A1). apply (cos_close be kappa HT); assumption. }
  assert (S : forall i j, (i < j)%nat -> (j < n)%nat -> fval (ncos (ang j) : A) < fval (ncos (ang i) : A)).
  { intros i j Hij Hj. destruct (C i ltac:(lia)) as [_ C1]. destruct (C j Hj) as [_ C2]. pose proof (abs_lower _ _ C1). pose proof (abs_upper _ _ C2).
    pose proof (cos_gap (th i) (th j) m g Hm Hg ltac:(apply Ht; lia) (Hs i j Hij Hj) ltac:(apply Ht; lia)). lra. }
  split; [split|].
  - apply sorted_rev. exact S.
  - apply List.Forall_forall. intros q Hq. apply in_rev in Hq. apply in_map_iff in Hq. destruct Hq as (i & <- & Hi). apply in_seq in Hi. cbn [fst snd].
    destruct (C i ltac:(lia)) as [F1 C1]. split; [|apply HW; lia]. split; [exact F1|]. pose proof (cos_inside (th i) m Hm ltac:(apply Ht; lia)). pose proof (abs_lower _ _ C1). pose proof (abs_upper _ _ C1). lra.
  - apply sorted_rev. intros i j Hij Hj. cbn [fst]. change (f64_total_cmp (ncos (ang j) : A) (ncos (ang i) : A) <> Gt). rewrite total_cmp_lt; [discriminate|apply C; lia|apply C; lia|apply S; assumption].
Qed.
End Sep.
