(** Convergence of the Newton-Cotes rules for every Riemann integrable function. *)
From Coq Require Import Reals Lra Lia Psatz.
From Coquelicot Require Import Coquelicot.
From mathcomp Require Import ssreflect.seq.
From Verif Require Import Arith RInst NewtonCotes RSum NCSpec NCReal NCExact.
Local Open Scope R_scope.

Section Build.
Variables (x t : nat -> R).
(** k cells from the i-th division point on. *)
Fixpoint build (i k : nat) : @SF_seq R :=
  match k with
  | O => SF_nil (x i)
  | S k => SF_cons (x i, t i) (build (S i) k)
  end.
Lemma build_h : forall k i, SF_h (build i k) = x i.
Proof. destruct k; reflexivity. Qed.
Lemma build_last : forall k i d, last d (SF_lx (build i k)) = x (i + k)%nat.
Proof.
  induction k; intros i d.
  - simpl. f_equal. lia.
  - cbn [build]. rewrite SF_lx_cons. simpl last at 1. cbn [last].
    change (last (x i) (SF_lx (build (S i) k)) = x (i + S k)%nat). rewrite IHk. f_equal. lia.
Qed.
Lemma build_size : forall k i, SF_size (build i k) = k.
Proof. induction k; intros i; [reflexivity|]. cbn [build]. rewrite SF_size_cons, IHk. reflexivity. Qed.
Lemma build_lx : forall k i j, (j <= k)%nat -> nth 0 (SF_lx (build i k)) j = x (i + j)%nat.
Proof.
  induction k; intros i j Hj.
  - assert (j = O) by lia. subst. simpl. f_equal. lia.
  - cbn [build]. rewrite SF_lx_cons. destruct j as [|j].
    + simpl. f_equal. lia.
    + simpl nth at 1. change (nth 0 (SF_lx (build (S i) k)) j = x (i + S j)%nat).
      rewrite IHk by lia. f_equal. lia.
Qed.
Lemma build_ly : forall k i j, (j < k)%nat -> nth 0 (SF_ly (build i k)) j = t (i + j)%nat.
Proof.
  induction k; intros i j Hj; [lia|].
  cbn [build]. rewrite SF_ly_cons. destruct j as [|j].
  - simpl. f_equal. lia.
  - change (nth 0 (SF_ly (build (S i) k)) j = t (i + S j)%nat).
    rewrite IHk by lia. f_equal. lia.
Qed.
Lemma build_sum (f : R -> R) : forall k i,
  Riemann_sum f (build i k) = rsum k (fun j => (x (S (i + j)) - x (i + j)%nat) * f (t (i + j)%nat)).
Proof.
  induction k; intros i; [reflexivity|].
  cbn [build]. rewrite Riemann_sum_cons, IHk, build_h. rewrite rsum_first.
  replace (i + 0)%nat with i by lia. simpl fst. simpl snd.
  change (plus (scal (x (S i) - x i) (f (t i))) ?r) with ((x (S i) - x i) * f (t i) + r).
  f_equal. apply rsum_ext. intros j _. replace (i + S j)%nat with (S i + j)%nat by lia. reflexivity.
Qed.
Lemma build_step d : 0 < d -> forall k i,
  (forall j, (j < k)%nat -> Rabs (x (S (i + j)) - x (i + j)%nat) < d) ->
  seq_step (SF_lx (build i k)) < d.
Proof.
  intros Hd. induction k; intros i H.
  - unfold seq_step. simpl. exact Hd.
  - cbn [build]. rewrite SF_lx_cons.
    assert (E : seq_step (x i :: SF_lx (build (S i) k)) =
                Rmax (Rabs (x (S i) - x i)) (seq_step (SF_lx (build (S i) k)))).
    { rewrite <- (build_h k (S i)). reflexivity. }
    simpl fst. rewrite E. apply Rmax_lub_lt.
    + specialize (H 0%nat). replace (i + 0)%nat with i in H by lia. apply H. lia.
    + apply IHk. intros j Hj. specialize (H (S j)).
      replace (i + S j)%nat with (S i + j)%nat in H by lia. apply H. lia.
Qed.
End Build.

(** Riemann sums over equal cells with arbitrary points converge. *)
Lemma riemann_equal (f : R -> R) a b I : a < b -> is_RInt f a b I ->
  forall eps, 0 < eps -> exists N, forall n, (N <= n)%nat -> (1 <= n)%nat -> forall t : nat -> R,
  (forall i, (i < n)%nat ->
     a + (b - a) / INR n * INR i <= t i <= a + (b - a) / INR n * INR (S i)) ->
  Rabs ((b - a) / INR n * rsum n (fun i => f (t i)) - I) < eps.
Proof.
  intros Hab HI eps He.
  assert (L := proj1 (filterlim_locally _ _) HI (mkposreal eps He)).
  destruct L as [d Hd]. 
  destruct (nfloor_ex ((b - a) / d)) as [N0 HN0].
  { apply Rlt_le, Rdiv_lt_0_compat; [lra | apply cond_pos]. }
  pose (N := S N0). assert (HN : (b - a) / d < INR N) by (unfold N; rewrite S_INR; apply HN0).
  clearbody N. clear N0 HN0.
  exists N. intros n Hn H1 t Ht.
  assert (P : 0 < INR n) by (apply lt_0_INR; lia).
  pose (x := fun i => a + (b - a) / INR n * INR i).
  assert (D : forall i, x (S i) - x i = (b - a) / INR n).
  { intros i. unfold x. rewrite S_INR. field. lra. }
  assert (Hh : (b - a) / INR n < d).
  { apply Rmult_lt_reg_r with (INR n); [exact P|]. unfold Rdiv. rewrite Rmult_assoc, Rinv_l by lra.
    rewrite Rmult_1_r. apply le_INR in Hn. 
    assert (0 < d) by apply cond_pos.
    apply Rlt_le_trans with (d * INR N).
    - apply Rmult_lt_reg_r with (/ d); [apply Rinv_0_lt_compat; assumption|].
      replace (d * INR N * / d) with (INR N) by (field; lra). exact HN.
    - apply Rmult_le_compat_l; lra. }
  assert (Hp : 0 < (b - a) / INR n) by (apply Rdiv_lt_0_compat; lra).
  specialize (Hd (build x t 0 n)).
  assert (B : Rabs (scal (sign (b - a)) (Riemann_sum f (build x t 0 n)) - I) < eps).
  { apply Hd.
    - apply build_step; [apply cond_pos|]. intros j _. cbn [Nat.add]. rewrite D.
      rewrite Rabs_pos_eq by lra. exact Hh.
    - split; [|split].
      + intros i Hi. rewrite build_size in Hi.
        rewrite !build_lx, build_ly by lia. cbn [Nat.add]. apply Ht. exact Hi.
      + rewrite build_h. rewrite Rmin_left by lra. unfold x. rewrite Rmult_0_r. ring.
      + rewrite build_last. rewrite Rmax_right by lra. unfold x. cbn [Nat.add]. field. lra. }
  rewrite sign_eq_1 in B by lra.
  rewrite (build_sum x t f n 0) in B.
  replace ((b - a) / INR n * rsum n (fun i => f (t i)))
    with (scal 1 (rsum n (fun j => (x (S (0 + j)) - x (0 + j)%nat) * f (t (0 + j)%nat)))); [exact B|].
  change (scal 1 ?r) with (1 * r). rewrite Rmult_1_l. rewrite <- rsum_scal. apply rsum_ext.
  intros i _. cbn [Nat.add]. rewrite D. reflexivity.
Qed.

Lemma cell_bounds a b n i s : (1 <= n)%nat -> a < b -> 0 <= s <= 1 ->
  a + (b - a) / INR n * INR i <= a + (b - a) / INR n * (INR i + s) <= a + (b - a) / INR n * INR (S i).
Proof.
  intros Hn Hab Hs. assert (P : 0 < INR n) by (apply lt_0_INR; lia).
  assert (0 < (b - a) / INR n) by (apply Rdiv_lt_0_compat; lra). rewrite S_INR. nra.
Qed.

(** All three rules at once, for a < b. *)
Lemma rules_riemann (f : R -> R) a b I : a < b -> is_RInt f a b I ->
  forall eps, 0 < eps -> exists N, forall n, (N <= n)%nat -> (1 <= n)%nat ->
  Rabs (midpoint_value n a b f - I) < eps /\ Rabs (trapezoid_value n a b f - I) < eps /\
  Rabs (simpson_value n a b f - I) < eps.
Proof.
  intros Hab HI eps He. destruct (riemann_equal f a b I Hab HI eps He) as [N HN].
  exists N. intros n Hn H1. specialize (HN n Hn H1).
  pose (h := (b - a) / INR n).
  assert (M := HN (fun i => a + h * (INR i + / 2)) ltac:(intros; apply cell_bounds; lra || assumption)).
  assert (L := HN (fun i => a + h * (INR i + 0)) ltac:(intros; apply cell_bounds; lra || assumption)).
  assert (R0 := HN (fun i => a + h * (INR i + 1)) ltac:(intros; apply cell_bounds; lra || assumption)).
  fold h in M, L, R0. cbv beta in M, L, R0.
  assert (EM : midpoint_value n a b f = h * rsum n (fun i => f (a + h * (INR i + / 2)))).
  { rewrite midpoint_value_eq by assumption. reflexivity. }
  assert (ET : trapezoid_value n a b f =
     (h * rsum n (fun i => f (a + h * (INR i + 0))) + h * rsum n (fun i => f (a + h * (INR i + 1)))) / 2).
  { rewrite trapezoid_panels by assumption. fold h.
    rewrite <- !rsum_scal, <- rsum_plus. match goal with |- _ = rsum n ?F / ?c => change (rsum n F / c) with (rsum n F * / c) end. rewrite <- rsum_scal_r.
    apply rsum_ext. intros i _. rewrite Rplus_0_r, S_INR. field. }
  assert (ES : simpson_value n a b f = (2 * midpoint_value n a b f + trapezoid_value n a b f) / 3).
  { rewrite simpson_panels, midpoint_panels, trapezoid_panels by assumption. fold h.
    rewrite <- rsum_scal, <- rsum_plus. match goal with |- _ = rsum n ?F / ?c => change (rsum n F / c) with (rsum n F * / c) end. rewrite <- rsum_scal_r.
    apply rsum_ext. intros i _. field. }
  split; [|split].
  - rewrite EM. exact M.
  - rewrite ET. apply Rabs_def2 in L. apply Rabs_def2 in R0. apply Rabs_def1; lra.
  - rewrite ES, ET, EM. apply Rabs_def2 in L. apply Rabs_def2 in R0. apply Rabs_def2 in M.
    apply Rabs_def1; lra.
Qed.

Lemma rules_lim (V : nat -> R -> R -> (R -> R) -> R) :
  (forall n a b g, (1 <= n)%nat -> V n b a g = - V n a b g) ->
  (forall f a b I, a < b -> is_RInt f a b I -> forall eps, 0 < eps -> exists N, forall n,
     (N <= n)%nat -> (1 <= n)%nat -> Rabs (V n a b f - I) < eps) ->
  forall f a b, ex_RInt f a b -> is_lim_seq (fun n => V (S n) a b f) (RInt f a b).
Proof.
  intros Anti Conv f a b Hex.
  assert (Main : forall a b, a < b -> ex_RInt f a b -> is_lim_seq (fun n => V (S n) a b f) (RInt f a b)).
  { clear a b Hex. intros a b Hab Hex. apply is_lim_seq_spec. intros eps.
    destruct (Conv f a b (RInt f a b) Hab (RInt_correct f a b Hex) eps (cond_pos eps)) as [N HN].
    exists N. intros n Hn. apply HN; lia. }
  destruct (Rtotal_order a b) as [L|[E|G]].
  - apply Main; assumption.
  - subst b. rewrite RInt_point. apply is_lim_seq_ext with (fun _ => 0); [|apply is_lim_seq_const].
    intros n. pose proof (Anti (S n) a a f ltac:(lia)). lra.
  - assert (Hex' : ex_RInt f b a) by (apply ex_RInt_swap; exact Hex).
    specialize (Main b a G Hex'). rewrite <- (opp_RInt_swap f b a Hex').
    apply is_lim_seq_ext with (fun n => - V (S n) b a f).
    { intros n. rewrite (Anti (S n) a b f) by lia. ring. }
    exact (proj1 (is_lim_seq_opp _ _) Main).
Qed.

Lemma midpoint_lim f a b : ex_RInt f a b ->
  is_lim_seq (fun n => midpoint_value (S n) a b f) (RInt f a b).
Proof.
  apply (rules_lim midpoint_value); [intros; apply midpoint_antisym; assumption|].
  intros g x y I Hxy HI eps He. destruct (rules_riemann g x y I Hxy HI eps He) as [N HN].
  exists N. intros n H1 H2. apply (HN n H1 H2).
Qed.
Lemma trapezoid_lim f a b : ex_RInt f a b ->
  is_lim_seq (fun n => trapezoid_value (S n) a b f) (RInt f a b).
Proof.
  apply (rules_lim trapezoid_value); [intros; apply trapezoid_antisym; assumption|].
  intros g x y I Hxy HI eps He. destruct (rules_riemann g x y I Hxy HI eps He) as [N HN].
  exists N. intros n H1 H2. apply (HN n H1 H2).
Qed.
Lemma simpson_lim f a b : ex_RInt f a b ->
  is_lim_seq (fun n => simpson_value (S n) a b f) (RInt f a b).
Proof.
  apply (rules_lim simpson_value); [intros; apply simpson_antisym; assumption|].
  intros g x y I Hxy HI eps He. destruct (rules_riemann g x y I Hxy HI eps He) as [N HN].
  exists N. intros n H1 H2. apply (HN n H1 H2).
Qed.
