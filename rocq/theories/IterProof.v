(** Simulation proofs: the iterators of the data access API are deques. *)
From Coq Require Import ZArith List Lia Arith.
From Verif Require Import Arith Machine Iter IterSpec Rules.
Import ListNotations.

(** A simulation between implementation states and lists. *)
Record Sim {St X} (it : IterImpl St X) (R : St -> list X -> Prop) : Prop := {
  sim_step : forall o s l, R s l ->
    fst (impl_step it o s) = fst (deque_step o l) /\
    R (snd (impl_step it o s)) (snd (deque_step o l));
  sim_count : forall s l, R s l -> it_count it s = length l
}.

Lemma sim_run : forall St X (it : IterImpl St X) R, Sim it R ->
  forall ops s l, R s l ->
    fst (impl_run it ops s) = fst (deque_run ops l) /\
    R (snd (impl_run it ops s)) (snd (deque_run ops l)).
Proof.
  intros St X it R S ops. induction ops as [|o r IH]; intros s l H.
  - split; [reflexivity|exact H].
  - simpl. destruct (sim_step _ _ S o s l H) as [H1 H2].
    destruct (impl_step it o s) as [b s'], (deque_step o l) as [b' l']. simpl in *. subst b'.
    destruct (IH s' l' H2) as [H3 H4].
    destruct (impl_run it r s') as [bs s''], (deque_run r l') as [bs' l'']. simpl in *.
    subst. split; [reflexivity|assumption].
Qed.

Lemma sim_deque : forall St X (it : IterImpl St X) R, Sim it R ->
  forall s l, R s l -> behaves_like_deque it s l.
Proof.
  intros St X it R S s l H ops.
  destruct (sim_run _ _ _ _ S ops s l H) as [H1 H2].
  split; [exact H1|]. split.
  - apply (sim_count _ _ S). exact H2.
  - destruct (sim_step _ _ S ONextBack _ _ H2) as [H3 _]. simpl in H3.
    unfold newtype_last. destruct (it_next_back it _) as [x s'].
    simpl in *. injection H3; intros; assumption.
Qed.

(** Slices. *)
Definition slice_inv {X} (s : SliceIter X) : Prop := lo s <= hi s <= length (buf s).
Definition slice_rel {X} (s : SliceIter X) (l : list X) : Prop :=
  slice_inv s /\ l = slice_as_slice s.

Lemma slice_as_slice_length : forall X (s : SliceIter X), slice_inv s ->
  length (slice_as_slice s) = slice_len s.
Proof.
  intros X s H. unfold slice_as_slice, slice_len, slice_inv in *.
  rewrite firstn_length, skipn_length. lia.
Qed.

Lemma nth_error_firstn' : forall X k n (l : list X), k < n ->
  nth_error (firstn n l) k = nth_error l k.
Proof.
  intros X k. induction k; intros n l H; destruct n, l; try lia; try reflexivity.
  simpl. apply IHk. lia.
Qed.
Lemma nth_error_skipn' : forall X n k (l : list X), nth_error (skipn n l) k = nth_error l (n + k).
Proof.
  intros X n. induction n; intros k l; [reflexivity|].
  destruct l; [destruct k; reflexivity|]. simpl. apply IHn.
Qed.

Lemma slice_nth_error : forall X (s : SliceIter X) k, slice_inv s -> k < slice_len s ->
  nth_error (slice_as_slice s) k = nth_error (buf s) (lo s + k).
Proof.
  intros X s k Hi Hk. unfold slice_as_slice, slice_len in *.
  rewrite nth_error_firstn' by lia. apply nth_error_skipn'.
Qed.

Lemma skipn_skipn : forall X a b (l : list X), skipn a (skipn b l) = skipn (a + b) l.
Proof.
  intros X a b. revert a. induction b; intros a l.
  - rewrite Nat.add_0_r. reflexivity.
  - rewrite Nat.add_succ_r. destruct l; [rewrite skipn_nil; reflexivity|]. simpl. apply IHb.
Qed.

Lemma skipn_firstn_slice : forall X (b : list X) l h k, l + k <= h ->
  skipn k (firstn (h - l) (skipn l b)) = firstn (h - (l + k)) (skipn (l + k) b).
Proof.
  intros X b l h k H. rewrite skipn_firstn_comm, skipn_skipn.
  f_equal; [lia|]. f_equal. lia.
Qed.

Lemma drop_back_firstn : forall X k (l : list X),
  drop_back k l = firstn (length l - k) l.
Proof.
  intros X k l. unfold drop_back. rewrite skipn_rev, rev_involutive. reflexivity.
Qed.

Lemma nth_error_rev : forall X (l : list X) k, k < length l ->
  nth_error (rev l) k = nth_error l (length l - 1 - k).
Proof.
  intros X l k Hk. destruct l as [|d l']; [simpl in Hk; lia|]. set (l := d :: l') in *.
  rewrite (nth_error_nth' (rev l) d) by (rewrite rev_length; exact Hk).
  rewrite (nth_error_nth' l d) by lia.
  f_equal. rewrite rev_nth by exact Hk. f_equal. lia.
Qed.

Lemma nth_error_rev_none : forall X (l : list X) k, length l <= k -> nth_error (rev l) k = None.
Proof. intros. apply nth_error_None. rewrite rev_length. assumption. Qed.

Lemma hd_opt_nth : forall X (l : list X), hd_opt l = nth_error l 0.
Proof. intros X [|x l]; reflexivity. Qed.

(** Jumping forward / backward over k elements and taking the next one. *)
Lemma slice_front : forall X (s : SliceIter X) k, slice_inv s -> k < slice_len s ->
  let s' := {| buf := buf s; lo := S (lo s + k); hi := hi s |} in
  nth_error (buf s) (lo s + k) = nth_error (slice_as_slice s) k /\
  slice_rel s' (drop_front (k + 1) (slice_as_slice s)).
Proof.
  intros X s k Hi Hk s'. split.
  - symmetry. apply slice_nth_error; assumption.
  - unfold slice_rel, slice_inv, slice_len in *. simpl. split; [lia|].
    unfold drop_front, slice_as_slice. rewrite skipn_firstn_slice by lia.
    replace (lo s + (k + 1)) with (S (lo s + k)) by lia. reflexivity.
Qed.

Lemma slice_back : forall X (s : SliceIter X) k, slice_inv s -> k < slice_len s ->
  let s' := {| buf := buf s; lo := lo s; hi := hi s - k - 1 |} in
  nth_error (buf s) (hi s - k - 1) = nth_error (rev (slice_as_slice s)) k /\
  slice_rel s' (drop_back (k + 1) (slice_as_slice s)).
Proof.
  intros X s k Hi Hk s'. pose proof (slice_as_slice_length X s Hi) as L. split.
  - rewrite nth_error_rev by lia. rewrite slice_nth_error by (try assumption; lia).
    f_equal. unfold slice_len, slice_inv in *. lia.
  - unfold slice_rel. unfold slice_inv, slice_len in *. simpl. split; [lia|].
    rewrite drop_back_firstn, L. unfold slice_as_slice. simpl. rewrite firstn_firstn.
    f_equal. lia.
Qed.

Lemma drop_front_all : forall X k (l : list X), length l <= k -> drop_front k l = [].
Proof. intros. apply skipn_all2. assumption. Qed.
Lemma drop_back_all : forall X k (l : list X), length l <= k -> drop_back k l = [].
Proof. intros. rewrite drop_back_firstn. replace (length l - k) with 0 by lia. reflexivity. Qed.

Lemma slice_empty : forall X (s : SliceIter X), slice_inv s -> lo s = hi s -> slice_as_slice s = [].
Proof.
  intros X s H E. apply length_zero_iff_nil. rewrite slice_as_slice_length by assumption.
  unfold slice_len. lia.
Qed.

Lemma slice_next_spec : forall X (s : SliceIter X) l, slice_rel s l ->
  fst (slice_next s) = hd_opt l /\ slice_rel (snd (slice_next s)) (drop_front 1 l).
Proof.
  intros X s l [Hi ->]. unfold slice_next.
  destruct (Nat.ltb_spec (lo s) (hi s)) as [H|H].
  - destruct (slice_front X s 0 Hi) as [H1 H2]; [unfold slice_len; lia|].
    rewrite Nat.add_0_r in *. simpl. rewrite hd_opt_nth. split; assumption.
  - simpl. rewrite slice_empty by (unfold slice_inv in *; lia || assumption).
    split; [reflexivity|]. split; [assumption|]. simpl.
    symmetry. apply slice_empty; unfold slice_inv in *; lia || assumption.
Qed.

Lemma slice_next_back_spec : forall X (s : SliceIter X) l, slice_rel s l ->
  fst (slice_next_back s) = last_opt l /\ slice_rel (snd (slice_next_back s)) (drop_back 1 l).
Proof.
  intros X s l [Hi ->]. unfold slice_next_back.
  destruct (Nat.ltb_spec (lo s) (hi s)) as [H|H].
  - destruct (slice_back X s 0 Hi) as [H1 H2]; [unfold slice_len; lia|].
    rewrite Nat.sub_0_r in *. simpl. unfold last_opt. rewrite hd_opt_nth. split; assumption.
  - simpl. rewrite slice_empty by (unfold slice_inv in *; lia || assumption).
    split; [reflexivity|]. split; [assumption|]. simpl.
    symmetry. apply slice_empty; unfold slice_inv in *; lia || assumption.
Qed.

Lemma slice_nth_spec : forall X k (s : SliceIter X) l, slice_rel s l ->
  fst (slice_nth k s) = nth_error l k /\ slice_rel (snd (slice_nth k s)) (drop_front (k + 1) l).
Proof.
  intros X k s l [Hi ->]. unfold slice_nth.
  pose proof (slice_as_slice_length X s Hi) as L.
  destruct (Nat.leb_spec (slice_len s) k) as [H|H].
  - simpl. split.
    + symmetry. apply nth_error_None. lia.
    + rewrite drop_front_all by lia. split.
      * unfold slice_inv in *. simpl. lia.
      * symmetry. apply slice_empty; [unfold slice_inv in *; simpl; lia|reflexivity].
  - unfold slice_next. simpl.
    replace (lo s + k <? hi s) with true by (symmetry; apply Nat.ltb_lt; unfold slice_len in H; lia).
    simpl. apply slice_front; assumption.
Qed.

Lemma slice_nth_back_spec : forall X k (s : SliceIter X) l, slice_rel s l ->
  fst (slice_nth_back k s) = nth_error (rev l) k /\
  slice_rel (snd (slice_nth_back k s)) (drop_back (k + 1) l).
Proof.
  intros X k s l [Hi ->]. unfold slice_nth_back.
  pose proof (slice_as_slice_length X s Hi) as L.
  destruct (Nat.leb_spec (slice_len s) k) as [H|H].
  - simpl. split.
    + symmetry. apply nth_error_rev_none. lia.
    + rewrite drop_back_all by lia. split.
      * unfold slice_inv in *. simpl. lia.
      * symmetry. apply slice_empty; [unfold slice_inv in *; simpl; lia|reflexivity].
  - unfold slice_next_back. simpl.
    replace (lo s <? hi s - k) with true by (symmetry; apply Nat.ltb_lt; unfold slice_len in H; lia).
    simpl. apply slice_back; assumption.
Qed.

Lemma slice_len_spec : forall X (s : SliceIter X) l, slice_rel s l -> slice_len s = length l.
Proof. intros X s l [Hi ->]. symmetry. apply slice_as_slice_length. exact Hi. Qed.

Lemma pair_eta : forall X Y (p : X * Y), p = (fst p, snd p).
Proof. intros X Y []; reflexivity. Qed.

Lemma sim_slice : forall X, Sim (RuleIter X) slice_rel.
Proof.
  intros X. split.
  - intros o s l H. destruct o as [| |k|k| |]; simpl.
    + destruct (slice_next_spec X s l H) as [H1 H2].
      destruct (slice_next s); simpl in *. subst. split; [reflexivity|assumption].
    + destruct (slice_next_back_spec X s l H) as [H1 H2].
      destruct (slice_next_back s); simpl in *. subst. split; [reflexivity|assumption].
    + destruct (slice_nth_spec X k s l H) as [H1 H2].
      destruct (slice_nth k s); simpl in *. subst. split; [reflexivity|assumption].
    + destruct (slice_nth_back_spec X k s l H) as [H1 H2].
      destruct (slice_nth_back k s); simpl in *. subst. split; [reflexivity|assumption].
    + rewrite (slice_len_spec X s l H). split; [reflexivity|assumption].
    + rewrite (slice_len_spec X s l H). split; [reflexivity|assumption].
  - intros s l H. apply slice_len_spec. exact H.
Qed.

(** vec::IntoIter *)
Lemma into_nth_eq : forall X k (s : SliceIter X), slice_inv s ->
  it_nth (VecIntoIterImpl X) k s = slice_nth k s.
Proof.
  intros X k s Hi. simpl. unfold slice_nth, into_advance.
  unfold slice_inv, slice_len in *. simpl.
  destruct (Nat.leb_spec (hi s - lo s) k) as [H|H].
  - destruct (Nat.leb_spec k (Nat.min (hi s - lo s) k)) as [H'|H'].
    + unfold slice_next. simpl.
      replace (lo s + Nat.min (hi s - lo s) k <? hi s) with false by (symmetry; apply Nat.ltb_ge; lia).
      f_equal. f_equal. lia.
    + f_equal. f_equal. lia.
  - replace (Nat.min (hi s - lo s) k) with k by lia.
    replace (k <=? k) with true by (symmetry; apply Nat.leb_refl). reflexivity.
Qed.

Lemma into_nth_back_eq : forall X k (s : SliceIter X), slice_inv s ->
  it_nth_back (VecIntoIterImpl X) k s = slice_nth_back k s.
Proof.
  intros X k s Hi. simpl. unfold slice_nth_back, into_advance_back.
  unfold slice_inv, slice_len in *. simpl.
  destruct (Nat.leb_spec (hi s - lo s) k) as [H|H].
  - destruct (Nat.leb_spec k (Nat.min (hi s - lo s) k)) as [H'|H'].
    + unfold slice_next_back. simpl.
      replace (lo s <? hi s - Nat.min (hi s - lo s) k) with false by (symmetry; apply Nat.ltb_ge; lia).
      f_equal. f_equal. lia.
    + f_equal. f_equal. lia.
  - replace (Nat.min (hi s - lo s) k) with k by lia.
    replace (k <=? k) with true by (symmetry; apply Nat.leb_refl). reflexivity.
Qed.

Lemma sim_into : forall X, Sim (RuleIntoIter X) slice_rel.
Proof.
  intros X. destruct (sim_slice X) as [S C]. split; [|exact C].
  intros o s l H. specialize (S o s l H).
  destruct o as [| |k|k| |]; try exact S.
  - replace (impl_step (RuleIntoIter X) (ONth k) s) with (impl_step (RuleIter X) (ONth k) s); [exact S|].
    unfold impl_step. change (it_nth (RuleIntoIter X) k s) with (it_nth (VecIntoIterImpl X) k s).
    rewrite into_nth_eq by apply H. reflexivity.
  - replace (impl_step (RuleIntoIter X) (ONthBack k) s) with (impl_step (RuleIter X) (ONthBack k) s); [exact S|].
    unfold impl_step. change (it_nth_back (RuleIntoIter X) k s) with (it_nth_back (VecIntoIterImpl X) k s).
    rewrite into_nth_back_eq by apply H. reflexivity.
Qed.

(** Map over an inner iterator whose [next], [next_back], [len] are deque-like. *)
Section MapSim.
Context {St X Y : Type}.
Variables (next next_back : St -> option X * St) (len : St -> nat) (f : X -> Y).
Variable R : St -> list X -> Prop.
Hypothesis Hnext : forall s l, R s l -> fst (next s) = hd_opt l /\ R (snd (next s)) (drop_front 1 l).
Hypothesis Hnext_back : forall s l, R s l ->
  fst (next_back s) = last_opt l /\ R (snd (next_back s)) (drop_back 1 l).
Hypothesis Hlen : forall s l, R s l -> len s = length l.

Definition map_rel (s : St) (l : list Y) : Prop := exists l0, R s l0 /\ l = map f l0.

Lemma hd_opt_map : forall l, hd_opt (map f l) = option_map f (hd_opt l).
Proof. intros [|x l]; reflexivity. Qed.
Lemma last_opt_map : forall l, last_opt (map f l) = option_map f (last_opt l).
Proof. intros l. unfold last_opt. rewrite <- map_rev. apply hd_opt_map. Qed.
Lemma skipn_map' : forall k l, skipn k (map f l) = map f (skipn k l).
Proof. induction k; intros [|x l]; simpl; auto. Qed.

Lemma m_next : forall s l, map_rel s l ->
  fst (map_fst f (next s)) = hd_opt l /\ map_rel (snd (map_fst f (next s))) (drop_front 1 l).
Proof.
  intros s l (l0 & H & ->). destruct (Hnext s l0 H) as [H1 H2]. split.
  - simpl. rewrite H1. symmetry. apply hd_opt_map.
  - exists (drop_front 1 l0). split; [exact H2|]. unfold drop_front. apply skipn_map'.
Qed.
Lemma m_next_back : forall s l, map_rel s l ->
  fst (map_fst f (next_back s)) = last_opt l /\
  map_rel (snd (map_fst f (next_back s))) (drop_back 1 l).
Proof.
  intros s l (l0 & H & ->). destruct (Hnext_back s l0 H) as [H1 H2]. split.
  - simpl. rewrite H1. symmetry. apply last_opt_map.
  - exists (drop_back 1 l0). split; [exact H2|].
    unfold drop_back. rewrite <- map_rev, skipn_map', map_rev. reflexivity.
Qed.
Lemma m_len : forall s l, map_rel s l -> len s = length l.
Proof. intros s l (l0 & H & ->). rewrite map_length. apply Hlen. exact H. Qed.
End MapSim.

(** Default methods over a deque-like [next]. *)
Section Default.
Context {St Y : Type}.
Variable nx : St -> option Y * St.
Variable R : St -> list Y -> Prop.
Hypothesis Hnx : forall s l, R s l -> fst (nx s) = hd_opt l /\ R (snd (nx s)) (skipn 1 l).

Lemma default_advance_spec : forall k s l, R s l ->
  let r := default_advance nx k s in
  (k <= length l -> fst r = true) /\ (length l < k -> fst r = false) /\ R (snd r) (skipn k l).
Proof.
  induction k; intros s l H; simpl.
  - split; [reflexivity|]. split; [lia|exact H].
  - destruct (Hnx s l H) as [H1 H2].
    destruct (nx s) as [[y|] s'] eqn:E; simpl in *.
    + destruct l as [|x l']; [discriminate H1|]. simpl in *.
      destruct (IHk s' l' H2) as (A1 & A2 & A3). repeat split; intros; try assumption.
      * apply A1; lia.
      * apply A2; lia.
    + destruct l as [|x l']; [|discriminate H1]. simpl in *.
      split; [lia|]. split; [reflexivity|]. exact H2.
Qed.

Lemma default_nth_spec : forall k s l, R s l ->
  fst (default_nth nx k s) = nth_error l k /\ R (snd (default_nth nx k s)) (skipn (k + 1) l).
Proof.
  intros k s l H. unfold default_nth.
  destruct (default_advance_spec k s l H) as (A1 & A2 & A3).
  destruct (default_advance nx k s) as [ok s'] eqn:E. simpl in *.
  destruct (Compare_dec.le_lt_dec k (length l)) as [C|C].
  - rewrite (A1 C). destruct (Hnx s' _ A3) as [H1 H2].
    assert (H2' : R (snd (nx s')) (skipn (1 + k) l)) by (rewrite <- (skipn_skipn _ 1 k l); exact H2).
    clear H2; rename H2' into H2. split.
    + rewrite H1, hd_opt_nth, nth_error_skipn'. f_equal. lia.
    + replace (k + 1) with (1 + k) by lia. exact H2.
  - rewrite (A2 C). simpl. split.
    + symmetry. apply nth_error_None. lia.
    + rewrite skipn_all2 in A3 by lia. rewrite skipn_all2 by lia. exact A3.
Qed.

Lemma drain_spec : forall fuel s l, R s l -> drain nx fuel s = firstn fuel l.
Proof.
  induction fuel; intros s l H; [reflexivity|]. simpl.
  destruct (Hnx s l H) as [H1 H2]. destruct (nx s) as [[y|] s'] eqn:E; simpl in *.
  - destruct l as [|x l']; [discriminate H1|]. injection H1; intros; subst.
    f_equal. apply IHfuel. exact H2.
  - destruct l as [|x l']; [reflexivity|discriminate H1].
Qed.
End Default.

(** Map's default [nth_back]: a deque-like [next_back] is a deque-like [next] of
    the reversed list. *)
Lemma sim_map : forall St X Y (next next_back : St -> option X * St) (len : St -> nat) (f : X -> Y)
    (R : St -> list X -> Prop),
  (forall s l, R s l -> fst (next s) = hd_opt l /\ R (snd (next s)) (drop_front 1 l)) ->
  (forall s l, R s l -> fst (next_back s) = last_opt l /\ R (snd (next_back s)) (drop_back 1 l)) ->
  (forall s l, R s l -> len s = length l) ->
  Sim (Newtype (MapImpl next next_back len f)) (map_rel f R).
Proof.
  intros St X Y next next_back len f R H1 H2 H3.
  pose proof (m_next next f R H1) as M1.
  pose proof (m_next_back next_back f R H2) as M2.
  pose proof (m_len len f R H3) as M3.
  set (Rb := fun s l => map_rel f R s (rev l)).
  assert (Mb : forall s l, Rb s l ->
    fst (map_fst f (next_back s)) = hd_opt l /\ Rb (snd (map_fst f (next_back s))) (skipn 1 l)).
  { intros s l H. destruct (M2 s _ H) as [A1 A2]. unfold last_opt in A1. rewrite rev_involutive in A1.
    split; [exact A1|]. unfold Rb. unfold drop_back in A2. rewrite rev_involutive in A2. exact A2. }
  split.
  - intros o s l H. destruct o as [| |k|k| |].
    + destruct (M1 s l H) as [A1 A2]. simpl. simpl in A1, A2. rewrite A1. split; [reflexivity|exact A2].
    + destruct (M2 s l H) as [A1 A2]. simpl. simpl in A1, A2. rewrite A1. split; [reflexivity|exact A2].
    + destruct (default_nth_spec _ _ M1 k s l H) as [A1 A2]. simpl.
      destruct (default_nth (fun s0 : St => map_fst f (next s0)) k s) as [x s'].
      simpl in *. rewrite A1. split; [reflexivity|exact A2].
    + assert (Hb : Rb s (rev l)) by (unfold Rb; rewrite rev_involutive; exact H).
      destruct (default_nth_spec _ _ Mb k s (rev l) Hb) as [A1 A2]. simpl.
      destruct (default_nth (fun s0 : St => map_fst f (next_back s0)) k s) as [x s'].
      simpl in *. rewrite A1. split; [reflexivity|exact A2].
    + simpl. rewrite (M3 s l H). split; [reflexivity|assumption].
    + simpl. rewrite (M3 s l H). split; [reflexivity|assumption].
  - intros s l H. 
    change (it_count (Newtype (MapImpl next next_back len f)) s)
      with (length (drain (fun s => map_fst f (next s)) (S (len s)) s)).
    rewrite (drain_spec _ _ M1 _ s l H). rewrite (M3 s l H).
    rewrite firstn_all2 by lia. reflexivity.
Qed.

Lemma slice_rel_init : forall X (d : list X), slice_rel (slice_iter d) d.
Proof.
  intros X d. split.
  - unfold slice_inv. simpl. lia.
  - unfold slice_as_slice. simpl. rewrite Nat.sub_0_r. symmetry. apply firstn_all.
Qed.

Lemma iter_deque : forall X (d : list X), behaves_like_deque (RuleIter X) (slice_iter d) d.
Proof. intros. apply (sim_deque _ _ _ _ (sim_slice X)). apply slice_rel_init. Qed.
Lemma into_iter_deque : forall X (d : list X), behaves_like_deque (RuleIntoIter X) (slice_iter d) d.
Proof. intros. apply (sim_deque _ _ _ _ (sim_into X)). apply slice_rel_init. Qed.
Lemma nodes_deque : forall X Y (d : list (X * Y)),
  behaves_like_deque (RuleNodes X Y) (slice_iter d) (map fst d).
Proof.
  intros. eapply sim_deque.
  - apply sim_map.
    + apply slice_next_spec.
    + apply slice_next_back_spec.
    + apply slice_len_spec.
  - exists d. split; [apply slice_rel_init|reflexivity].
Qed.
Lemma weights_deque : forall X Y (d : list (X * Y)),
  behaves_like_deque (RuleWeights X Y) (slice_iter d) (map snd d).
Proof.
  intros. eapply sim_deque.
  - apply sim_map.
    + apply slice_next_spec.
    + apply slice_next_back_spec.
    + apply slice_len_spec.
  - exists d. split; [apply slice_rel_init|reflexivity].
Qed.

Lemma as_slice_run : forall X (d : list X) ops,
  slice_as_slice (snd (impl_run (RuleIter X) ops (slice_iter d))) = snd (deque_run ops d) /\
  slice_as_slice (snd (impl_run (RuleIntoIter X) ops (slice_iter d))) = snd (deque_run ops d).
Proof.
  intros X d ops. split.
  - destruct (sim_run _ _ _ _ (sim_slice X) ops _ _ (slice_rel_init X d)) as [_ [_ H]]. symmetry; exact H.
  - destruct (sim_run _ _ _ _ (sim_into X) ops _ _ (slice_rel_init X d)) as [_ [_ H]]. symmetry; exact H.
Qed.

(** Range<u32> *)
Definition range_rel (s : RangeIter) (l : list Z) : Prop := l = zrange (r_start s) (r_end s).

Lemma zrange_nil : forall a b, (b <= a)%Z -> zrange a b = [].
Proof. intros a b H. unfold zrange. replace (Z.to_nat (b - a)) with 0 by lia. reflexivity. Qed.
Lemma zrange_cons : forall a b, (a < b)%Z -> zrange a b = a :: zrange (a + 1) b.
Proof.
  intros a b H. unfold zrange.
  replace (Z.to_nat (b - a)) with (S (Z.to_nat (b - (a + 1)))) by lia.
  simpl. f_equal; [lia|]. rewrite <- seq_shift, map_map. apply map_ext. intros. lia.
Qed.
Lemma zrange_snoc : forall a b, (a < b)%Z -> zrange a b = zrange a (b - 1) ++ [(b - 1)%Z].
Proof.
  intros a b H. unfold zrange.
  replace (Z.to_nat (b - a)) with (Z.to_nat (b - 1 - a) + 1) by lia.
  rewrite seq_app, map_app. f_equal. simpl. f_equal. lia.
Qed.
Lemma zrange_length : forall a b, length (zrange a b) = Z.to_nat (b - a).
Proof. intros. unfold zrange. rewrite map_length, seq_length. reflexivity. Qed.

Lemma range_next_spec : forall s l, range_rel s l ->
  fst (range_next s) = hd_opt l /\ range_rel (snd (range_next s)) (drop_front 1 l).
Proof.
  intros [a b] l H. unfold range_rel, range_next in *. simpl in *. subst l.
  destruct (Z.ltb_spec a b) as [C|C].
  - rewrite (zrange_cons a b C). simpl. split; reflexivity.
  - rewrite (zrange_nil a b C). simpl. split; [reflexivity|]. symmetry. apply zrange_nil. exact C.
Qed.
Lemma range_next_back_spec : forall s l, range_rel s l ->
  fst (range_next_back s) = last_opt l /\ range_rel (snd (range_next_back s)) (drop_back 1 l).
Proof.
  intros [a b] l H. unfold range_rel, range_next_back in *. simpl in *. subst l.
  destruct (Z.ltb_spec a b) as [C|C].
  - rewrite (zrange_snoc a b C). simpl. unfold last_opt, drop_back.
    rewrite rev_app_distr. simpl. split; [reflexivity|]. apply rev_involutive.
  - rewrite (zrange_nil a b C). simpl. split; [reflexivity|]. symmetry. apply zrange_nil. exact C.
Qed.
Lemma range_len_spec : forall s l, range_rel s l -> range_len s = length l.
Proof. intros s l ->. unfold range_len. symmetry. apply zrange_length. Qed.

Lemma node_rule_deque : forall Y (g : Z -> Y) a b,
  behaves_like_deque (NodeRuleIter g) {| r_start := a; r_end := b |} (map g (zrange a b)).
Proof.
  intros. eapply sim_deque.
  - apply sim_map.
    + apply range_next_spec.
    + apply range_next_back_spec.
    + apply range_len_spec.
  - exists (zrange a b). split; reflexivity.
Qed.

Lemma node_rule_count : forall Y (g : Z -> Y) (d : Z),
  it_count (NodeRuleIter g) {| r_start := 0; r_end := d |} = Z.to_nat d.
Proof.
  intros. destruct (node_rule_deque Y g 0 d []) as (_ & H & _). simpl in *. rewrite H.
  rewrite map_length, zrange_length. f_equal. lia.
Qed.

Lemma node_rule_items_eq : forall (A : Arith) d, @node_rule_items A d = map nofZ (zrange 0 d).
Proof.
  intros A d. unfold node_rule_items.
  rewrite (drain_spec _ (map_rel nofZ range_rel)) with (l := map nofZ (zrange 0 d)).
  - apply firstn_all2. rewrite map_length, zrange_length. lia.
  - intros s l H. apply m_next; [apply range_next_spec|exact H].
  - exists (zrange 0 d). split; reflexivity.
Qed.

(** ** Draining *)
Lemma deque_drain : forall X (l : list X),
  fst (deque_run (repeat ONext (length l + 2)) l) =
  map (fun x => Item (Some x)) l ++ [Item None; Item None].
Proof.
  intros X l. induction l as [|x l IH]; [reflexivity|]. simpl.
  destruct (deque_run (repeat ONext (length l + 2)) l) eqn:E. simpl in *. rewrite IH. reflexivity.
Qed.
Lemma deque_yields : forall St X (it : IterImpl St X) s l, behaves_like_deque it s l -> yields it s l.
Proof.
  intros St X it s l H. unfold yields. destruct (H (repeat ONext (length l + 2))) as [H1 _].
  rewrite H1. apply deque_drain.
Qed.

Lemma views_agree : forall (A : Arith) (p : Pairs A),
  yields (RuleIter (A * A)) (rule_iter p) p /\
  yields (RuleIter (A * A)) (rule_ref_into_iter p) p /\
  yields (RuleIntoIter (A * A)) (rule_into_iter p) p /\
  yields (RuleNodes A A) (rule_nodes p) (map fst p) /\
  yields (RuleWeights A A) (rule_weights p) (map snd p) /\
  rule_as_node_weight_pairs p = p /\
  rule_into_node_weight_pairs p = p /\
  rule_degree p = length p.
Proof.
  intros A p. repeat split; try apply deque_yields.
  - apply iter_deque.
  - apply iter_deque.
  - apply into_iter_deque.
  - apply (nodes_deque A A p).
  - apply (weights_deque A A p).
Qed.

Lemma views_deque : forall (A : Arith) (p : Pairs A),
  behaves_like_deque (RuleIter (A * A)) (rule_iter p) p /\
  behaves_like_deque (RuleIter (A * A)) (rule_ref_into_iter p) p /\
  behaves_like_deque (RuleIntoIter (A * A)) (rule_into_iter p) p /\
  behaves_like_deque (RuleNodes A A) (rule_nodes p) (map fst p) /\
  behaves_like_deque (RuleWeights A A) (rule_weights p) (map snd p).
Proof.
  intros A p. split; [|split; [|split; [|split]]].
  - apply iter_deque.
  - apply iter_deque.
  - apply into_iter_deque.
  - apply (nodes_deque A A p).
  - apply (weights_deque A A p).
Qed.
