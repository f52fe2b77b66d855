(** Finite sums of reals. *)
From Coq Require Import Reals Lra Lia List ZArith.
Import ListNotations.
Local Open Scope R_scope.

(** [rsum n f = f 0 + f 1 + ... + f (n-1)]. *)
Fixpoint rsum (n : nat) (f : nat -> R) : R :=
  match n with
  | O => 0
  | S k => rsum k f + f k
  end.

(** Sum of a list of reals. *)
Fixpoint lsum (l : list R) : R :=
  match l with
  | [] => 0
  | x :: r => x + lsum r
  end.

Lemma rsum_S : forall n f, rsum (S n) f = rsum n f + f n.
Proof. reflexivity. Qed.

Lemma rsum_ext : forall n f g, (forall i, (i < n)%nat -> f i = g i) -> rsum n f = rsum n g.
Proof. induction n; intros f g H; simpl; [reflexivity|]. rewrite (IHn f g), H by auto with arith. reflexivity. Qed.

Lemma rsum_plus : forall n f g, rsum n (fun i => f i + g i) = rsum n f + rsum n g.
Proof. induction n; intros; simpl; [ring|]. rewrite IHn. ring. Qed.
Lemma rsum_minus : forall n f g, rsum n (fun i => f i - g i) = rsum n f - rsum n g.
Proof. induction n; intros; simpl; [ring|]. rewrite IHn. ring. Qed.
Lemma rsum_opp : forall n f, rsum n (fun i => - f i) = - rsum n f.
Proof. induction n; intros; simpl; [ring|]. rewrite IHn. ring. Qed.
Lemma rsum_scal : forall n c f, rsum n (fun i => c * f i) = c * rsum n f.
Proof. induction n; intros; simpl; [ring|]. rewrite IHn. ring. Qed.
Lemma rsum_scal_r : forall n c f, rsum n (fun i => f i * c) = rsum n f * c.
Proof. induction n; intros; simpl; [ring|]. rewrite IHn. ring. Qed.
Lemma rsum_const : forall n c, rsum n (fun _ => c) = INR n * c.
Proof. induction n; intros; [simpl; ring|]. rewrite S_INR. simpl. rewrite IHn. ring. Qed.
Lemma rsum_0 : forall n, rsum n (fun _ => 0) = 0.
Proof. intros. rewrite rsum_const. ring. Qed.
Lemma rsum_eq0 : forall n f, (forall i, (i < n)%nat -> f i = 0) -> rsum n f = 0.
Proof. intros n f H. rewrite <- (rsum_0 n). apply rsum_ext. exact H. Qed.

(** Separate the first term. *)
Lemma rsum_first : forall n f, rsum (S n) f = f O + rsum n (fun i => f (S i)).
Proof. induction n; intros f; [simpl; ring|]. simpl in *. rewrite IHn. ring. Qed.

Lemma rsum_add : forall n m f, rsum (n + m) f = rsum n f + rsum m (fun i => f (n + i)%nat).
Proof.
  intros n m f. induction m; [rewrite Nat.add_0_r; simpl; ring|].
  rewrite Nat.add_succ_r. simpl. rewrite IHm. ring.
Qed.

Lemma rsum_rev : forall n f, rsum n f = rsum n (fun i => f (n - 1 - i)%nat).
Proof.
  induction n; intros f; [reflexivity|].
  rewrite (rsum_first n (fun i => f (S n - 1 - i)%nat)).
  change (rsum (S n) f) with (rsum n f + f n). rewrite (IHn f).
  replace (S n - 1 - 0)%nat with n by lia. rewrite Rplus_comm. f_equal.
  apply rsum_ext. intros i Hi. f_equal. lia.
Qed.

Lemma rsum_telescope : forall n f, rsum n (fun i => f (S i) - f i) = f n - f O.
Proof. induction n; intros; simpl; [ring|]. rewrite IHn. ring. Qed.

Lemma rsum_le : forall n f g, (forall i, (i < n)%nat -> f i <= g i) -> rsum n f <= rsum n g.
Proof.
  induction n; intros f g H; simpl; [lra|]. apply Rplus_le_compat; [apply IHn|apply H]; auto with arith.
Qed.
Lemma rsum_nonneg : forall n f, (forall i, (i < n)%nat -> 0 <= f i) -> 0 <= rsum n f.
Proof. intros. rewrite <- (rsum_0 n). apply rsum_le. assumption. Qed.
Lemma rsum_pos : forall n f, (0 < n)%nat -> (forall i, (i < n)%nat -> 0 < f i) -> 0 < rsum n f.
Proof.
  intros n f Hn H. destruct n; [lia|]. simpl.
  apply Rplus_le_lt_0_compat; [apply rsum_nonneg; intros; apply Rlt_le; auto|auto].
Qed.
Lemma rsum_abs : forall n f, Rabs (rsum n f) <= rsum n (fun i => Rabs (f i)).
Proof.
  induction n; intros; simpl; [rewrite Rabs_R0; lra|].
  eapply Rle_trans; [apply Rabs_triang|]. apply Rplus_le_compat_r. apply IHn.
Qed.
Lemma rsum_abs_le : forall n f c, (forall i, (i < n)%nat -> Rabs (f i) <= c) ->
  Rabs (rsum n f) <= INR n * c.
Proof.
  intros. eapply Rle_trans; [apply rsum_abs|]. rewrite <- rsum_const. apply rsum_le. assumption.
Qed.

Lemma rsum_swap : forall n m (f : nat -> nat -> R),
  rsum n (fun i => rsum m (fun j => f i j)) = rsum m (fun j => rsum n (fun i => f i j)).
Proof.
  induction n; intros m f; simpl.
  - symmetry. apply rsum_0.
  - rewrite IHn, <- rsum_plus. reflexivity.
Qed.

Lemma rsum_delta : forall n k (f : nat -> R), (k < n)%nat ->
  rsum n (fun i => if Nat.eqb i k then f i else 0) = f k.
Proof.
  induction n; intros k f H; [lia|]. simpl.
  destruct (Nat.eq_dec k n) as [->|E].
  - rewrite Nat.eqb_refl, rsum_eq0; [ring|].
    intros i Hi. replace (Nat.eqb i n) with false; [reflexivity|]. symmetry. apply Nat.eqb_neq. lia.
  - rewrite IHn by lia. replace (Nat.eqb n k) with false by (symmetry; apply Nat.eqb_neq; lia). ring.
Qed.

(** Sums of lists. *)
Lemma lsum_app : forall l m, lsum (l ++ m) = lsum l + lsum m.
Proof. induction l; intros; simpl; [ring|]. rewrite IHl. ring. Qed.
Lemma fold_left_Rplus : forall l x, fold_left Rplus l x = x + lsum l.
Proof. induction l; intros; simpl; [ring|]. rewrite IHl. ring. Qed.
Lemma lsum_map_seq : forall (g : nat -> R) n k, lsum (map g (seq k n)) = rsum n (fun i => g (k + i)%nat).
Proof.
  intros g n. induction n; intros k; [reflexivity|].
  rewrite rsum_first. simpl seq. simpl map. simpl lsum. rewrite Nat.add_0_r. f_equal.
  rewrite IHn. apply rsum_ext. intros. f_equal. lia.
Qed.
Lemma lsum_map_ext : forall X (f g : X -> R) l, (forall x, In x l -> f x = g x) ->
  lsum (map f l) = lsum (map g l).
Proof. induction l; intros H; simpl; [reflexivity|]. rewrite H by (left; reflexivity). f_equal. apply IHl. intros; apply H; right; assumption. Qed.
Lemma lsum_map_plus : forall X (f g : X -> R) l, lsum (map (fun x => f x + g x) l) = lsum (map f l) + lsum (map g l).
Proof. induction l; simpl; [ring|]. rewrite IHl. ring. Qed.
Lemma lsum_map_scal : forall X c (f : X -> R) l, lsum (map (fun x => c * f x) l) = c * lsum (map f l).
Proof. induction l; simpl; [ring|]. rewrite IHl. ring. Qed.
Lemma lsum_rev : forall l, lsum (rev l) = lsum l.
Proof. induction l; simpl; [reflexivity|]. rewrite lsum_app, IHl. simpl. ring. Qed.
