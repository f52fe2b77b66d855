(** The Golub-Welsch driver: the matrix, the shape and order of the result. *)
From Coq Require Import List Arith Bool ZArith Lia Permutation Sorted Reals.
From Flocq Require Import Core IEEE754.Binary.
From Verif Require Import Arith F64 RInst Machine Rules GolubWelsch GWSpec.
Import ListNotations.

Section Mat.
Context {A : Arith}.

Lemma list_set_ok : forall X (l : list X) i v d, i < length l ->
  exists l', list_set l i v = Ok l' /\ length l' = length l /\
  forall j, nth j l' d = if j =? i then v else nth j l d.
Proof.
  induction l as [|x l IH]; intros i v d H; simpl in H; [lia|].
  destruct i as [|i]; simpl.
  - exists (v :: l). repeat split. intros [|j]; reflexivity.
  - destruct (IH i v d) as (l' & -> & L & N); [lia|]. simpl.
    exists (x :: l'). split; [reflexivity|]. split; [simpl; congruence|].
    intros [|j]; [reflexivity|]. simpl. apply N.
Qed.

Lemma mat_set_ok : forall n (m : list (list A)) i j v, square n m -> i < n -> j < n ->
  exists m', mat_set m i j v = Ok m' /\ square n m' /\
  forall k l, entry m' k l = if (k =? i) && (l =? j) then v else entry m k l.
Proof.
  intros n m i j v [L F] Hi Hj. unfold mat_set.
  destruct (nth_error m i) as [row|] eqn:E.
  2: { apply nth_error_None in E. lia. }
  assert (Hrow : length row = n).
  { apply nth_error_In in E. rewrite Forall_forall in F. apply F. exact E. }
  destruct (list_set_ok A row j v lit0) as (row' & E1 & L1 & N1); [lia|].
  rewrite E1. cbn [bind].
  destruct (list_set_ok (list A) m i row' []) as (m' & E2 & L2 & N2); [lia|].
  exists m'. split; [exact E2|]. split.
  - split; [lia|]. apply Forall_forall. intros r Hr.
    apply (In_nth _ _ []) in Hr. destruct Hr as (k & Hk & <-). rewrite N2.
    destruct (Nat.eqb_spec k i); [lia|].
    rewrite Forall_forall in F. apply F. apply nth_In. lia.
  - intros k l. unfold entry. rewrite N2.
    assert (R : nth i m [] = row) by (apply nth_error_nth with (1 := E)).
    destruct (Nat.eqb_spec k i) as [->|]; simpl; [|reflexivity].
    rewrite N1, R. reflexivity.
Qed.

Lemma zeros_square : forall n, square n (@zeros A n).
Proof.
  intros n. unfold zeros. split; [apply repeat_length|].
  apply Forall_forall. intros r Hr. apply repeat_spec in Hr. subst. apply repeat_length.
Qed.
Lemma nth_repeat' : forall X (x d : X) n i, nth i (repeat x n) d = if i <? n then x else d.
Proof.
  induction n; intros [|i]; simpl; try reflexivity. rewrite IHn. reflexivity.
Qed.
Lemma zeros_entry : forall n i j, entry (@zeros A n) i j = lit0.
Proof.
  intros. unfold entry, zeros. rewrite nth_repeat'. destruct (i <? n); [|destruct j; reflexivity].
  rewrite nth_repeat'. destruct (j <? n); reflexivity.
Qed.

(* the matrix after the loop has run for the indices below k *)
Definition partial_tri (diag off : nat -> A) (k i j : nat) : A :=
  if i =? j then (if i <? k then diag i else lit0)
  else if j =? i + 1 then (if i <? k then off i else lit0)
  else if i =? j + 1 then (if j <? k then off j else lit0)
  else lit0.

Lemma fill_loop_ok : forall n diag off cnt k (m : list (list A)), square n m -> k + cnt < n ->
  (forall i j, entry m i j = partial_tri diag off k i j) ->
  exists m', fill_loop diag off (seq k cnt) m = Ok m' /\ square n m' /\
  forall i j, entry m' i j = partial_tri diag off (k + cnt) i j.
Proof.
  intros n diag off cnt. induction cnt as [|cnt IH]; intros k m Sq Hk E.
  - exists m. simpl. rewrite Nat.add_0_r. auto.
  - simpl. unfold fill_step.
    destruct (mat_set_ok n m k k (diag k) Sq) as (m1 & -> & S1 & E1); [lia..|]. cbn [bind].
    destruct (mat_set_ok n m1 k (k + 1) (off k) S1) as (m2 & -> & S2 & E2); [lia..|]. cbn [bind].
    destruct (mat_set_ok n m2 (k + 1) k (off k) S2) as (m3 & -> & S3 & E3); [lia..|]. cbn [bind].
    replace (k + S cnt) with (S k + cnt) by lia. apply IH; [exact S3|lia|].
    intros i j. rewrite E3, E2, E1, E. unfold partial_tri.
    repeat match goal with
    | |- context [?x =? ?y] => destruct (Nat.eqb_spec x y); try (exfalso; lia); simpl
    | |- context [?x <? ?y] => destruct (Nat.ltb_spec x y); try (exfalso; lia); simpl
    end; subst; try reflexivity; try (exfalso; lia).
Qed.

Lemma companion_ok : forall n diag off, 1 <= n ->
  exists m : list (list A), companion_matrix n diag off = Ok m /\ square n m /\
  forall i j, i < n -> j < n -> entry m i j = tridiagonal diag off i j.
Proof.
  intros n diag off Hn. unfold companion_matrix.
  destruct (fill_loop_ok n diag off (n - 1) 0 (zeros n) (zeros_square n)) as (m1 & -> & S1 & E1).
  - lia.
  - intros i j. rewrite zeros_entry. unfold partial_tri.
    destruct (i =? j), (j =? i + 1), (i =? j + 1); reflexivity.
  - cbn [bind]. destruct (mat_set_ok n m1 (n - 1) (n - 1) (diag (n - 1)) S1) as (m2 & E2 & S2 & F2); [lia..|].
    exists m2. split; [exact E2|]. split; [exact S2|].
    intros i j Hi Hj. rewrite F2, E1. unfold partial_tri, tridiagonal.
    repeat match goal with
    | |- context [?x =? ?y] => destruct (Nat.eqb_spec x y); try (exfalso; lia); simpl
    | |- context [?x <? ?y] => destruct (Nat.ltb_spec x y); try (exfalso; lia); simpl
    end; subst; try reflexivity; try (exfalso; lia).
Qed.

(** two square matrices with the same entries are equal *)
Lemma square_ext : forall n (m m' : list (list A)), square n m -> square n m' ->
  (forall i j, i < n -> j < n -> entry m i j = entry m' i j) -> m = m'.
Proof.
  intros n m m' [L F] [L' F'] E. apply (nth_ext _ _ [] []); [congruence|].
  intros i Hi. apply (nth_ext _ _ lit0 lit0).
  - rewrite Forall_forall in F, F'. rewrite F, F'; [reflexivity| |]; apply nth_In; lia.
  - intros j Hj. apply E; [lia|]. rewrite Forall_forall in F. rewrite F in Hj; [exact Hj|]. apply nth_In; lia.
Qed.

Lemma companion_uses : forall n diag off diag' off', 1 <= n ->
  (forall i, i < n -> diag i = diag' i) -> (forall i, i < n - 1 -> off i = off' i) ->
  companion_matrix n diag off = companion_matrix (A := A) n diag' off'.
Proof.
  intros n diag off diag' off' Hn Hd Ho.
  destruct (companion_ok n diag off Hn) as (m & -> & S & E).
  destruct (companion_ok n diag' off' Hn) as (m' & -> & S' & E').
  f_equal. apply (square_ext n); [assumption..|].
  intros i j Hi Hj. rewrite E, E' by assumption. unfold tridiagonal.
  destruct (Nat.eqb_spec i j); [apply Hd; lia|].
  destruct (Nat.eqb_spec j (i + 1)); [apply Ho; lia|].
  destruct (Nat.eqb_spec i (j + 1)); [apply Ho; lia|]. reflexivity.
Qed.

(** ** The result: shape, order, contents *)
Lemma gw_ok : forall ext n diag off scale, 1 <= n -> shape_preserving ext ->
  exists m row0 rest ps, companion_matrix n diag off = Ok m /\ square n m /\
    snd (symmetric_eigen ext m) = row0 :: rest /\ length row0 = n /\
    golub_welsch (A := A) ext n diag off scale = Ok ps /\
    ps = sort_unstable_by ext (fun p q => ntotal_cmp (fst p) (fst q))
           (combine (fst (symmetric_eigen ext m)) (map (fun x => nmul (nmul x x) scale) row0)).
Proof.
  intros ext n diag off scale Hn Sh.
  destruct (companion_ok n diag off Hn) as (m & E & S & _).
  destruct (Sh n m S) as [L1 [L2 F2]].
  destruct (symmetric_eigen ext m) as [ev vecs] eqn:Eig. simpl in L1, L2, F2.
  destruct vecs as [|row0 rest]; [simpl in L2; lia|].
  assert (Hrow : length row0 = n) by (inversion F2; assumption).
  exists m, row0, rest. rewrite Eig.
  eexists. repeat split; try reflexivity; try assumption; try apply S.
  unfold golub_welsch. rewrite E. cbn [bind]. rewrite Eig. reflexivity.
Qed.

Lemma gw_degree : forall ext n diag off scale ps, 1 <= n -> shape_preserving ext -> sorts ext ->
  golub_welsch (A := A) ext n diag off scale = Ok ps -> length ps = n.
Proof.
  intros ext n diag off scale ps Hn Sh So E.
  destruct (gw_ok ext n diag off scale Hn Sh) as (m & row0 & rest & ps' & E1 & S1 & E2 & L & E3 & ->).
  rewrite E3 in E. injection E; intros <-. destruct (Sh n m S1) as [L1 _].
  destruct (So (fun p q => ntotal_cmp (fst p) (fst q))
     (combine (fst (symmetric_eigen ext m)) (map (fun x => nmul (nmul x x) scale) row0))) as [P _].
  rewrite (Permutation_length P), combine_length, map_length. lia.
Qed.
Lemma gw_total : forall ext n diag off scale, 1 <= n -> shape_preserving ext ->
  exists ps, golub_welsch (A := A) ext n diag off scale = Ok ps.
Proof.
  intros ext n diag off scale Hn Sh.
  destruct (gw_ok ext n diag off scale Hn Sh) as (m & row0 & rest & ps' & _ & _ & _ & _ & E & _).
  exists ps'. exact E.
Qed.
End Mat.

(** ** total_cmp is a total preorder in both instances *)
Lemma zcompare_preorder : forall X (key : X -> Z),
  total_preorder (fun x y => (key x ?= key y)%Z).
Proof.
  intros X key. split.
  - intros x y. apply Z.compare_antisym.
  - intros x y z H1 H2. apply Z.compare_ngt_iff in H1. apply Z.compare_ngt_iff in H2.
    apply Z.compare_ngt_iff. lia.
Qed.
Lemma f64_total_preorder : forall be, total_preorder (@ntotal_cmp (F64 be)).
Proof. intros be. exact (zcompare_preorder f64 f64_key). Qed.
Lemma R_total_preorder : total_preorder (@ntotal_cmp RA).
Proof.
  split.
  - intros x y. simpl. apply Rcompare_sym.
  - intros x y z H1 H2. simpl in *. apply Rcompare_not_Gt_inv in H1. apply Rcompare_not_Gt_inv in H2.
    apply Rcompare_not_Gt. apply Rle_trans with y; assumption.
Qed.
Lemma preorder_fst : forall X Y (cmp : X -> X -> comparison), total_preorder cmp ->
  total_preorder (fun p q : X * Y => cmp (fst p) (fst q)).
Proof. intros X Y cmp [H1 H2]. split; intros; [apply H1|eapply H2; eassumption]. Qed.

Lemma gw_sorted : forall (A : Arith) (ext : Linalg A) n diag off scale ps, 1 <= n ->
  total_preorder (@ntotal_cmp A) -> shape_preserving ext -> sorts ext ->
  golub_welsch ext n diag off scale = Ok ps ->
  ascending ps /\
  exists m row0 rest, companion_matrix n diag off = Ok m /\
    snd (symmetric_eigen ext m) = row0 :: rest /\
    Permutation ps (combine (fst (symmetric_eigen ext m)) (map (fun x => nmul (nmul x x) scale) row0)).
Proof.
  intros A ext n diag off scale ps Hn Ht Sh So E.
  destruct (gw_ok ext n diag off scale Hn Sh) as (m & row0 & rest & ps' & E1 & S1 & E2 & L & E3 & E4).
  rewrite E3 in E. injection E; intros <-. clear E.
  destruct (So (fun p q => ntotal_cmp (fst p) (fst q))
     (combine (fst (symmetric_eigen ext m)) (map (fun x => nmul (nmul x x) scale) row0))) as [P Sd].
  rewrite <- E4 in *. split.
  - apply Sd. apply (preorder_fst A A). exact Ht.
  - exists m, row0, rest. auto.
Qed.

(** ** The oracle hypotheses can be met: insertion sort, identity vectors *)
Section Concrete.
Context {A : Arith}.
Fixpoint insert {X} (cmp : X -> X -> comparison) (x : X) (l : list X) : list X :=
  match l with
  | [] => [x]
  | y :: r => match cmp x y with Gt => y :: insert cmp x r | _ => x :: l end
  end.
Definition insertion_sort {X} (cmp : X -> X -> comparison) (l : list X) : list X :=
  fold_right (insert cmp) [] l.
Definition toy_linalg : Linalg A := {|
  symmetric_eigen := fun m => (map (fun _ => lit0) m, m);
  sort_unstable_by := fun cmp l => insertion_sort cmp l
|}.
Lemma insert_perm : forall X cmp (x : X) l, Permutation (insert cmp x l) (x :: l).
Proof.
  intros X cmp x l. induction l as [|y l IH]; simpl; [reflexivity|].
  destruct (cmp x y); try reflexivity. rewrite IH. apply perm_swap.
Qed.
Lemma insertion_sort_perm : forall X cmp (l : list X), Permutation (insertion_sort cmp l) l.
Proof.
  intros X cmp l. induction l as [|x l IH]; simpl; [reflexivity|].
  rewrite insert_perm, IH. reflexivity.
Qed.
Lemma insert_sorted : forall X cmp (x : X) l, total_preorder cmp ->
  StronglySorted (fun p q => cmp p q <> Gt) l -> StronglySorted (fun p q => cmp p q <> Gt) (insert cmp x l).
Proof.
  intros X cmp x l [Hs Ht] H. induction H as [|y l Hl IH F]; simpl.
  - constructor; [constructor|constructor].
  - destruct (cmp x y) eqn:E.
    + constructor; [constructor; assumption|]. constructor; [congruence|].
      eapply Forall_impl; [|exact F]. intros z Hz. apply (Ht x y z); [congruence|exact Hz].
    + constructor; [constructor; assumption|]. constructor; [congruence|].
      eapply Forall_impl; [|exact F]. intros z Hz. apply (Ht x y z); [congruence|exact Hz].
    + constructor; [exact IH|]. apply (Permutation_Forall (Permutation_sym (insert_perm X cmp x l))).
      constructor; [|exact F]. rewrite Hs, E. discriminate.
Qed.
Lemma insertion_sort_sorted : forall X cmp (l : list X), total_preorder cmp ->
  StronglySorted (fun p q => cmp p q <> Gt) (insertion_sort cmp l).
Proof.
  intros X cmp l H. induction l; simpl; [constructor|]. apply insert_sorted; assumption.
Qed.
Lemma toy_sorts : sorts toy_linalg.
Proof. intros cmp l. split; [apply insertion_sort_perm|]. intros H. apply insertion_sort_sorted. exact H. Qed.
Lemma toy_shape : shape_preserving toy_linalg.
Proof. intros n m S. split; [|exact S]. simpl. rewrite map_length. apply S. Qed.
End Concrete.
