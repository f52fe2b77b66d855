(** Every symmetric tridiagonal matrix with non-zero off-diagonal has an exact
    orthonormal eigendecomposition: roots of the recurrence polynomials. *)
From Coq Require Import Reals Lra Lia List Arith.
From Coquelicot Require Import Coquelicot.
From Verif Require Import Arith RInst RSum PolySpec PolyProof Machine GolubWelsch GWSpec GWProof EigenSpec EigenProof Improper.
Import ListNotations.
Local Open Scope R_scope.

Lemma finite_choice : forall X (d : X) n (Q : nat -> X -> Prop), (forall i, (i < n)%nat -> exists x, Q i x) ->
  exists s, forall i, (i < n)%nat -> Q i (s i).
Proof.
  intros X d n Q. induction n; intros H; [exists (fun _ => d); lia|].
  destruct IHn as [s Hs]; [intros; apply H; lia|]. destruct (H n ltac:(lia)) as [x Hx].
  exists (fun i => if Nat.eqb i n then x else s i). intros i Hi. destruct (Nat.eqb_spec i n); [subst; exact Hx|].
  apply Hs. lia.
Qed.

(** factor theorem *)
Lemma poly_factor : forall c d f, polynomial d f -> exists g, polynomial (pred d) g /\ forall x, f x = f c + (x - c) * g x.
Proof.
  intros c d. induction d; intros f [k Hk].
  - exists (fun _ => 0). split; [apply poly_const|]. intros x. rewrite !Hk. simpl. ring.
  - assert (Hf1 : polynomial d (fun x => rsum (S d) (fun i => k (S i) * x ^ i))) by (exists (fun i => k (S i)); reflexivity).
    destruct (IHd _ Hf1) as (g & Hg & E). set (f1 := fun x => rsum (S d) (fun i => k (S i) * x ^ i)) in *.
    assert (E' : forall x, f1 x = f1 c + (x - c) * g x) by exact E.
    assert (F : forall x, f x = k O + x * f1 x).
    { intros x. rewrite Hk, rsum_first. unfold f1. rewrite <- rsum_scal. simpl pow at 1. f_equal; [ring|].
      apply rsum_ext. intros. simpl. ring. }
    destruct d.
    + exists (fun _ => f1 c). split; [apply poly_const|]. intros x. rewrite !F.
      assert (E2 : f1 x = f1 c) by (unfold f1; simpl; ring). rewrite E2. ring.
    + exists (fun x => f1 c + x * g x). split.
      * apply poly_add; [apply poly_const|]. simpl. apply poly_mulx. exact Hg.
      * intros x. rewrite !F. rewrite (E' x). ring.
Qed.

Lemma poly_zero : forall d f (r : nat -> R), polynomial d f ->
  (forall i j, (i < j)%nat -> (j <= d)%nat -> r i <> r j) -> (forall i, (i <= d)%nat -> f (r i) = 0) -> forall x, f x = 0.
Proof.
  induction d; intros f r Hf Hr Hz x.
  - destruct Hf as [k Hk]. specialize (Hz O (le_n _)). rewrite Hk in *. simpl in *. lra.
  - destruct (poly_factor (r (S d)) _ f Hf) as (g & Hg & E). simpl in Hg.
    rewrite E, Hz by lia. rewrite (IHd g r Hg).
    + ring.
    + intros; apply Hr; lia.
    + intros i Hi. assert (Z := Hz i ltac:(lia)). rewrite E, Hz in Z by lia.
      assert (N := Hr i (S d) ltac:(lia) ltac:(lia)). rewrite Rplus_0_l in Z. apply Rmult_integral in Z. destruct Z; [lra|assumption].
Qed.

(** product of x - r i *)
Fixpoint rprod (n : nat) (r : nat -> R) (x : R) : R :=
  match n with O => 1 | S k => rprod k r x * (x - r k) end.
Lemma rprod_lead : forall n r, polynomial n (fun x => rprod (S n) r x - x ^ S n).
Proof.
  induction n; intros r; [simpl; apply (poly_ext 0 (fun _ => - r O)); [intros; ring|apply poly_const]|].
  change (rprod (S (S n)) r) with (fun x => rprod (S n) r x * (x - r (S n))).
  apply (poly_ext (S n) (fun x => x * (rprod (S n) r x - x ^ S n) + (- r (S n)) * ((rprod (S n) r x - x ^ S n) + x ^ S n))).
  - intros x. simpl. ring.
  - apply poly_add; [apply poly_mulx, IHn|]. apply poly_scal. apply poly_add; [apply (poly_weaken n); [lia|apply IHn]|apply poly_pow].
Qed.
Lemma rprod_root : forall n r i, (i < n)%nat -> rprod n r (r i) = 0.
Proof.
  induction n; intros r i Hi; [lia|]. simpl. destruct (Nat.eq_dec i n) as [->|]; [ring|]. rewrite IHn by lia. ring.
Qed.
Lemma sign_prod : forall k r i x, (i <= k)%nat -> (forall j, (j < i)%nat -> r j < x) ->
  (forall j, (i <= j)%nat -> (j < k)%nat -> x < r j) -> 0 < (-1) ^ (k - i) * rprod k r x.
Proof.
  induction k; intros r i x Hi Hlo Hhi.
  - replace (0 - i)%nat with O by lia. simpl. lra.
  - simpl rprod. destruct (Nat.eq_dec i (S k)) as [->|N].
    + rewrite Nat.sub_diag. simpl pow. assert (G := IHk r k x (le_n _) ltac:(intros; apply Hlo; lia) ltac:(intros; lia)).
      rewrite Nat.sub_diag in G. simpl pow in G. assert (L := Hlo k ltac:(lia)). nra.
    + replace (S k - i)%nat with (S (k - i)) by lia. simpl pow.
      assert (G := IHk r i x ltac:(lia) Hlo ltac:(intros; apply Hhi; lia)). assert (L := Hhi k ltac:(lia) ltac:(lia)).
      replace (-1 * (-1) ^ (k - i) * (rprod k r x * (x - r k))) with (((-1) ^ (k - i) * rprod k r x) * (r k - x)) by ring.
      apply Rmult_lt_0_compat; lra.
Qed.

(** monic polynomials far away *)
Lemma pow_abs_le : forall x i n, 1 <= Rabs x -> (i <= n)%nat -> Rabs (x ^ i) <= Rabs x ^ n.
Proof. intros. rewrite <- RPow_abs. apply Rle_pow; assumption. Qed.
Lemma far : forall n f, polynomial n (fun x => f x - x ^ S n) -> exists M, 0 < M /\
  (forall x, M <= x -> 0 < f x) /\ (forall x, x <= - M -> 0 < (-1) ^ S n * f x).
Proof.
  intros n f [c Hc]. set (C := rsum (S n) (fun i => Rabs (c i))).
  assert (HC : 0 <= C) by (apply rsum_nonneg; intros; apply Rabs_pos).
  exists (C + 1). split; [lra|].
  assert (B : forall x, C + 1 <= Rabs x -> Rabs (f x - x ^ S n) < Rabs x ^ S n).
  { intros x Hx. rewrite Hc. eapply Rle_lt_trans; [apply rsum_abs|].
    apply (Rle_lt_trans _ (rsum (S n) (fun i => Rabs (c i) * Rabs x ^ n))).
    - apply rsum_le. intros i Hi. rewrite Rabs_mult. apply Rmult_le_compat_l; [apply Rabs_pos|]. apply pow_abs_le; [lra|lia].
    - rewrite rsum_scal_r. fold C. simpl. apply Rmult_lt_compat_r; [apply pow_lt; lra|lra]. }
  split; intros x Hx.
  - assert (Ea : Rabs x = x) by (apply Rabs_right; lra). specialize (B x ltac:(lra)). rewrite Ea in B.
    apply Rabs_def2 in B. lra.
  - assert (Ea : Rabs x = - x) by (apply Rabs_left; lra). specialize (B x ltac:(lra)).
    assert (Ep : (-1) ^ S n * x ^ S n = Rabs x ^ S n) by (rewrite <- Rpow_mult_distr, Ea; f_equal; ring).
    assert (Ab : Rabs ((-1) ^ S n * (f x - x ^ S n)) < Rabs x ^ S n).
    { rewrite Rabs_mult. rewrite <- RPow_abs. replace (Rabs (-1)) with 1 by (rewrite Rabs_left; lra). rewrite pow1, Rmult_1_l. exact B. }
    apply Rabs_def2 in Ab. rewrite Rmult_minus_distr_l in Ab. lra.
Qed.

Lemma root_between : forall d f u v, polynomial d f -> u < v -> f u * f v < 0 -> exists x, u < x < v /\ f x = 0.
Proof.
  intros d f u v Hf Huv Hs.
  destruct (IVT_cor f u v) as (z & Hz & E).
  - intros x. apply continuity_pt_filterlim. apply (poly_cont d f x Hf).
  - lra.
  - lra.
  - exists z. split; [|exact E]. split.
    + destruct Hz as [[H|H] _]; [exact H|]. subst. rewrite E in Hs. lra.
    + destruct Hz as [_ [H|H]]; [exact H|]. subst. rewrite E in Hs. lra.
Qed.

Section Roots.
Variables (a b : nat -> R).
Notation P := (monic a b).

Definition increasing_upto (n : nat) (r : nat -> R) : Prop := forall i j, (i < j)%nat -> (j < n)%nat -> r i < r j.

Lemma factor_monic : forall n r, increasing_upto (S n) r -> (forall i, (i < S n)%nat -> P (S n) (r i) = 0) ->
  forall x, P (S n) x = rprod (S n) r x.
Proof.
  intros n r Hr Hz x. apply Rminus_diag_uniq.
  apply (poly_zero n (fun x => P (S n) x - rprod (S n) r x) r).
  - apply (poly_ext n (fun x => (P (S n) x - x ^ S n) - (rprod (S n) r x - x ^ S n))); [intros; ring|].
    apply poly_sub; [apply monic_lead|apply rprod_lead].
  - intros i j Hij Hj. assert (L := Hr i j Hij ltac:(lia)). lra.
  - intros i Hi. rewrite Hz, rprod_root by lia. ring.
Qed.

Lemma interlace : forall n, (forall i, (i < n)%nat -> b i <> 0) -> exists r s,
  increasing_upto n r /\ increasing_upto (S n) s /\
  (forall x, P n x = rprod n r x) /\ (forall x, P (S n) x = rprod (S n) s x) /\
  (forall i, (i < n)%nat -> s i < r i /\ r i < s (S i)).
Proof.
  induction n; intros Hb.
  - exists (fun _ => 0), a. split; [intros i j; lia|]. split; [intros i j; lia|]. split; [reflexivity|].
    split; [intros; simpl; ring|intros; lia].
  - destruct IHn as (r & s & Ir & Is & Er & Es & Il); [intros; apply Hb; lia|].
    assert (Sg : forall i, (i <= n)%nat -> 0 < (-1) ^ (n - i) * P n (s i)).
    { intros i Hi. rewrite Er. apply sign_prod; [exact Hi| |].
      - intros j Hj. destruct (Il j ltac:(lia)) as [_ H]. destruct (Nat.eq_dec (S j) i) as [<-|]; [exact H|].
        eapply Rlt_trans; [exact H|]. apply Is; lia.
      - intros j Hj Hn. destruct (Il j Hn) as [H _]. destruct (Nat.eq_dec i j) as [->|]; [exact H|].
        eapply Rlt_trans; [|exact H]. apply Is; lia. }
    assert (V : forall i, (i <= n)%nat -> (-1) ^ (n - i) * P (S (S n)) (s i) < 0).
    { intros i Hi. rewrite monic_SS. rewrite (Es (s i)), rprod_root by lia. specialize (Sg i Hi).
      assert (B : 0 < b n * b n) by (apply Rsqr_pos_lt, Hb; lia).
      replace ((-1) ^ (n - i) * ((s i - a (S n)) * 0 - b n * b n * P n (s i))) with (- (b n * b n * ((-1) ^ (n - i) * P n (s i)))) by ring.
      assert (0 < b n * b n * ((-1) ^ (n - i) * P n (s i))) by (apply Rmult_lt_0_compat; assumption). lra. }
    destruct (far (S n) (P (S (S n))) (monic_lead a b (S n))) as (M & HM & Hp & Hm).
    assert (Pp := monic_poly a b (S (S n))).
    assert (Ex : forall i, (i < S (S n))%nat -> exists x, (i <> O -> s (pred i) < x) /\ (i <> S n -> x < s i) /\ P (S (S n)) x = 0).
    { intros i Hi. destruct (Nat.eq_dec i 0) as [->|N0].
      - assert (V0 := V O ltac:(lia)). rewrite Nat.sub_0_r in V0.
        assert (Hx := Hm (Rmin (- M) (s O - 1)) (Rmin_l _ _)).
        assert (Hlt : Rmin (- M) (s O - 1) < s O) by (eapply Rle_lt_trans; [apply Rmin_r|lra]).
        destruct (root_between _ _ _ _ Pp Hlt) as (x & Hx' & E).
        { simpl pow in Hx. set (u := P (S (S n)) (Rmin (- M) (s 0%nat - 1))) in *. set (v := P (S (S n)) (s 0%nat)) in *.
          assert (Q : 0 < ((-1) ^ n * u) * - ((-1) ^ n * v)) by (apply Rmult_lt_0_compat; lra).
          replace (((-1) ^ n * u) * - ((-1) ^ n * v)) with (- (u * v) * ((-1) ^ n * (-1) ^ n)) in Q by ring.
          rewrite <- Rpow_mult_distr in Q. replace (-1 * -1) with 1 in Q by ring. rewrite pow1 in Q. lra. }
        exists x. split; [lia|]. split; [intros _; apply Hx'|exact E].
      - destruct (Nat.eq_dec i (S n)) as [->|N1].
        + assert (Vn := V n ltac:(lia)). rewrite Nat.sub_diag in Vn. simpl pow in Vn. rewrite Rmult_1_l in Vn.
          assert (Hx := Hp (Rmax M (s n + 1)) (Rmax_l _ _)).
          assert (Hlt : s n < Rmax M (s n + 1)) by (eapply Rlt_le_trans; [|apply Rmax_r]; lra).
          destruct (root_between _ _ _ _ Pp Hlt) as (x & Hx' & E).
          { set (u := P (S (S n)) (s n)) in *. set (v := P (S (S n)) (Rmax M (s n + 1))) in *. nra. }
          exists x. split; [intros _; apply Hx'|]. split; [intros H; exfalso; apply H; reflexivity|exact E].
        + assert (exists j, i = S j) as [j ->] by (exists (pred i); lia). simpl pred.
          assert (Va := V j ltac:(lia)). assert (Vb := V (S j) ltac:(lia)).
          replace (n - j)%nat with (S (n - S j)) in Va by lia. simpl pow in Va.
          assert (Hlt : s j < s (S j)) by (apply Is; lia).
          destruct (root_between _ _ _ _ Pp Hlt) as (x & Hx' & E).
          { set (u := P (S (S n)) (s j)) in *. set (v := P (S (S n)) (s (S j))) in *. set (e := (-1) ^ (n - S j)) in *.
            assert (Q : 0 < (e * u) * - (e * v)) by (apply Rmult_lt_0_compat; lra).
            assert (Ee : e * e = 1) by (unfold e; rewrite <- Rpow_mult_distr; replace (-1 * -1) with 1 by ring; apply pow1).
            replace ((e * u) * - (e * v)) with (- (u * v) * (e * e)) in Q by ring. rewrite Ee in Q. lra. }
          exists x. split; [intros _; apply Hx'|]. split; [intros _; apply Hx'|exact E]. }
    destruct (finite_choice R 0 _ _ Ex) as [t Ht].
    assert (Il2 : forall i, (i < S n)%nat -> t i < s i /\ s i < t (S i)).
    { intros i Hi. split.
      - destruct (Ht i ltac:(lia)) as (_ & H & _). apply H. lia.
      - destruct (Ht (S i) ltac:(lia)) as (H & _ & _). apply H. lia. }
    assert (It : increasing_upto (S (S n)) t).
    { intros i j. induction j; intros Hij Hj; [lia|]. destruct (Il2 j ltac:(lia)) as [H1 H2].
      destruct (Nat.eq_dec i j) as [->|]; [lra|]. assert (t i < t j) by (apply IHj; lia). lra. }
    exists s, t. split; [exact Is|]. split; [exact It|]. split; [exact Es|]. split; [|exact Il2].
    apply factor_monic; [exact It|]. intros i Hi. apply (Ht i Hi).
Qed.

Lemma roots_exist : forall n, (1 <= n)%nat -> (forall i, (i < n - 1)%nat -> b i <> 0) ->
  exists r, increasing_upto n r /\ forall x, P n x = rprod n r x.
Proof.
  intros n Hn Hb. destruct n; [lia|]. replace (S n - 1)%nat with n in Hb by lia.
  destruct (interlace n Hb) as (r & s & _ & Is & _ & Es & _). exists s. auto.
Qed.
End Roots.

Lemma left_right_inverse : forall n (V : nat -> nat -> R),
  (forall i j, (i < n)%nat -> (j < n)%nat -> rsum n (fun k => V k i * V k j) = kronecker i j) ->
  forall i j, (i < n)%nat -> (j < n)%nat -> rsum n (fun k => V i k * V j k) = kronecker i j.
Proof.
  intros n V HV.
  set (E := fun i j => kronecker i j - rsum n (fun k => V i k * V j k)).
  assert (EV : forall i h, (i < n)%nat -> (h < n)%nat -> rsum n (fun j => E i j * V j h) = 0).
  { intros i h Hi Hh. unfold E. rewrite (rsum_ext n _ (fun j => kronecker i j * V j h - rsum n (fun k => V i k * V j k) * V j h)) by (intros; ring).
    rewrite rsum_minus.
    rewrite (rsum_ext n (fun j => kronecker i j * V j h) (fun j => if Nat.eqb j i then V j h else 0)).
    2:{ intros j Hj. unfold kronecker. rewrite (Nat.eqb_sym i j). destruct (Nat.eqb j i); ring. }
    rewrite rsum_delta by exact Hi.
    rewrite (rsum_ext n (fun j => rsum n (fun k => V i k * V j k) * V j h) (fun j => rsum n (fun k => V i k * (V j k * V j h)))).
    2:{ intros j Hj. rewrite <- rsum_scal_r. apply rsum_ext. intros; ring. }
    rewrite rsum_swap. rewrite (rsum_ext n _ (fun k => if Nat.eqb k h then V i k else 0)).
    2:{ intros k Hk. rewrite rsum_scal, HV by assumption. unfold kronecker. destruct (Nat.eqb k h); ring. }
    rewrite rsum_delta by exact Hh. ring. }
  assert (Sq : forall i, (i < n)%nat -> rsum n (fun j => E i j * E i j) = E i i).
  { intros i Hi. rewrite (rsum_ext n _ (fun j => (if Nat.eqb j i then E i j else 0) - rsum n (fun k => V i k * (E i j * V j k)))).
    2:{ intros j Hj. unfold E at 2. rewrite (rsum_ext n (fun k => V i k * (E i j * V j k)) (fun k => E i j * (V i k * V j k))) by (intros; ring).
        rewrite rsum_scal. unfold kronecker. rewrite (Nat.eqb_sym i j). destruct (Nat.eqb j i); ring. }
    rewrite rsum_minus, rsum_delta by exact Hi. rewrite rsum_swap.
    rewrite (rsum_ext n (fun j => rsum n (fun i0 => V i j * (E i i0 * V i0 j))) (fun _ => 0)).
    - rewrite rsum_0. ring.
    - intros k Hk. rewrite rsum_scal, EV by assumption. ring. }
  assert (Nn : forall i, (i < n)%nat -> 0 <= E i i).
  { intros i Hi. rewrite <- Sq by exact Hi. apply rsum_nonneg. intros; nra. }
  assert (Tr : rsum n (fun i => E i i) = 0).
  { unfold E. rewrite rsum_minus. rewrite (rsum_ext n (fun i => kronecker i i) (fun _ => 1)).
    2:{ intros; unfold kronecker; rewrite Nat.eqb_refl; reflexivity. }
    rewrite rsum_swap. rewrite (rsum_ext n (fun j => rsum n (fun i => V i j * V i j)) (fun _ => 1)).
    - ring.
    - intros j Hj. rewrite HV by assumption. unfold kronecker. rewrite Nat.eqb_refl. reflexivity. }
  assert (Z0 : forall (f : nat -> R) k, (forall i, (i < k)%nat -> 0 <= f i) -> rsum k f = 0 -> forall i, (i < k)%nat -> f i = 0).
  { intros f k. induction k; intros Hf Hs i Hi; [lia|]. simpl in Hs.
    assert (A := rsum_nonneg k f ltac:(intros; apply Hf; lia)). assert (B := Hf k ltac:(lia)).
    destruct (Nat.eq_dec i k) as [->|]; [lra|]. apply IHk; [intros; apply Hf; lia|lra|lia]. }
  intros i j Hi Hj.
  assert (Ei : E i i = 0) by (apply (Z0 (fun i => E i i) n Nn Tr i Hi)).
  assert (Eij : E i j * E i j = 0).
  { rewrite <- Sq in Ei by exact Hi. apply (Z0 (fun j => E i j * E i j) n); [intros; nra|exact Ei|exact Hj]. }
  apply Rmult_integral in Eij. assert (E i j = 0) as H by tauto. unfold E in H. lra.
Qed.

Lemma nth_map_seq : forall X (f : nat -> X) d n i, (i < n)%nat -> nth i (map f (seq 0 n)) d = f i.
Proof.
  intros X f d n i Hi. rewrite (nth_indep _ d (f O)) by (rewrite map_length, seq_length; exact Hi).
  rewrite map_nth, seq_nth by exact Hi. reflexivity.
Qed.

Section Existence.
Variables (n : nat) (a b : nat -> R) (m : list (list RA)).
Hypothesis Hn : (1 <= n)%nat.
Hypothesis Hb : forall i, (i < n - 1)%nat -> b i <> 0.
Hypothesis Hm : forall i j, (i < n)%nat -> (j < n)%nat -> @entry RA m i j = @tridiagonal RA a b i j.

Lemma tri_sym : forall i j, @tridiagonal RA a b i j = @tridiagonal RA a b j i.
Proof.
  intros i j. unfold tridiagonal. rewrite (Nat.eqb_sym j i). destruct (Nat.eqb_spec i j) as [->|N]; [reflexivity|].
  destruct (Nat.eqb_spec j (i + 1)); destruct (Nat.eqb_spec i (j + 1)); try reflexivity. lia.
Qed.

Lemma exact_eigen_exists : exists ev, exact_eigen n m ev.
Proof.
  destruct (roots_exist a b n Hn Hb) as (r & Ir & Er).
  set (u := fun k j => monic a b k (r j) / bprod b k).
  assert (Bz : forall k, (k < n)%nat -> bprod b k <> 0) by (intros; apply (bprod_neq b (n - 1)); [exact Hb|lia]).
  assert (Eu : forall i j, (i < n)%nat -> (j < n)%nat -> rsum n (fun k => @entry RA m i k * u k j) = r j * u i j).
  { intros i j Hi Hj. rewrite (tri_row n a b m Hn Hm i (fun k => u k j) Hi). unfold u.
    destruct (Nat.ltb_spec (S i) n) as [L|L].
    - assert (B1 := Bz (S i) L). assert (B0 := Bz i Hi). simpl bprod in *.
      destruct i as [|h].
      + simpl. simpl in B1. field. intros Q. apply B1. rewrite Q. ring.
      + assert (Bh := Bz h ltac:(lia)). rewrite monic_SS. simpl bprod in *.
        assert (b (S h) <> 0) by (apply Hb; lia). assert (b h <> 0) by (apply Hb; lia). field. auto.
    - assert (n = S i) by lia.
      assert (Z : monic a b (S i) (r j) = 0) by (rewrite <- H, Er; apply rprod_root; exact Hj).
      destruct i as [|h].
      + simpl in Z. simpl. assert (r j = a O) by lra. rewrite H0. field.
      + rewrite monic_SS in Z. assert (Bh := Bz h ltac:(lia)). assert (b h <> 0) by (apply Hb; lia).
        simpl bprod.
        replace (b h * (monic a b h (r j) / bprod b h) + a (S h) * (monic a b (S h) (r j) / (b h * bprod b h)) + 0)
          with ((b h * b h * monic a b h (r j) + a (S h) * monic a b (S h) (r j)) / (b h * bprod b h)) by (field; auto).
        replace (b h * b h * monic a b h (r j)) with ((r j - a (S h)) * monic a b (S h) (r j)) by lra. field. auto. }
  assert (Or : forall i j, (i < n)%nat -> (j < n)%nat -> i <> j -> rsum n (fun k => u k i * u k j) = 0).
  { intros i j Hi Hj Hij.
    assert (Q : r i * rsum n (fun k => u k i * u k j) = r j * rsum n (fun k => u k i * u k j)).
    { rewrite <- !rsum_scal.
      transitivity (rsum n (fun k => rsum n (fun h => @entry RA m k h * u h i * u k j))).
      - apply rsum_ext. intros k Hk. rewrite rsum_scal_r, Eu by assumption. ring.
      - rewrite rsum_swap. apply rsum_ext. intros h Hh.
        rewrite (rsum_ext n _ (fun k => u h i * (@entry RA m h k * u k j))).
        + rewrite rsum_scal, Eu by assumption. ring.
        + intros k Hk. rewrite !Hm by assumption. rewrite (tri_sym k h). ring. }
    assert (r i <> r j).
    { destruct (Nat.lt_ge_cases i j) as [L|L]; [assert (X := Ir i j L Hj); lra|assert (X := Ir j i ltac:(lia) Hi); lra]. }
    apply Rmult_eq_reg_l with (r i - r j); [lra|lra]. }
  set (N := fun j => rsum n (fun k => u k j * u k j)).
  assert (Np : forall j, 0 < N j).
  { intros j. unfold N. assert (exists p, n = S p) as [p Ep] by (exists (n - 1)%nat; lia). rewrite Ep, rsum_first.
    assert (u O j = 1) by (unfold u; simpl; field). rewrite H.
    assert (0 <= rsum p (fun i => u (S i) j * u (S i) j)) by (apply rsum_nonneg; intros; nra). lra. }
  set (V := fun k j => u k j / sqrt (N j)).
  assert (Sp : forall j, 0 < sqrt (N j)) by (intros; apply sqrt_lt_R0, Np).
  assert (Co : forall i j, (i < n)%nat -> (j < n)%nat -> rsum n (fun k => V k i * V k j) = kronecker i j).
  { intros i j Hi Hj. unfold V. assert (Si := Sp i). assert (Sj := Sp j).
    rewrite (rsum_ext n _ (fun k => / (sqrt (N i) * sqrt (N j)) * (u k i * u k j))) by (intros; field; lra).
    rewrite rsum_scal. unfold kronecker. destruct (Nat.eqb_spec i j) as [->|Nij].
    - fold (N j). rewrite sqrt_sqrt by (left; apply Np). field. assert (X := Np j). lra.
    - rewrite Or by assumption. ring. }
  exists (map r (seq 0 n), map (fun i => map (fun j => V i j) (seq 0 n)) (seq 0 n)).
  assert (Ent : forall i j, (i < n)%nat -> (j < n)%nat ->
    @entry RA (map (fun i => map (fun j => V i j) (seq 0 n)) (seq 0 n)) i j = V i j).
  { intros i j Hi Hj. unfold entry.
    refine (eq_trans (f_equal (fun row => nth j row 0) (nth_map_seq _ (fun i => map (fun j => V i j) (seq 0 n)) [] n i Hi)) _).
    exact (nth_map_seq _ (fun j => V i j) 0 n j Hj). }
  unfold exact_eigen. cbn [fst snd]. split; [rewrite map_length, seq_length; reflexivity|]. split.
  { split; [rewrite map_length, seq_length; reflexivity|]. apply Forall_forall. intros row Hr. apply in_map_iff in Hr.
    destruct Hr as (i & <- & _). rewrite map_length, seq_length. reflexivity. }
  split; [|split].
  - intros i j Hi Hj. rewrite (rsum_ext n _ (fun k => @entry RA m i k * u k j * / sqrt (N j))).
    2:{ intros k Hk. rewrite Ent by assumption. unfold V, Rdiv. ring. }
    rewrite rsum_scal_r, Eu, Ent by assumption.
    refine (eq_trans (Rmult_assoc (r j) (u i j) (/ sqrt (N j))) _). 
    exact (f_equal (fun t => t * V i j) (eq_sym (nth_map_seq _ r 0 n j Hj))).
  - intros i j Hi Hj. rewrite (rsum_ext n _ (fun k => V i k * V j k)) by (intros; rewrite !Ent by assumption; reflexivity).
    apply left_right_inverse; assumption.
  - intros i j Hi Hj. rewrite (rsum_ext n _ (fun k => V k i * V k j)) by (intros; rewrite !Ent by assumption; reflexivity).
    apply Co; assumption.
Qed.
End Existence.

(** ** Golub-Welsch with an exact solver *)
Section Exact.
Variables (ext : Linalg RA) (n : nat) (a b : nat -> R) (s : R).
Hypothesis Hn : (1 <= n)%nat.
Hypothesis Hb : forall i, (i < n - 1)%nat -> b i <> 0.
Hypothesis So : sorts ext.
Hypothesis Ex : exact_on ext n a b.

Lemma solve : forall ps, @golub_welsch RA ext n a b s = Ok ps ->
  exists m, @companion_matrix RA n a b = Ok m /\ exact_eigen n m (symmetric_eigen ext m).
Proof.
  intros ps HG. destruct (@companion_ok RA n a b Hn) as (m & E & Sq & H). exists m. split; [exact E|].
  apply Ex; assumption.
Qed.
Lemma gwx_gauss : forall (ps : list (R * R)) (L : (R -> R) -> R), @golub_welsch RA ext n a b s = Ok ps -> linear_on_polynomials L -> L (fun _ => 1) = s ->
  orthogonal_up_to n L (monic a b) -> forall f, polynomial (2 * n - 1) f -> apply_rule ps f = L f.
Proof.
  intros ps L HG HL H1 HO f Hf. destruct (solve ps HG) as (m & Em & He).
  exact (gw_gauss ext n a b s m ps Hn Hb So Em He HG L HL H1 HO f Hf).
Qed.
Lemma gwx_sum : forall ps, @golub_welsch RA ext n a b s = Ok ps -> lsum (map snd ps) = s.
Proof.
  intros ps HG. destruct (solve ps HG) as (m & Em & He). exact (gw_weights_sum ext n a b s m ps Hn So Em He HG).
Qed.
Lemma gwx_pos : forall ps, @golub_welsch RA ext n a b s = Ok ps -> 0 < s -> List.Forall (fun xw => 0 < snd xw) ps.
Proof.
  intros ps HG. destruct (solve ps HG) as (m & Em & He). exact (gw_weights_pos ext n a b s m ps Hn Hb So Em He HG).
Qed.
Lemma gwx_distinct : forall ps, @golub_welsch RA ext n a b s = Ok ps -> NoDup (map fst ps).
Proof.
  intros ps HG. destruct (solve ps HG) as (m & Em & He). exact (gw_nodes_distinct ext n a b s m ps Hn Hb So Em He HG).
Qed.
(** the driver returns a rule *)
Lemma gwx_ok : exists ps, @golub_welsch RA ext n a b s = Ok ps.
Proof.
  destruct (@companion_ok RA n a b Hn) as (m & E & Sq & H). unfold golub_welsch. rewrite E. cbn [bind].
  destruct (Ex m Sq H) as (L & [Sv _] & _). destruct (symmetric_eigen ext m) as [lam V]. cbn [fst snd] in *.
  destruct V as [|row V]; [simpl in Sv; lia|]. simpl. eexists. reflexivity.
Qed.
End Exact.

(** Such a solver exists. *)
Lemma exact_solver_exists : forall n a b, (1 <= n)%nat -> (forall i, (i < n - 1)%nat -> b i <> 0) ->
  exists ext, sorts ext /\ exact_on ext n a b.
Proof.
  intros n a b Hn Hb. destruct (@companion_ok RA n a b Hn) as (m & _ & Sq & H).
  destruct (exact_eigen_exists n a b m Hn Hb H) as [ev Hev].
  exists {| symmetric_eigen := fun _ => ev; sort_unstable_by := fun cmp l => insertion_sort cmp l |}. split.
  - intros cmp l. split; [apply insertion_sort_perm|]. intros C. apply insertion_sort_sorted. exact C.
  - intros m' Sq' H'. cbn [symmetric_eigen]. destruct Hev as (A1 & A2 & A3 & A4 & A5). split; [exact A1|]. split; [exact A2|].
    split; [|split; assumption]. intros i j Hi Hj. rewrite <- (A3 i j Hi Hj). apply rsum_ext. intros k Hk.
    rewrite H, H' by assumption. reflexivity.
Qed.
