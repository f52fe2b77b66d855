(** The rule returned by golub_welsch with an exact solver: its nodes are the roots of the
    recurrence polynomial in ascending order, its weights are the Christoffel numbers. *)
From Coq Require Import Reals Lra Lia List Arith ZArith Permutation Sorted.
From Coquelicot Require Import Coquelicot.
From Flocq Require Import Core.Raux.
From Verif Require Import Arith RInst RInstProof RSum Machine Rules GolubWelsch GWSpec GWProof PolySpec PolyProof EigenSpec EigenProof Spectral.
Import ListNotations.
Local Open Scope R_scope.

(** sum of the squares of the orthonormal polynomials *)
Definition ksum (n : nat) (a b : nat -> R) (x : R) : R :=
  rsum n (fun i => (monic a b i x / bprod b i) * (monic a b i x / bprod b i)).

Lemma ksum_pos : forall n a b x, (1 <= n)%nat -> 0 < ksum n a b x.
Proof.
  intros n a b x Hn. unfold ksum. destruct n as [|p]; [lia|]. rewrite rsum_first.
  assert (0 <= rsum p (fun i => (monic a b (S i) x / bprod b (S i)) * (monic a b (S i) x / bprod b (S i)))) by (apply rsum_nonneg; intros; apply Rle_0_sqr).
  replace (monic a b 0 x / bprod b 0) with 1 by (simpl; field). lra.
Qed.

Section Exact.
Variables (ext : Linalg RA) (n : nat) (a b : nat -> R) (s : R) (ps : list (R * R)).
Hypothesis Hn : (1 <= n)%nat.
Hypothesis Hb : forall i, (i < n - 1)%nat -> b i <> 0.
Hypothesis So : sorts ext.
Hypothesis Ex : exact_on ext n a b.
Hypothesis HG : @golub_welsch RA ext n a b s = Ok ps.

Lemma gwx_length : length ps = n.
Proof.
  destruct (solve ext n a b s Hn Ex ps HG) as (m & Em & He). exact (ps_length ext n a b s m ps Hn So Em He HG).
Qed.

Lemma gwx_roots : List.Forall (fun xw => monic a b n (fst xw) = 0 /\ snd xw = s / ksum n a b (fst xw)) ps.
Proof.
  destruct (solve ext n a b s Hn Ex ps HG) as (m & Em & He).
  destruct (pairs_eq ext n a b s m ps Hn So Em He HG) as (row0 & L & E & Pe).
  assert (He' := Hev' ext n m He). assert (CE := comp_entries n a b m Hn Em).
  apply List.Forall_forall. intros p Hp. apply (Permutation_in _ Pe) in Hp.
  apply (combine_nth_in n) in Hp; [|apply (lam_length ext n m He)|rewrite map_length; exact L].
  destruct Hp as (j & Hj & ->). cbn [fst snd]. split.
  - exact (char_zero n a b m _ _ Hn Hb CE He' j Hj).
  - rewrite (sq_nth s), E. set (v := (fun i j => @entry RA (snd (symmetric_eigen ext m)) i j) : nat -> nat -> R).
    assert (C := col_orth n m _ _ He' j j Hj Hj). unfold kronecker in C. rewrite Nat.eqb_refl in C.
    assert (K : v O j * v O j * ksum n a b (nth j (fst (symmetric_eigen ext m)) 0) = 1).
    { rewrite <- C. unfold ksum. rewrite <- rsum_scal. apply rsum_ext. intros i Hi.
      assert (B := bnz n b Hn Hb i Hi). 
      assert (VP : bprod b i * v i j = v O j * monic a b i (nth j (fst (symmetric_eigen ext m)) 0)) by exact (vec_poly n a b m _ _ Hn CE He' j Hj i Hi).
      change (@entry RA (snd (symmetric_eigen ext m)) i j) with (v i j).
      transitivity ((v O j * monic a b i (nth j (fst (symmetric_eigen ext m)) 0)) * (v O j * monic a b i (nth j (fst (symmetric_eigen ext m)) 0)) / (bprod b i * bprod b i)); [field; exact B|].
      rewrite <- VP. field. exact B. }
    change (@entry RA (snd (symmetric_eigen ext m)) 0 j) with (v O j).
    assert (Kp := ksum_pos n a b (nth j (fst (symmetric_eigen ext m)) 0) Hn).
    set (k := ksum n a b (nth j (fst (symmetric_eigen ext m)) 0)) in *.
    apply (Rmult_eq_reg_r k); [|lra].
    replace (v O j * v O j * s * k) with (v O j * v O j * k * s) by ring. rewrite K.
    change (1 * s = s / k * k). field. lra.
Qed.

Lemma ra_cmp_preorder : total_preorder (@ntotal_cmp RA).
Proof.
  change (@ntotal_cmp RA) with Rcompare. split.
  - intros x y. destruct (Rcompare_spec x y); destruct (Rcompare_spec y x); simpl; try reflexivity; lra.
  - intros x y z. destruct (Rcompare_spec x y); destruct (Rcompare_spec y z); destruct (Rcompare_spec x z); try congruence; lra.
Qed.

Lemma cmp_le : forall l : list (R * R), StronglySorted (fun p q => @ntotal_cmp RA (fst p) (fst q) <> Gt) l -> StronglySorted (fun p q => fst p <= fst q) l.
Proof.
  intros l Q. induction Q as [|p l Q IH Fl]; constructor; [exact IH|]. eapply List.Forall_impl; [|exact Fl].
  intros q Hq. assert (G : forall u v : R, Rcompare u v <> Gt -> u <= v) by (intros u v Hu; destruct (Rcompare_spec u v); [lra|lra|congruence]).
  exact (G (fst p) (fst q) Hq).
Qed.
Lemma gwx_ascending : StronglySorted (fun p q => fst p < fst q) ps.
Proof.
  assert (Nd := gwx_distinct ext n a b s Hn Hb So Ex ps HG).
  assert (Le : StronglySorted (fun p q : R * R => fst p <= fst q) ps).
  { destruct (solve ext n a b s Hn Ex ps HG) as (m & Em & He).
    unfold golub_welsch in HG. rewrite Em in HG. cbn [bind] in HG. destruct (symmetric_eigen ext m) as [ev V'].
    destruct (index V' 0) as [row0|]; [|discriminate]. cbn [bind] in HG. injection HG; intros <-.
    destruct (So (fun p q => @ntotal_cmp RA (fst p) (fst q)) (combine ev (map (fun x => @nmul RA (nmul x x) s) row0))) as [_ Sd].
    assert (Q := Sd ltac:(destruct ra_cmp_preorder as [C1 C2]; split; [intros; apply C1|intros x y z; apply C2])).
    exact (cmp_le _ Q). }
  clear HG. revert Nd. induction Le as [|p l Q IH Fl]; intros Nd; constructor.
  - apply IH. inversion Nd; assumption.
  - inversion Nd; subst. apply List.Forall_forall. intros q Hq. rewrite List.Forall_forall in Fl. destruct (Fl q Hq) as [|E]; [assumption|].
    exfalso. apply H1. simpl. rewrite E. apply in_map. exact Hq.
Qed.

Lemma gwx_all_roots : forall x, monic a b n x = 0 -> In x (map fst ps).
Proof.
  intros x Hx. destruct (in_dec Req_EM_T x (map fst ps)) as [|Nin]; [assumption|exfalso].
  assert (Nd := gwx_distinct ext n a b s Hn Hb So Ex ps HG).
  assert (Hn' : (exists k, n = S k)) by (exists (n - 1)%nat; lia). destruct Hn' as [k Ek].
  set (r := fun i => nth i (x :: map fst ps) 0).
  assert (Lr : length (x :: map fst ps) = S n) by (simpl; rewrite map_length, gwx_length; reflexivity).
  assert (Z : forall y, monic a b n y = 0).
  { apply (poly_zero n (monic a b n) r (monic_poly a b n)).
    - intros i j Hij Hj E. assert (NoDup (x :: map fst ps)) as N2 by (constructor; assumption).
      assert (i = j); [|lia]. apply (proj1 (NoDup_nth (x :: map fst ps) 0) N2 i j); [rewrite Lr; lia|rewrite Lr; lia|exact E].
    - intros i Hi. unfold r. assert (In (nth i (x :: map fst ps) 0) (x :: map fst ps)) as I by (apply nth_In; rewrite Lr; lia).
      destruct I as [<-|I]; [exact Hx|]. apply in_map_iff in I. destruct I as (p & <- & Ip).
      apply (proj1 (List.Forall_forall _ _) gwx_roots p Ip). }
  destruct (far k (monic a b n)) as (M & HM & Pos & _); [rewrite Ek; apply monic_lead|].
  assert (P1 := Pos M (Rle_refl _)). rewrite Z in P1. lra.
Qed.
End Exact.

(** strictly ascending lists with the same members are equal *)
Lemma sorted_unique : forall (l1 l2 : list R), StronglySorted Rlt l1 -> StronglySorted Rlt l2 -> (forall x, In x l1 <-> In x l2) -> l1 = l2.
Proof.
  induction l1 as [|x l1 IH]; intros [|y l2] S1 S2 H; [reflexivity|exfalso; apply (H y); left; reflexivity|exfalso; apply (H x); left; reflexivity|].
  inversion S1 as [|? ? S1' F1]; inversion S2 as [|? ? S2' F2]; subst.
  rewrite List.Forall_forall in F1, F2.
  assert (x = y).
  { assert (A1 : In x (y :: l2)) by (apply H; left; reflexivity). assert (A2 : In y (x :: l1)) by (apply H; left; reflexivity).
    destruct A1 as [|A1]; [congruence|]. destruct A2 as [|A2]; [congruence|]. specialize (F1 y A2). specialize (F2 x A1). lra. }
  subst y. f_equal. apply IH; [assumption|assumption|]. intros z. split; intros Hz.
  - assert (B := proj1 (H z) (or_intror Hz)). destruct B as [->|B]; [|exact B]. specialize (F1 z Hz). lra.
  - assert (B := proj2 (H z) (or_intror Hz)). destruct B as [->|B]; [|exact B]. specialize (F2 z Hz). lra.
Qed.
Lemma sorted_fst : forall l : list (R * R), StronglySorted (fun p q => fst p < fst q) l -> StronglySorted Rlt (map fst l).
Proof.
  induction 1 as [|p l S IH F]; simpl; constructor; [exact IH|]. apply List.Forall_forall. intros x Hx. apply in_map_iff in Hx.
  destruct Hx as (q & <- & Hq). rewrite List.Forall_forall in F. apply F, Hq.
Qed.

(** The returned rule does not depend on the solver. *)
Lemma gwx_unique : forall ext1 ext2 n a b s ps1 ps2, (1 <= n)%nat -> (forall i, (i < n - 1)%nat -> b i <> 0) ->
  sorts ext1 -> exact_on ext1 n a b -> sorts ext2 -> exact_on ext2 n a b ->
  @golub_welsch RA ext1 n a b s = Ok ps1 -> @golub_welsch RA ext2 n a b s = Ok ps2 -> ps1 = ps2.
Proof.
  intros ext1 ext2 n a b s ps1 ps2 Hn Hb So1 Ex1 So2 Ex2 H1 H2.
  assert (R1 := gwx_roots ext1 n a b s ps1 Hn Hb So1 Ex1 H1). assert (R2 := gwx_roots ext2 n a b s ps2 Hn Hb So2 Ex2 H2).
  assert (E : map fst ps1 = map fst ps2).
  { apply sorted_unique.
    - apply sorted_fst, (gwx_ascending ext1 n a b s ps1 Hn Hb So1 Ex1 H1).
    - apply sorted_fst, (gwx_ascending ext2 n a b s ps2 Hn Hb So2 Ex2 H2).
    - intros x. split; intros Hx; apply in_map_iff in Hx; destruct Hx as (p & <- & Hp).
      + apply (gwx_all_roots ext2 n a b s ps2 Hn Hb So2 Ex2 H2). rewrite List.Forall_forall in R1. apply R1, Hp.
      + apply (gwx_all_roots ext1 n a b s ps1 Hn Hb So1 Ex1 H1). rewrite List.Forall_forall in R2. apply R2, Hp. }
  assert (F : forall l, List.Forall (fun xw => monic a b n (fst xw) = 0 /\ snd xw = s / ksum n a b (fst xw)) l -> l = map (fun x => (x, s / ksum n a b x)) (map fst l)).
  { intros l Hl. induction Hl as [|[x w] l [_ W] Hl IH]; [reflexivity|]. simpl in *. rewrite W, <- IH. reflexivity. }
  exact (eq_trans (F ps1 R1) (eq_trans (f_equal (map (fun x => (x, s / ksum n a b x))) E) (eq_sym (F ps2 R2)))).
Qed.

(** ** symmetric recurrences *)
Lemma monic_parity : forall a b, (forall i, a i = 0) -> forall k x, monic a b k (- x) = (-1) ^ k * monic a b k x.
Proof.
  intros a b Ha k. induction k as [k IH] using (well_founded_induction lt_wf). intros x.
  destruct k as [|[|k]].
  - simpl. ring.
  - rewrite !monic_1, Ha. simpl. ring.
  - rewrite !monic_SS, Ha, (IH (S k)), (IH k) by lia. simpl. ring.
Qed.
Lemma ksum_even : forall n a b x, (forall i, a i = 0) -> ksum n a b (- x) = ksum n a b x.
Proof.
  intros n a b x Ha. unfold ksum. apply rsum_ext. intros i _. rewrite monic_parity by exact Ha.
  assert (E : (-1) ^ i * (-1) ^ i = 1) by (rewrite <- Rpow_mult_distr; replace (-1 * -1) with 1 by ring; apply pow1).
  unfold Rdiv. transitivity (((-1) ^ i * (-1) ^ i) * (monic a b i x * / bprod b i * (monic a b i x * / bprod b i))); [ring|]. rewrite E. ring.
Qed.

Lemma sorted_rev : forall (X : Type) (Rr : X -> X -> Prop) l, StronglySorted Rr l -> StronglySorted (fun x y => Rr y x) (rev l).
Proof.
  intros X Rr l H. induction H as [|x l S IH F]; simpl; [constructor|].
  assert (G : forall m, StronglySorted (fun x y => Rr y x) m -> List.Forall (fun y => Rr x y) m -> StronglySorted (fun x y => Rr y x) (m ++ [x])).
  { induction 1 as [|y m Sm IHm Fm]; intros Fx; simpl; [repeat constructor|]. inversion Fx; subst. constructor; [apply IHm; assumption|].
    apply Forall_app. split; [exact Fm|]. repeat constructor. assumption. }
  apply G; [exact IH|]. apply Forall_rev. exact F.
Qed.

Section Symmetric.
Variables (ext : Linalg RA) (n : nat) (a b : nat -> R) (s : R) (ps : list (R * R)).
Hypothesis Hn : (1 <= n)%nat.
Hypothesis Hb : forall i, (i < n - 1)%nat -> b i <> 0.
Hypothesis Ha : forall i, a i = 0.
Hypothesis So : sorts ext.
Hypothesis Ex : exact_on ext n a b.
Hypothesis HG : @golub_welsch RA ext n a b s = Ok ps.

Lemma gwx_sym_nodes : map Ropp (map fst ps) = rev (map fst ps).
Proof.
  assert (Rt := gwx_roots ext n a b s ps Hn Hb So Ex HG). rewrite List.Forall_forall in Rt.
  assert (E : rev (map Ropp (map fst ps)) = map fst ps).
  { apply sorted_unique.
    - assert (G := sorted_fst ps (gwx_ascending ext n a b s ps Hn Hb So Ex HG)).
      rewrite <- map_rev. apply sorted_rev in G. induction G as [|x l Sl IH F]; simpl; constructor; [exact IH|].
      apply List.Forall_forall. intros y Hy. apply in_map_iff in Hy. destruct Hy as (z & <- & Hz). rewrite List.Forall_forall in F.
      specialize (F z Hz). lra.
    - exact (sorted_fst ps (gwx_ascending ext n a b s ps Hn Hb So Ex HG)).
    - intros x. rewrite <- in_rev. split; intros Hx.
      + apply in_map_iff in Hx. destruct Hx as (y & <- & Hy). apply in_map_iff in Hy. destruct Hy as (p & <- & Hp).
        apply (gwx_all_roots ext n a b s ps Hn Hb So Ex HG). rewrite monic_parity by exact Ha. destruct (Rt p Hp) as [-> _]. ring.
      + rewrite <- (Ropp_involutive x). apply in_map. apply in_map_iff in Hx. destruct Hx as (p & <- & Hp).
        apply (gwx_all_roots ext n a b s ps Hn Hb So Ex HG). rewrite monic_parity by exact Ha. destruct (Rt p Hp) as [-> _]. ring. }
  rewrite <- E at 2. rewrite rev_involutive. reflexivity.
Qed.

Lemma gwx_symmetric : map (fun xw : R * R => (- fst xw, snd xw)) ps = rev ps.
Proof.
  assert (F : ps = map (fun x => (x, s / ksum n a b x)) (map fst ps)).
  { assert (Rt := gwx_roots ext n a b s ps Hn Hb So Ex HG). clear HG. induction Rt as [|[x w] l [_ W] Hl IH]; [reflexivity|].
    simpl in *. rewrite W, <- IH. reflexivity. }
  assert (Sy := gwx_sym_nodes). rewrite F at 1. rewrite F at 2. rewrite <- map_rev, <- Sy, !map_map.
  apply map_ext. intros [x w]. simpl. rewrite ksum_even by exact Ha. reflexivity.
Qed.

(** the middle node of a rule of odd degree is zero *)
Lemma gwx_middle : forall k, n = (2 * k + 1)%nat -> nth k (map fst ps) 0 = 0.
Proof.
  intros k Hk. assert (Sy := f_equal (fun l => nth k l 0) gwx_sym_nodes). cbv beta in Sy.
  assert (L : length (map fst ps) = n) by (rewrite map_length; apply (gwx_length ext n a b s ps Hn So Ex HG)).
  rewrite rev_nth in Sy by lia. rewrite L in Sy. replace (n - S k)%nat with k in Sy by lia.
  rewrite <- Ropp_0 in Sy at 1. rewrite map_nth in Sy. lra.
Qed.
End Symmetric.

(** ** bounds on the nodes *)
Lemma monic_above : forall a b c (d e : nat -> R),
  (forall k, 0 < d k) -> (forall k, 0 <= e k) -> c - a O = d O -> (forall k, c - a (S k) = d (S k) + e k) ->
  (forall k, b k * b k = d k * e k) -> forall k x, c <= x -> 0 < monic a b k x.
Proof.
  intros a b c d e Hd He H0 HS Hbb k x Hx.
  enough (0 < monic a b k x /\ d k * monic a b k x <= monic a b (S k) x) by tauto.
  induction k as [|k [I1 I2]].
  - rewrite monic_1. simpl. assert (Q := Hd O). lra.
  - assert (D := Hd k). assert (Pk : 0 < monic a b (S k) x) by (eapply Rlt_le_trans; [apply (Rmult_lt_0_compat _ _ D I1)|exact I2]).
    split; [exact Pk|]. rewrite monic_SS, Hbb. assert (Q := HS k). assert (E := He k).
    replace (x - a (S k)) with ((x - c) + (d (S k) + e k)) by lra.
    assert (0 <= e k * (monic a b (S k) x - d k * monic a b k x)) by (apply Rmult_le_pos; lra).
    assert (0 <= (x - c) * monic a b (S k) x) by (apply Rmult_le_pos; lra). nra.
Qed.
Lemma monic_reflect : forall a b k x, monic (fun i => - a i) b k (- x) = (-1) ^ k * monic a b k x.
Proof.
  intros a b k. induction k as [k IH] using (well_founded_induction lt_wf). intros x.
  destruct k as [|[|k]].
  - simpl. ring.
  - rewrite !monic_1. simpl. ring.
  - rewrite !monic_SS, (IH (S k)), (IH k) by lia. simpl. ring.
Qed.
Lemma monic_below : forall a b c (d e : nat -> R),
  (forall k, 0 < d k) -> (forall k, 0 <= e k) -> a O - c = d O -> (forall k, a (S k) - c = d (S k) + e k) ->
  (forall k, b k * b k = d k * e k) -> forall k x, x <= c -> monic a b k x <> 0.
Proof.
  intros a b c d e Hd He H0 HS Hbb k x Hx E.
  assert (G := monic_above (fun i => - a i) b (- c) d e Hd He ltac:(lra) ltac:(intros j; rewrite <- (HS j); ring) Hbb k (- x) ltac:(lra)).
  rewrite monic_reflect, E in G. lra.
Qed.
