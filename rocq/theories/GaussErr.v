(** Error of a Gauss rule, from its exactness on polynomials. *)
From Coq Require Import Reals Lra Lia List Arith FunctionalExtensionality.
From Coquelicot Require Import Coquelicot.
From Verif Require Import Arith RInst RSum PolySpec PolyProof Improper Gaussian JacobiWeight Spectral EigenSpec EigenProof ErrorSpec Interp
  GaussProof GaussExact TransferSpec TransferProof.
Import ListNotations.
Local Open Scope R_scope.

Definition node (ps : list (R * R)) (i : nat) : R := nth i (map fst ps) 0.
Lemma node_in : forall ps i, (i < length ps)%nat -> In (node ps i) (map fst ps).
Proof. intros. unfold node. apply nth_In. rewrite map_length. assumption. Qed.
Lemma in_node : forall ps x, In x (map fst ps) -> exists i, (i < length ps)%nat /\ node ps i = x.
Proof. intros ps x H. apply (In_nth _ _ 0) in H. rewrite map_length in H. exact H. Qed.
Lemma node_inj : forall ps, NoDup (map fst ps) -> forall i j, (i < length ps)%nat -> (j < length ps)%nat -> i <> j -> node ps i <> node ps j.
Proof.
  intros ps N i j Hi Hj Nij E. apply Nij. apply (proj1 (NoDup_nth (map fst ps) 0) N); [rewrite map_length; assumption..|exact E].
Qed.
Lemma ascending_nodup : forall ps, MassSpec.strictly_ascending ps -> NoDup (map fst ps).
Proof.
  intros ps H. unfold MassSpec.strictly_ascending in H. induction H as [|p l S IH F]; [constructor|]. simpl. constructor; [|exact IH].
  intros I. apply in_map_iff in I. destruct I as (q & E & Iq). rewrite Forall_forall in F. assert (fst p < fst q) by (apply F, Iq). lra.
Qed.
Lemma apply_rule_nodes : forall (l : list (R * R)) f g, (forall x, In x (map fst l) -> f x = g x) -> apply_rule l f = apply_rule l g.
Proof.
  intros l f g H. unfold apply_rule. apply lsum_map_ext. intros p Hp. rewrite H; [reflexivity|]. apply in_map, Hp.
Qed.
(** the monic polynomial with the nodes as zeros *)
Lemma node_poly : forall (ps : list (R * R)) n Q, NoDup (map fst ps) -> length ps = S n -> polynomial n (fun x => Q x - x ^ S n) ->
  (forall x, In x (map fst ps) -> Q x = 0) -> forall x, rprod (S n) (node ps) x = Q x.
Proof.
  intros ps n Q N L HQ Z x. apply Rminus_diag_uniq.
  apply (poly_zero n (fun x => rprod (S n) (node ps) x - Q x) (node ps)).
  - apply (poly_ext n (fun x => (rprod (S n) (node ps) x - x ^ S n) - (Q x - x ^ S n))); [intros; ring|].
    apply poly_sub; [apply rprod_lead|exact HQ].
  - intros i j Hij Hj. apply node_inj; [exact N|lia..].
  - intros i Hi. rewrite rprod_root by lia. rewrite Z; [ring|]. apply node_in. lia.
Qed.

Section Gen.
Variables (D : R -> Prop) (Fa Fb : (R -> Prop) -> Prop).
Context {PA : ProperFilter Fa} {PB : ProperFilter Fb}.
Hypothesis conv : forall u v x, D u -> D v -> u <= x <= v -> D x.
Hypothesis DA : Fa D.
Hypothesis DB : Fb D.
Hypothesis le : filter_prod Fa Fb (fun uv => fst uv <= snd uv).
Variables (w : R -> R) (ps : list (R * R)) (c : R) (n : nat).
Hypothesis w_nonneg : forall x, D x -> 0 <= w x.
Hypothesis c_nonneg : 0 <= c.
Hypothesis nodes_D : forall x, In x (map fst ps) -> D x.
Notation integral f v := (is_RInt_gen (fun x => w x * f x) Fa Fb v).
Hypothesis exactness : forall p, polynomial (2 * n - 1) p -> exists v : R, integral p v /\ apply_rule ps p = c * v.

Lemma FFa : Filter Fa. Proof. apply PA. Qed.
Lemma FFb : Filter Fb. Proof. apply PB. Qed.
Lemma gen_eventually : filter_prod Fa Fb (fun uv => forall x, fst uv <= x <= snd uv -> D x).
Proof. exists D D; [exact DA|exact DB|]. intros u v Du Dv x Hx. apply (conv u v); assumption. Qed.
(** comparison of integrals *)
Lemma gen_compare : forall (f h : R -> R) (I J : R), (forall x, D x -> Rabs (f x) <= h x) -> integral f I -> integral h J -> Rabs I <= J.
Proof.
  intros f h I J H HI HJ.
  apply (RInt_gen_norm (V := R_CompleteNormedModule) (Fa := Fa) (Fb := Fb) (fun x => w x * f x) (fun x => w x * h x) I J); [exact le| |exact HI|exact HJ].
  assert (FP : Filter (filter_prod Fa Fb)) by (apply filter_prod_filter; [apply FFa|apply FFb]).
  generalize gen_eventually. apply filter_imp. intros uv Huv x Hx. specialize (Huv x Hx).
  change (Rabs (w x * f x) <= w x * h x). rewrite Rabs_mult, (Rabs_right (w x)) by (apply Rle_ge, w_nonneg, Huv).
  apply Rmult_le_compat_l; [apply w_nonneg, Huv|apply H, Huv].
Qed.
Lemma gen_minus : forall (f g : R -> R) (I J : R), integral f I -> integral g J -> integral (fun x => f x - g x) (I - J).
Proof.
  intros f g I J HI HJ. assert (FF := FFa). assert (FF' := FFb).
  refine (eq_ind (fun x => minus (w x * f x) (w x * g x)) (fun h => is_RInt_gen h Fa Fb (I - J)) _ _ _).
  - exact (is_RInt_gen_minus (V := R_NormedModule) (fun x => w x * f x) (fun x => w x * g x) I J HI HJ).
  - extensionality x. unfold minus, plus, opp; simpl; ring.
Qed.
Lemma gen_scal : forall (k : R) (f : R -> R) (I : R), integral f I -> integral (fun x => k * f x) (k * I).
Proof.
  intros k f I HI. assert (FF := FFa). assert (FF' := FFb).
  refine (eq_ind (fun x => scal k (w x * f x)) (fun h => is_RInt_gen h Fa Fb (k * I)) _ _ _).
  - exact (is_RInt_gen_scal (V := R_NormedModule) (fun x => w x * f x) k I HI).
  - extensionality x. unfold scal; simpl; unfold mult; simpl; ring.
Qed.

(** agreement with a polynomial at the nodes *)
Lemma gen_interp : forall (f p h : R -> R) (v J : R), polynomial (2 * n - 1) p -> (forall x, In x (map fst ps) -> p x = f x) ->
  (forall x, D x -> Rabs (f x - p x) <= h x) -> integral f v -> integral h J -> Rabs (apply_rule ps f - c * v) <= c * J.
Proof.
  intros f p h v J Hp Hn Hh Hv HJ. destruct (exactness p Hp) as (u & Hu & E).
  rewrite <- (apply_rule_nodes ps p f Hn), E. replace (c * u - c * v) with (- (c * (v - u))) by ring.
  rewrite Rabs_Ropp, Rabs_mult, (Rabs_right c) by (apply Rle_ge, c_nonneg). apply Rmult_le_compat_l; [exact c_nonneg|].
  apply (gen_compare (fun x => f x - p x) h); [exact Hh| |exact HJ]. apply gen_minus; assumption.
Qed.
Lemma gen_error : forall (F : nat -> R -> R) (M N v : R), (1 <= n)%nat -> NoDup (map fst ps) -> length ps = n ->
  has_derivatives D (2 * n) F -> (forall x, D x -> Rabs (F (2 * n)%nat x) <= M) ->
  integral (F O) v -> integral (fun x => rprod n (node ps) x * rprod n (node ps) x) N ->
  Rabs (apply_rule ps (F O) - c * v) <= M / INR (fact (2 * n)) * (c * N).
Proof.
  intros F M N v Hn Nd Ln HF HM Hv HN.
  destruct (interp_error D conv n (node ps) F M Hn) as (p & Hp & Ep & B).
  - intros i j Hi Hj Hij. apply node_inj; [exact Nd|lia..].
  - intros i Hi. apply nodes_D, node_in. lia.
  - exact HF.
  - exact HM.
  - replace (M / INR (fact (2 * n)) * (c * N)) with (c * (M / INR (fact (2 * n)) * N)) by ring.
    apply (gen_interp (F O) p (fun x => M / INR (fact (2 * n)) * (rprod n (node ps) x * rprod n (node ps) x)) v _ Hp); [|exact B|exact Hv|].
    + intros x Hx. destruct (in_node ps x Hx) as (i & Hi & <-). apply Ep. lia.
    + apply (gen_scal _ (fun x => rprod n (node ps) x * rprod n (node ps) x)). exact HN.
Qed.
(** any polynomial close to the integrand *)
Lemma gen_best : forall (f p : R -> R) (e v m : R), (forall xw, In xw ps -> 0 <= snd xw) -> polynomial (2 * n - 1) p ->
  (forall x, D x -> Rabs (f x - p x) <= e) -> integral f v -> integral (fun _ => 1) m -> (1 <= n)%nat ->
  Rabs (apply_rule ps f - c * v) <= 2 * (c * m) * e.
Proof.
  intros f p e v m Wp Hp He Hv Hm Hn. destruct (exactness p Hp) as (u & Hu & E).
  destruct (exactness (fun _ => 1)) as (m' & Hm' & E1); [apply poly_const|].
  assert (Em : m' = m).
  { assert (P1 : ProperFilter' Fa) by apply Proper_StrongProper, PA. assert (P2 : ProperFilter' Fb) by apply Proper_StrongProper, PB.
    rewrite <- (is_RInt_gen_unique _ _ Hm'). apply is_RInt_gen_unique. exact Hm. }
  subst m'.
  assert (A1 : Rabs (v - u) <= m * e).
  { rewrite Rmult_comm. apply (gen_compare (fun x => f x - p x) (fun x => e * 1)); [intros x Hx; rewrite Rmult_1_r; apply He, Hx|apply gen_minus; assumption|].
    apply (gen_scal e (fun _ => 1)). exact Hm. }
  assert (A2 : Rabs (apply_rule ps f - apply_rule ps p) <= c * m * e).
  { rewrite <- E1. unfold apply_rule.
    assert (G : forall l, (forall x, In x l -> In x ps) -> Rabs (lsum (map (fun xw => f (fst xw) * snd xw) l) - lsum (map (fun xw => p (fst xw) * snd xw) l))
        <= lsum (map (fun xw : R * R => 1 * snd xw) l) * e).
    { induction l as [|[x y] l IH]; intros Hl; [simpl; rewrite Rminus_0_r, Rabs_R0; lra|].
      cbn [map lsum fst snd]. assert (IH' := IH (fun z Hz => Hl z (or_intror Hz))).
      assert (Iy := Hl (x, y) (or_introl eq_refl)). assert (Y := Wp _ Iy). cbn [snd] in Y.
      assert (X : Rabs (f x - p x) <= e) by (apply He, nodes_D; apply (in_map fst ps (x, y)), Iy).
      match goal with |- Rabs (?a1 + ?s1 - (?a2 + ?s2)) <= _ => replace (a1 + s1 - (a2 + s2)) with ((f x - p x) * y + (s1 - s2)) by ring end.
      eapply Rle_trans; [apply Rabs_triang|]. rewrite Rabs_mult, (Rabs_right y) by lra. nra. }
    apply G. auto. }
  replace (apply_rule ps f - c * v) with ((apply_rule ps f - apply_rule ps p) + (- (c * (v - u)))) by (rewrite E; ring).
  eapply Rle_trans; [apply Rabs_triang|]. rewrite Rabs_Ropp, Rabs_mult, (Rabs_right c) by lra.
  assert (c * Rabs (v - u) <= c * (m * e)) by (apply Rmult_le_compat_l; assumption). lra.
Qed.
End Gen.

(** ** other intervals *)
Lemma weighted_pull : forall w a b f v, a <> b -> weighted_integral w a b f v ->
  is_RInt_gen (fun x => w x * pulled a b f x) (at_right (-1)) (at_left 1) (v / ((b - a) / 2)).
Proof.
  intros w a b f v E H.
  assert (K : forall u k, u = (b - a) / 2 -> k = (a + b) / 2 -> is_RInt_gen (fun t => (fun x => w (to_unit a b x) * f x) (u * t + k)) (at_right (-1)) (at_left 1) (v / u)).
  { intros u k Eu Ek. assert (U : u <> 0) by lra.
    destruct H as [[L H]|[L H]].
    - apply (gen_lin (fun x => w (to_unit a b x) * f x) u k (at_right (-1)) (at_left 1) (at_right a) (at_left b)); [exact U| | |exact H].
      + apply affine_right; lra.
      + apply affine_left; lra.
    - apply (gen_lin (fun x => w (to_unit a b x) * f x) u k (at_right (-1)) (at_left 1) (at_left a) (at_right b)); [exact U| | |exact H].
      + apply affine_flip_l; lra.
      + apply affine_flip_r; lra. }
  specialize (K _ _ eq_refl eq_refl).
  refine (eq_ind _ (fun h => is_RInt_gen h (at_right (-1)) (at_left 1) (v / ((b - a) / 2))) K _ _).
  extensionality t. cbv beta. unfold pulled. f_equal. f_equal. unfold to_unit. field. lra.
Qed.
