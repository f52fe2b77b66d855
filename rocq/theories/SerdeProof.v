(** Proofs about serialization (C57). *)
From Coq Require Import ZArith List Bool String Lia.
From Verif Require Import Arith Param Rules NewtonCotes Serde SerdeSpec.
Import ListNotations.

Section Proofs.
Context {A : Arith}.
Variable strict : bool.
Notation De X := (Doc A -> X + DeError)%type.

Lemma de_f64_iff (d : Doc A) x : de_f64 d = inl x <-> denotes_number d x.
Proof.
  destruct d; cbn [de_f64].
  - split; [intros E; inversion E; constructor | intros E; inversion E; reflexivity].
  - destruct (_ && _) eqn:E.
    + split; [|intros H; inversion H; reflexivity].
      intros H; inversion H. constructor. apply andb_true_iff in E. destruct E as [E1 E2].
      apply Z.leb_le in E1. apply Z.ltb_lt in E2. split; assumption.
    + split; [discriminate|]. intros H; inversion H; subst.
      destruct H1 as [H1 H2]. apply Z.leb_le in H1. apply Z.ltb_lt in H2.
      rewrite H1, H2 in E. discriminate.
  - split; [discriminate|]. intros H; inversion H.
  - split; [discriminate|]. intros H; inversion H.
  - split; [discriminate|]. intros H; inversion H.
Qed.

Lemma de_nonzero_u32_iff (d : Doc A) n : de_nonzero_u32 d = inl n <-> denotes_degree d n.
Proof.
  unfold denotes_degree, nonzero_u32. destruct d; cbn [de_nonzero_u32];
    try (split; [discriminate | intros [H _]; discriminate]).
  destruct (_ && _) eqn:E.
  - apply andb_true_iff in E. destruct E as [E1 E2]. apply Z.leb_le in E1. apply Z.ltb_lt in E2.
    split.
    + intros H; inversion H; subst. split; [reflexivity | split; assumption].
    + intros [H _]. inversion H. reflexivity.
  - split; [discriminate|]. intros [H [H1 H2]]. inversion H; subst.
    apply Z.leb_le in H1. apply Z.ltb_lt in H2. rewrite H1, H2 in E. discriminate.
Qed.

Lemma tail_ok_iff {X} (rest : list X) :
  tail_ok strict rest <->
  strict && negb (match rest with [] => true | _ => false end) = false.
Proof.
  unfold tail_ok. destruct strict; destruct rest; simpl; split; intros H;
    try reflexivity; try discriminate; try (intros; discriminate).
  specialize (H eq_refl). discriminate.
Qed.

Lemma de_pair_iff (d : Doc A) q : de_pair strict d = inl q <-> denotes_pair strict d q.
Proof.
  unfold denotes_pair. destruct d as [d0|d0|l|d0|];
    try (simpl; split; [discriminate | intros (x & w & rest & H & _); discriminate]).
  destruct l as [|x [|w rest]].
  - simpl. split; [discriminate | intros (x & w & rest & H & _); discriminate].
  - simpl. split; [|intros (x' & w & rest & H & _); discriminate].
    destruct (de_f64 x); discriminate.
  - simpl. split.
    + destruct (de_f64 x) as [x'|] eqn:Ex; [|discriminate].
      destruct (de_f64 w) as [w'|] eqn:Ew; [|discriminate].
      destruct (strict && _) eqn:Et; [discriminate|]. intros H; inversion H; subst.
      exists x, w, rest. split; [reflexivity|]. split; [apply tail_ok_iff; exact Et|].
      split; apply de_f64_iff; assumption.
    + intros (x' & w' & rest' & H & T & Hx & Hw). inversion H; subst.
      apply de_f64_iff in Hx. apply de_f64_iff in Hw. rewrite Hx, Hw.
      apply tail_ok_iff in T. rewrite T. destruct q; reflexivity.
Qed.

Lemma de_all_iff {X} (de : De X) (P : Doc A -> X -> Prop) :
  (forall d x, de d = inl x <-> P d x) ->
  forall l xs, de_all de l = inl xs <-> Forall2 P l xs.
Proof.
  intros HP. induction l as [|d l IH]; intros xs; simpl.
  - split; [intros E; inversion E; constructor | intros E; inversion E; reflexivity].
  - split.
    + destruct (de d) as [x|] eqn:E; [|discriminate].
      destruct (de_all de l) as [ys|] eqn:El; [|discriminate].
      intros H; inversion H. constructor; [apply HP; exact E | apply IH; reflexivity].
    + intros H; inversion H; subst. apply HP in H2. rewrite H2.
      apply IH in H4. rewrite H4. reflexivity.
Qed.

Lemma de_pairs_iff (d : Doc A) p : de_pairs strict d = inl p <-> denotes_pairs strict d p.
Proof.
  unfold denotes_pairs. destruct d as [d0|d0|l|d0|];
    try (simpl; split; [discriminate | intros (l & H & _); discriminate]).
  simpl. split.
  - intros H. exists l. split; [reflexivity|]. revert H. apply de_all_iff. apply de_pair_iff.
  - intros (l' & H & F). inversion H; subst. revert F. apply de_all_iff. apply de_pair_iff.
Qed.

Lemma de_param_iff (d : Doc A) a : de_param d = inl a <-> denotes_param d a.
Proof.
  unfold de_param, param_deserialize, denotes_param, param_get. destruct a as [a]. simpl.
  rewrite <- de_f64_iff. destruct (de_f64 d); split; intros H; inversion H; reflexivity.
Qed.

(** What happens to one field's slot while a map is read. *)
Definition slot_run {X} (de : De X) (s : option X) (es : list (Doc A)) (s' : option X) : Prop :=
  (es = [] /\ s' = s) \/ (s = None /\ exists v x, es = [v] /\ de v = inl x /\ s' = Some x).
Lemma slot_nil {X} (de : De X) s s' : slot_run de s [] s' <-> s' = s.
Proof.
  unfold slot_run. split.
  - intros [[_ H]|(_ & v & x & H & _)]; [exact H | discriminate].
  - intros H. left. split; [reflexivity | exact H].
Qed.
Lemma slot_cons {X} n (de : De X) s d es s' :
  slot_run de s (d :: es) s' <-> exists s1, fill n de s d = inl s1 /\ slot_run de s1 es s'.
Proof.
  unfold slot_run, fill. split.
  - intros [[H _]|(-> & v & x & H & E & ->)]; [discriminate|]. inversion H; subst.
    rewrite E. exists (Some x). split; [reflexivity|]. left. split; reflexivity.
  - intros (s1 & H & H1). destruct s as [x0|]; [discriminate|].
    destruct (de d) as [x|] eqn:E; [|discriminate]. inversion H; subst.
    destruct H1 as [[-> ->]|(H1 & _)]; [|discriminate].
    right. split; [reflexivity|]. exists d, x. split; [reflexivity | split; [exact E | reflexivity]].
Qed.
Lemma slot_some {X} (de : De X) es x :
  slot_run de None es (Some x) <-> exists v, es = [v] /\ de v = inl x.
Proof.
  unfold slot_run. split.
  - intros [[_ H]|(_ & v & y & -> & E & H)]; [discriminate|]. inversion H; subst.
    exists v. split; [reflexivity | exact E].
  - intros (v & -> & E). right. split; [reflexivity|]. exists v, x. auto.
Qed.

Section Struct.
Variables X1 X2 X3 T : Type.
Variables n1 n2 n3 : string.
Variable d1 : De X1. Variable d2 : De X2. Variable d3 : De X3.

Lemma entries_eq k (d : Doc A) r : entries k ((k, d) :: r) = d :: entries k r.
Proof. simpl. destruct (string_dec k k); [reflexivity | congruence]. Qed.
Lemma entries_neq n k (d : Doc A) r : k <> n -> entries n ((k, d) :: r) = entries n r.
Proof. intros H. simpl. destruct (string_dec k n); [contradiction | reflexivity]. Qed.

Lemma map1_iff m : forall s s',
  map1 X1 n1 d1 m s = inl s' <-> slot_run d1 s (entries n1 m) s'.
Proof.
  induction m as [|[k d] r IH]; intros s s'.
  - simpl. rewrite slot_nil. split; [intros H; inversion H; reflexivity | intros ->; reflexivity].
  - cbn [map1]. destruct (String.eqb k n1) eqn:E.
    + apply String.eqb_eq in E. subst k. rewrite entries_eq. rewrite (slot_cons n1).
      destruct (fill n1 d1 s d) as [s1|e]; split.
      * intros H. exists s1. split; [reflexivity | apply IH; exact H].
      * intros (s2 & H & H2). inversion H; subst. apply IH; exact H2.
      * discriminate.
      * intros (s2 & H & _). discriminate.
    + apply String.eqb_neq in E. rewrite (entries_neq n1) by exact E. apply IH.
Qed.

Lemma map2_iff m : n1 <> n2 -> forall s1 s2 t1 t2,
  map2 X1 X2 n1 n2 d1 d2 m s1 s2 = inl (t1, t2) <->
  slot_run d1 s1 (entries n1 m) t1 /\ slot_run d2 s2 (entries n2 m) t2.
Proof.
  intros N12. induction m as [|[k d] r IH]; intros s1 s2 t1 t2.
  - simpl. rewrite !slot_nil. split; [intros H; inversion H; auto | intros [-> ->]; reflexivity].
  - cbn [map2]. destruct (String.eqb k n1) eqn:E1.
    + apply String.eqb_eq in E1. subst k. rewrite entries_eq, (entries_neq n2) by exact N12.
      rewrite (slot_cons n1). destruct (fill n1 d1 s1 d) as [s|e]; split.
      * intros H. apply IH in H. destruct H as [Ha Hb]. split; [exists s; auto | exact Hb].
      * intros [(s' & H & Ha) Hb]. inversion H; subst. apply IH; auto.
      * discriminate.
      * intros [(s' & H & _) _]. discriminate.
    + apply String.eqb_neq in E1. rewrite (entries_neq n1) by exact E1.
      destruct (String.eqb k n2) eqn:E2.
      * apply String.eqb_eq in E2. subst k. rewrite entries_eq.
        rewrite (slot_cons n2). destruct (fill n2 d2 s2 d) as [s|e]; split.
        -- intros H. apply IH in H. destruct H as [Ha Hb]. split; [exact Ha | exists s; auto].
        -- intros [Ha (s' & H & Hb)]. inversion H; subst. apply IH; auto.
        -- discriminate.
        -- intros [_ (s' & H & _)]. discriminate.
      * apply String.eqb_neq in E2. rewrite (entries_neq n2) by exact E2. apply IH.
Qed.

Lemma map3_iff m : n1 <> n2 -> n1 <> n3 -> n2 <> n3 -> forall s1 s2 s3 t1 t2 t3,
  map3 X1 X2 X3 n1 n2 n3 d1 d2 d3 m s1 s2 s3 = inl (t1, t2, t3) <->
  slot_run d1 s1 (entries n1 m) t1 /\ slot_run d2 s2 (entries n2 m) t2 /\
  slot_run d3 s3 (entries n3 m) t3.
Proof.
  intros N12 N13 N23. induction m as [|[k d] r IH]; intros s1 s2 s3 t1 t2 t3.
  - simpl. rewrite !slot_nil.
    split; [intros H; inversion H; auto | intros (-> & -> & ->); reflexivity].
  - cbn [map3]. destruct (String.eqb k n1) eqn:E1.
    + apply String.eqb_eq in E1. subst k.
      rewrite entries_eq, (entries_neq n2), (entries_neq n3) by assumption.
      rewrite (slot_cons n1). destruct (fill n1 d1 s1 d) as [s|e]; split.
      * intros H. apply IH in H. destruct H as (Ha & Hb & Hc). split; [exists s; auto | auto].
      * intros [(s' & H & Ha) Hb]. inversion H; subst. apply IH; tauto.
      * discriminate.
      * intros [(s' & H & _) _]. discriminate.
    + apply String.eqb_neq in E1. rewrite (entries_neq n1) by exact E1.
      destruct (String.eqb k n2) eqn:E2.
      * apply String.eqb_eq in E2. subst k. rewrite entries_eq, (entries_neq n3) by assumption.
        rewrite (slot_cons n2). destruct (fill n2 d2 s2 d) as [s|e]; split.
        -- intros H. apply IH in H. destruct H as (Ha & Hb & Hc).
           split; [exact Ha | split; [exists s; auto | exact Hc]].
        -- intros (Ha & (s' & H & Hb) & Hc). inversion H; subst. apply IH; auto.
        -- discriminate.
        -- intros (_ & (s' & H & _) & _). discriminate.
      * apply String.eqb_neq in E2. rewrite (entries_neq n2) by exact E2.
        destruct (String.eqb k n3) eqn:E3.
        -- apply String.eqb_eq in E3. subst k. rewrite entries_eq.
           rewrite (slot_cons n3). destruct (fill n3 d3 s3 d) as [s|e]; split.
           ++ intros H. apply IH in H. destruct H as (Ha & Hb & Hc).
              split; [exact Ha | split; [exact Hb | exists s; auto]].
           ++ intros (Ha & Hb & (s' & H & Hc)). inversion H; subst. apply IH; auto.
           ++ discriminate.
           ++ intros (_ & _ & (s' & H & _)). discriminate.
        -- apply String.eqb_neq in E3. rewrite (entries_neq n3) by exact E3. apply IH.
Qed.

Variable P1 : Doc A -> X1 -> Prop. Variable P2 : Doc A -> X2 -> Prop.
Variable P3 : Doc A -> X3 -> Prop.
Hypothesis H1 : forall d x, d1 d = inl x <-> P1 d x.
Hypothesis H2 : forall d x, d2 d = inl x <-> P2 d x.
Hypothesis H3 : forall d x, d3 d = inl x <-> P3 d x.

Lemma struct1_iff (build : X1 -> T) : (forall x y, build x = build y -> x = y) ->
  forall d x, struct1 strict X1 T n1 d1 build d = inl (build x)
    <-> one_field strict n1 (fun v => P1 v x) d.
Proof.
  intros Inj d x. unfold one_field. destruct d as [d0|d0|l|m|].
  - simpl. split; [discriminate|]. intros [(m & v & H & _)|(v & r & H & _)]; discriminate.
  - simpl. split; [discriminate|]. intros [(m & v & H & _)|(v & r & H & _)]; discriminate.
  - destruct l as [|v1 rest].
    + simpl. split; [discriminate|]. intros [(m & v & H & _)|(v & r & H & _)]; discriminate.
    + cbn [struct1]. split.
      * destruct (d1 v1) as [x1|] eqn:E1; [|discriminate].
        destruct (strict && _) eqn:Et; [discriminate|]. intros H. injection H as H.
        apply Inj in H. subst x1.
        right. exists v1, rest. split; [reflexivity|]. split; [apply tail_ok_iff; exact Et|].
        apply H1; exact E1.
      * intros [(m & v & H & _)|(v & r & H & Ht & Hv)]; [discriminate|]. injection H as <- <-.
        apply H1 in Hv. rewrite Hv. apply tail_ok_iff in Ht. rewrite Ht. reflexivity.
  - cbn [struct1]. split.
    + destruct (map1 X1 n1 d1 m None) as [[x1|]|] eqn:E; try discriminate.
      intros H. injection H as H. apply Inj in H. subst x1.
      apply map1_iff in E. apply slot_some in E. destruct E as (v & Ev & Dv).
      left. exists m, v. split; [reflexivity|]. split; [exact Ev|]. apply H1; exact Dv.
    + intros [(m' & v & H & Ev & Hv)|(v & r & H & _)]; [|discriminate]. injection H as <-.
      assert (E : map1 X1 n1 d1 m None = inl (Some x)).
      { apply map1_iff. apply slot_some. exists v. split; [exact Ev | apply H1; exact Hv]. }
      rewrite E. reflexivity.
  - simpl. split; [discriminate|]. intros [(m & v & H & _)|(v & r & H & _)]; discriminate.
Qed.

Lemma struct2_iff (build : X1 -> X2 -> T) : n1 <> n2 ->
  (forall x y x' y', build x y = build x' y' -> x = x' /\ y = y') ->
  forall d x y, struct2 strict X1 X2 T n1 n2 d1 d2 build d = inl (build x y)
    <-> two_fields strict n1 n2 (fun v => P1 v x) (fun v => P2 v y) d.
Proof.
  intros N Inj d x y. unfold two_fields. destruct d as [d0|d0|l|m|].
  - simpl. split; [discriminate|]. intros [(m & v & w & H & _)|(v & w & r & H & _)]; discriminate.
  - simpl. split; [discriminate|]. intros [(m & v & w & H & _)|(v & w & r & H & _)]; discriminate.
  - destruct l as [|v1 [|v2 rest]].
    + simpl. split; [discriminate|]. intros [(m & v & w & H & _)|(v & w & r & H & _)]; discriminate.
    + simpl. split; [discriminate|]. intros [(m & v & w & H & _)|(v & w & r & H & _)]; discriminate.
    + cbn [struct2]. split.
      * destruct (d1 v1) as [x1|] eqn:E1; [|discriminate].
        destruct (d2 v2) as [x2|] eqn:E2; [|discriminate].
        destruct (strict && _) eqn:Et; [discriminate|]. intros H. injection H as H.
        apply Inj in H. destruct H as [-> ->].
        right. exists v1, v2, rest. split; [reflexivity|]. split; [apply tail_ok_iff; exact Et|].
        split; [apply H1; exact E1 | apply H2; exact E2].
      * intros [(m & v & w & H & _)|(v & w & r & H & Ht & Hv & Hw)]; [discriminate|].
        injection H as <- <- <-. apply H1 in Hv. rewrite Hv. apply H2 in Hw. rewrite Hw.
        apply tail_ok_iff in Ht. rewrite Ht. reflexivity.
  - cbn [struct2]. split.
    + destruct (map2 X1 X2 n1 n2 d1 d2 m None None) as [[[x1|] [x2|]]|] eqn:E; try discriminate.
      intros H. injection H as H. apply Inj in H. destruct H as [-> ->].
      apply map2_iff in E; [|exact N]. destruct E as [Ea Eb].
      apply slot_some in Ea. destruct Ea as (v & Ev & Dv).
      apply slot_some in Eb. destruct Eb as (w & Ew & Dw).
      left. exists m, v, w. split; [reflexivity|]. split; [exact Ev|]. split; [exact Ew|].
      split; [apply H1; exact Dv | apply H2; exact Dw].
    + intros [(m' & v & w & H & Ev & Ew & Hv & Hw)|(v & w & r & H & _)]; [|discriminate].
      injection H as <-.
      assert (E : map2 X1 X2 n1 n2 d1 d2 m None None = inl (Some x, Some y)).
      { apply map2_iff; [exact N|]. split; apply slot_some.
        - exists v. split; [exact Ev | apply H1; exact Hv].
        - exists w. split; [exact Ew | apply H2; exact Hw]. }
      rewrite E. reflexivity.
  - simpl. split; [discriminate|]. intros [(m & v & w & H & _)|(v & w & r & H & _)]; discriminate.
Qed.

Lemma struct3_iff (build : X1 -> X2 -> X3 -> T) : n1 <> n2 -> n1 <> n3 -> n2 <> n3 ->
  (forall x y z x' y' z', build x y z = build x' y' z' -> x = x' /\ y = y' /\ z = z') ->
  forall d x y z, struct3 strict X1 X2 X3 T n1 n2 n3 d1 d2 d3 build d = inl (build x y z)
    <-> three_fields strict n1 n2 n3 (fun v => P1 v x) (fun v => P2 v y) (fun v => P3 v z) d.
Proof.
  intros N12 N13 N23 Inj d x y z. unfold three_fields. destruct d as [d0|d0|l|m|].
  - simpl. split; [discriminate|].
    intros [(m & v & w & u & H & _)|(v & w & u & r & H & _)]; discriminate.
  - simpl. split; [discriminate|].
    intros [(m & v & w & u & H & _)|(v & w & u & r & H & _)]; discriminate.
  - destruct l as [|v1 [|v2 [|v3 rest]]];
      try (simpl; split; [discriminate|];
           intros [(m & v & w & u & H & _)|(v & w & u & r & H & _)]; discriminate).
    cbn [struct3]. split.
    + destruct (d1 v1) as [x1|] eqn:E1; [|discriminate].
      destruct (d2 v2) as [x2|] eqn:E2; [|discriminate].
      destruct (d3 v3) as [x3|] eqn:E3; [|discriminate].
      destruct (strict && _) eqn:Et; [discriminate|]. intros H. injection H as H.
      apply Inj in H. destruct H as (-> & -> & ->).
      right. exists v1, v2, v3, rest. split; [reflexivity|].
      split; [apply tail_ok_iff; exact Et|].
      split; [apply H1; exact E1 | split; [apply H2; exact E2 | apply H3; exact E3]].
    + intros [(m & v & w & u & H & _)|(v & w & u & r & H & Ht & Hv & Hw & Hu)]; [discriminate|].
      injection H as <- <- <- <-. apply H1 in Hv. rewrite Hv. apply H2 in Hw. rewrite Hw.
      apply H3 in Hu. rewrite Hu. apply tail_ok_iff in Ht. rewrite Ht. reflexivity.
  - cbn [struct3]. split.
    + destruct (map3 X1 X2 X3 n1 n2 n3 d1 d2 d3 m None None None)
        as [[[[x1|] [x2|]] [x3|]]|] eqn:E; try discriminate.
      intros H. injection H as H. apply Inj in H. destruct H as (-> & -> & ->).
      apply map3_iff in E; [|assumption..]. destruct E as (Ea & Eb & Ec).
      apply slot_some in Ea. destruct Ea as (v & Ev & Dv).
      apply slot_some in Eb. destruct Eb as (w & Ew & Dw).
      apply slot_some in Ec. destruct Ec as (u & Eu & Du).
      left. exists m, v, w, u. split; [reflexivity|]. split; [exact Ev|]. split; [exact Ew|].
      split; [exact Eu|].
      split; [apply H1; exact Dv | split; [apply H2; exact Dw | apply H3; exact Du]].
    + intros [(m' & v & w & u & H & Ev & Ew & Eu & Hv & Hw & Hu)|(v & w & u & r & H & _)];
        [|discriminate].
      injection H as <-.
      assert (E : map3 X1 X2 X3 n1 n2 n3 d1 d2 d3 m None None None = inl (Some x, Some y, Some z)).
      { apply map3_iff; [assumption..|]. split; [|split]; apply slot_some.
        - exists v. split; [exact Ev | apply H1; exact Hv].
        - exists w. split; [exact Ew | apply H2; exact Hw].
        - exists u. split; [exact Eu | apply H3; exact Hu]. }
      rewrite E. reflexivity.
  - simpl. split; [discriminate|].
    intros [(m & v & w & u & H & _)|(v & w & u & r & H & _)]; discriminate.
Qed.
End Struct.

Local Open Scope string_scope.

Lemma legendre_de_iff (d : Doc A) r : legendre_deserialize strict d = inl r <->
  one_field strict "node_weight_pairs" (fun v => denotes_pairs strict v (legendre_pairs r)) d.
Proof.
  destruct r as [p]. refine (struct1_iff _ _ _ _ _ de_pairs_iff _ _ d p).
  intros x y H. injection H as H. exact H.
Qed.
Lemma chebyshev1_de_iff (d : Doc A) r : chebyshev1_deserialize strict d = inl r <->
  one_field strict "node_weight_pairs" (fun v => denotes_pairs strict v (chebyshev1_pairs r)) d.
Proof.
  destruct r as [p]. refine (struct1_iff _ _ _ _ _ de_pairs_iff _ _ d p).
  intros x y H. injection H as H. exact H.
Qed.
Lemma chebyshev2_de_iff (d : Doc A) r : chebyshev2_deserialize strict d = inl r <->
  one_field strict "node_weight_pairs" (fun v => denotes_pairs strict v (chebyshev2_pairs r)) d.
Proof.
  destruct r as [p]. refine (struct1_iff _ _ _ _ _ de_pairs_iff _ _ d p).
  intros x y H. injection H as H. exact H.
Qed.
Lemma hermite_de_iff (d : Doc A) r : hermite_deserialize strict d = inl r <->
  one_field strict "node_weight_pairs" (fun v => denotes_pairs strict v (hermite_pairs r)) d.
Proof.
  destruct r as [p]. refine (struct1_iff _ _ _ _ _ de_pairs_iff _ _ d p).
  intros x y H. injection H as H. exact H.
Qed.
Lemma laguerre_de_iff (d : Doc A) r : laguerre_deserialize strict d = inl r <->
  two_fields strict "node_weight_pairs" "alpha"
    (fun v => denotes_pairs strict v (laguerre_pairs r))
    (fun v => denotes_param v (laguerre_alpha r)) d.
Proof.
  destruct r as [p a].
  refine (struct2_iff _ _ _ _ _ _ _ _ _ de_pairs_iff de_param_iff _ _ _ d p a).
  - discriminate.
  - intros x y x' y' H. injection H as H H'. split; assumption.
Qed.
Lemma jacobi_de_iff (d : Doc A) r : jacobi_deserialize strict d = inl r <->
  three_fields strict "node_weight_pairs" "alpha" "beta"
    (fun v => denotes_pairs strict v (jacobi_pairs r))
    (fun v => denotes_param v (jacobi_alpha r)) (fun v => denotes_param v (jacobi_beta r)) d.
Proof.
  destruct r as [p a b].
  refine (struct3_iff _ _ _ _ _ _ _ _ _ _ _ _ _ de_pairs_iff de_param_iff de_param_iff
            _ _ _ _ _ d p a b).
  - discriminate.
  - discriminate.
  - discriminate.
  - intros x y z x' y' z' H. injection H as H H' H''. split; [|split]; assumption.
Qed.
Lemma midpoint_de_iff (d : Doc A) r : midpoint_deserialize strict d = inl r <->
  one_field strict "degree" (fun v => denotes_degree v (midpoint_degree r)) d.
Proof.
  destruct r as [n]. refine (struct1_iff _ _ _ _ _ de_nonzero_u32_iff _ _ d n).
  intros x y H. injection H as H. exact H.
Qed.
Lemma trapezoid_de_iff (d : Doc A) r : trapezoid_deserialize strict d = inl r <->
  one_field strict "degree" (fun v => denotes_degree v (trapezoid_degree r)) d.
Proof.
  destruct r as [n]. refine (struct1_iff _ _ _ _ _ de_nonzero_u32_iff _ _ d n).
  intros x y H. injection H as H. exact H.
Qed.
Lemma simpson_de_iff (d : Doc A) r : simpson_deserialize strict d = inl r <->
  one_field strict "degree" (fun v => denotes_degree v (simpson_degree r)) d.
Proof.
  destruct r as [n]. refine (struct1_iff _ _ _ _ _ de_nonzero_u32_iff _ _ d n).
  intros x y H. injection H as H. exact H.
Qed.

(** Serialized values denote themselves. *)
Lemma ser_pairs_ok (p : Pairs A) : denotes_pairs strict (ser_pairs p) p.
Proof.
  unfold denotes_pairs, ser_pairs. eexists. split; [reflexivity|].
  induction p as [|[x w] p IH]; simpl; constructor; [|exact IH].
  exists (DNum x), (DNum w), []. split; [reflexivity|]. split; [intros _; reflexivity|].
  split; constructor.
Qed.
Lemma ser_param_ok (a : Param A) : denotes_param (ser_param a) a.
Proof. unfold denotes_param, ser_param, param_serialize, param_get. constructor. Qed.

Variable compact : bool.
Lemma ser_one name v (P : Doc A -> Prop) : P v ->
  one_field strict name P (ser_struct compact [(name, v)]).
Proof.
  intros H. unfold ser_struct, one_field. destruct compact.
  - right. exists v, []. split; [reflexivity|]. split; [intros _; reflexivity | exact H].
  - left. exists [(name, v)], v. split; [reflexivity|]. split; [|exact H]. apply entries_eq.
Qed.

Lemma legendre_round_trip (r : GaussLegendre A) :
  legendre_deserialize strict (legendre_serialize compact r) = inl r.
Proof. apply legendre_de_iff. apply ser_one. apply ser_pairs_ok. Qed.
Lemma chebyshev1_round_trip (r : GaussChebyshevFirstKind A) :
  chebyshev1_deserialize strict (chebyshev1_serialize compact r) = inl r.
Proof. apply chebyshev1_de_iff. apply ser_one. apply ser_pairs_ok. Qed.
Lemma chebyshev2_round_trip (r : GaussChebyshevSecondKind A) :
  chebyshev2_deserialize strict (chebyshev2_serialize compact r) = inl r.
Proof. apply chebyshev2_de_iff. apply ser_one. apply ser_pairs_ok. Qed.
Lemma hermite_round_trip (r : GaussHermite A) :
  hermite_deserialize strict (hermite_serialize compact r) = inl r.
Proof. apply hermite_de_iff. apply ser_one. apply ser_pairs_ok. Qed.
Lemma laguerre_round_trip (r : GaussLaguerre A) :
  laguerre_deserialize strict (laguerre_serialize compact r) = inl r.
Proof.
  apply laguerre_de_iff. unfold laguerre_serialize, ser_struct, two_fields. destruct compact.
  - right. eexists _, _, _. split; [reflexivity|]. split; [intros _; reflexivity|].
    split; [apply ser_pairs_ok | apply ser_param_ok].
  - left. eexists _, _, _. split; [reflexivity|]. split; [reflexivity|]. split; [reflexivity|].
    split; [apply ser_pairs_ok | apply ser_param_ok].
Qed.
Lemma jacobi_round_trip (r : GaussJacobi A) :
  jacobi_deserialize strict (jacobi_serialize compact r) = inl r.
Proof.
  apply jacobi_de_iff. unfold jacobi_serialize, ser_struct, three_fields. destruct compact.
  - right. eexists _, _, _, _. split; [reflexivity|]. split; [intros _; reflexivity|].
    split; [apply ser_pairs_ok | split; apply ser_param_ok].
  - left. eexists _, _, _, _. split; [reflexivity|]. split; [reflexivity|]. split; [reflexivity|].
    split; [reflexivity|].
    split; [apply ser_pairs_ok | split; apply ser_param_ok].
Qed.
Lemma midpoint_round_trip (r : Midpoint) : nonzero_u32 (midpoint_degree r) ->
  midpoint_deserialize strict (midpoint_serialize (A := A) compact r) = inl r.
Proof. intros H. apply midpoint_de_iff. apply ser_one. split; [reflexivity | exact H]. Qed.
Lemma trapezoid_round_trip (r : Trapezoid) : nonzero_u32 (trapezoid_degree r) ->
  trapezoid_deserialize strict (trapezoid_serialize (A := A) compact r) = inl r.
Proof. intros H. apply trapezoid_de_iff. apply ser_one. split; [reflexivity | exact H]. Qed.
Lemma simpson_round_trip (r : Simpson) : nonzero_u32 (simpson_degree r) ->
  simpson_deserialize strict (simpson_serialize (A := A) compact r) = inl r.
Proof. intros H. apply simpson_de_iff. apply ser_one. split; [reflexivity | exact H]. Qed.

(** The degree of a deserialized Newton-Cotes rule is a NonZeroU32. *)
Lemma one_field_degree name (d : Doc A) n :
  one_field strict name (fun v => denotes_degree v n) d -> nonzero_u32 n.
Proof. intros [(m & v & _ & _ & _ & H)|(v & r & _ & _ & _ & H)]; exact H. Qed.
Lemma nc_degree_valid (d : Doc A) :
  (forall r, midpoint_deserialize strict d = inl r -> nonzero_u32 (midpoint_degree r)) /\
  (forall r, trapezoid_deserialize strict d = inl r -> nonzero_u32 (trapezoid_degree r)) /\
  (forall r, simpson_deserialize strict d = inl r -> nonzero_u32 (simpson_degree r)).
Proof.
  split; [|split]; intros r H.
  - apply midpoint_de_iff in H. exact (one_field_degree _ _ _ H).
  - apply trapezoid_de_iff in H. exact (one_field_degree _ _ _ H).
  - apply simpson_de_iff in H. exact (one_field_degree _ _ _ H).
Qed.
End Proofs.
