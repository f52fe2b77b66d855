(** What the errors of a failed deserialization say about the document. *)
From Coq Require Import ZArith List Bool String Lia.
From Verif Require Import Arith Param Rules NewtonCotes Serde SerdeSpec.
Import ListNotations.

Section Proofs.
Context {A : Arith}.
Variable strict : bool.
Notation De X := (Doc A -> X + DeError)%type.

(** decoders of field values do not report fields *)
Definition plain {X : Type} (de : De X) : Prop := forall d, (forall nm, de d <> inr (MissingField nm)) /\ (forall nm, de d <> inr (DuplicateField nm)).
Lemma plain_f64 : plain de_f64.
Proof. intros d. destruct d; cbn [de_f64]; try destruct (_ && _); split; intros nm; discriminate. Qed.
Lemma plain_degree : plain de_nonzero_u32.
Proof. intros d. destruct d; cbn [de_nonzero_u32]; try destruct (_ && _); split; intros nm; discriminate. Qed.
Lemma plain_param : plain (@de_param A).
Proof. intros d. unfold de_param, param_deserialize. destruct (plain_f64 d) as [P1 P2]. destruct (de_f64 d) as [v|e]; split; intros nm H; try discriminate; injection H as ->; [apply (P1 nm)|apply (P2 nm)]; reflexivity. Qed.
Lemma plain_pair : plain (@de_pair A strict).
Proof.
  intros d. destruct d as [x|z|l|m|]; try (split; intros nm; discriminate). destruct l as [|x [|w rest]]; cbn [de_pair].
  - split; intros nm; discriminate.
  - destruct (plain_f64 x) as [P1 P2]. destruct (de_f64 x); split; intros nm H; try discriminate; injection H as ->; [apply (P1 nm)|apply (P2 nm)]; reflexivity.
  - destruct (plain_f64 x) as [P1 P2]. destruct (de_f64 x) as [v|e].
    + destruct (plain_f64 w) as [Q1 Q2]. destruct (de_f64 w) as [v'|e].
      * destruct (strict && _); split; intros nm; discriminate.
      * split; intros nm H; injection H as ->; [apply (Q1 nm)|apply (Q2 nm)]; reflexivity.
    + split; intros nm H; injection H as ->; [apply (P1 nm)|apply (P2 nm)]; reflexivity.
Qed.
Lemma plain_pairs : plain (@de_pairs A strict).
Proof.
  intros d. destruct d as [x|z|l|m|]; try (split; intros nm; discriminate). cbn [de_pairs].
  induction l as [|d l [IH1 IH2]]; [split; intros nm; discriminate|]. cbn [de_all]. destruct (plain_pair d) as [P1 P2]. destruct (de_pair strict d) as [v|e].
  - destruct (de_all (de_pair strict) l) as [v'|e]; split; intros nm H; try discriminate; injection H as ->; [apply (IH1 nm)|apply (IH2 nm)]; reflexivity.
  - split; intros nm H; injection H as ->; [apply (P1 nm)|apply (P2 nm)]; reflexivity.
Qed.

Lemma entries_hit : forall k (d : Doc A) r, entries k ((k, d) :: r) = d :: entries k r.
Proof. intros. cbn [entries]. destruct (string_dec k k); [reflexivity|contradiction]. Qed.
Lemma entries_miss : forall k k' (d : Doc A) r, k <> k' -> entries k' ((k, d) :: r) = entries k' r.
Proof. intros. cbn [entries]. destruct (string_dec k k'); [contradiction|reflexivity]. Qed.
(** how often a field was seen before *)
Definition seen {X : Type} (s : option X) : nat := match s with Some _ => 1 | None => 0 end.
Lemma fill_cases : forall X nm (de : De X) s d, plain de ->
  match fill nm de s d with
  | inl s' => s = None /\ exists x, s' = Some x
  | inr (MissingField _) => False
  | inr (DuplicateField k) => k = nm /\ seen s = 1
  | inr _ => True
  end.
Proof.
  intros X nm de s d P. destruct s as [x|]; cbn [fill]; [split; reflexivity|]. destruct (P d) as [P1 P2]. destruct (de d) as [x|e]; [split; [reflexivity|exists x; reflexivity]|].
  destruct e; try exact I; [exact (P1 _ eq_refl)|exfalso; exact (P2 _ eq_refl)].
Qed.

Section Struct.
Variables X1 X2 X3 T : Type.
Variables n1 n2 n3 : string.
Variable d1 : De X1. Variable d2 : De X2. Variable d3 : De X3.
Hypothesis P1 : plain d1.
Hypothesis P2 : plain d2.
Hypothesis P3 : plain d3.
Hypothesis D12 : n1 <> n2.
Hypothesis D13 : n1 <> n3.
Hypothesis D23 : n2 <> n3.

Definition repeated {X : Type} (k n : string) (s : option X) (m : list (string * Doc A)) : Prop := k = n /\ 2 <= seen s + List.length (entries n m).
Ltac miss := repeat match goal with |- context [entries ?k ((?j, ?d) :: ?m)] => rewrite (entries_miss j k d m) by congruence end.
Lemma map1_cases : forall m s1, match map1 X1 n1 d1 m s1 with
  | inl o1 => o1 = None -> entries n1 m = []
  | inr (MissingField _) => False
  | inr (DuplicateField k) => repeated k n1 s1 m
  | inr _ => True end /\ (forall x1, s1 = Some x1 -> forall o1, map1 X1 n1 d1 m s1 = inl o1 -> o1 <> None).
Proof.
  induction m as [|[k d] m IH]; intros s1; cbn [map1].
  - split; [reflexivity|]. intros x1 -> o1 E. injection E as <-. discriminate.
  - destruct (String.eqb_spec k n1) as [->|N1].
    + pose proof (fill_cases X1 n1 d1 s1 d P1) as F. destruct (fill n1 d1 s1 d) as [s'|e].
      * destruct F as [-> [x ->]]. destruct (IH (Some x)) as [I1 I2]. split; [|intros x1 E; discriminate].
        destruct (map1 X1 n1 d1 m (Some x)) as [o|e]; [intros ->; exfalso; exact (I2 x eq_refl None eq_refl eq_refl)|].
        destruct e; try exact I1. destruct I1 as [-> I1]. split; [reflexivity|]. rewrite entries_hit. cbn [seen List.length] in *. lia.
      * split; [|intros x1 _ o1 E; discriminate]. destruct e; try exact F. destruct F as [-> F]. split; [reflexivity|]. rewrite entries_hit, F. cbn [List.length]. lia.
    + destruct (IH s1) as [I1 I2]. split; [|exact I2]. destruct (map1 X1 n1 d1 m s1) as [o|e]; [miss; exact I1|]. destruct e; try exact I1. unfold repeated in *. miss. exact I1.
Qed.
Lemma map2_cases : forall m s1 s2, match map2 X1 X2 n1 n2 d1 d2 m s1 s2 with
  | inl (o1, o2) => (o1 = None -> s1 = None /\ entries n1 m = []) /\ (o2 = None -> s2 = None /\ entries n2 m = [])
  | inr (MissingField _) => False
  | inr (DuplicateField k) => repeated k n1 s1 m \/ repeated k n2 s2 m
  | inr _ => True end.
Proof.
  induction m as [|[k d] m IH]; intros s1 s2; cbn [map2].
  - split; intros ->; split; reflexivity.
  - destruct (String.eqb_spec k n1) as [->|N1]; [|destruct (String.eqb_spec k n2) as [->|N2]].
    + pose proof (fill_cases X1 n1 d1 s1 d P1) as F. destruct (fill n1 d1 s1 d) as [s'|e].
      * destruct F as [-> [x ->]]. specialize (IH (Some x) s2). destruct (map2 X1 X2 n1 n2 d1 d2 m (Some x) s2) as [[o1 o2]|e].
        -- destruct IH as [I1 I2]. split; [intros E; destruct (I1 E); discriminate|]. miss. exact I2.
        -- destruct e; try exact IH. unfold repeated in *. miss. rewrite entries_hit. cbn [seen List.length] in *. destruct IH as [[-> IH]|IH]; [left; split; [reflexivity|lia]|right; exact IH].
      * destruct e; try exact F. destruct F as [-> F]. left. split; [reflexivity|]. rewrite entries_hit, F. cbn [List.length]. lia.
    + pose proof (fill_cases X2 n2 d2 s2 d P2) as F. destruct (fill n2 d2 s2 d) as [s'|e].
      * destruct F as [-> [x ->]]. specialize (IH s1 (Some x)). destruct (map2 X1 X2 n1 n2 d1 d2 m s1 (Some x)) as [[o1 o2]|e].
        -- destruct IH as [I1 I2]. split; [|intros E; destruct (I2 E); discriminate]. miss. exact I1.
        -- destruct e; try exact IH. unfold repeated in *. miss. rewrite entries_hit. cbn [seen List.length] in *. destruct IH as [IH|[-> IH]]; [left; exact IH|right; split; [reflexivity|lia]].
      * destruct e; try exact F. destruct F as [-> F]. right. split; [reflexivity|]. rewrite entries_hit, F. cbn [List.length]. lia.
    + specialize (IH s1 s2). destruct (map2 X1 X2 n1 n2 d1 d2 m s1 s2) as [[o1 o2]|e]; [miss; exact IH|]. destruct e; try exact IH. unfold repeated in *. miss. exact IH.
Qed.
Lemma map3_cases : forall m s1 s2 s3, match map3 X1 X2 X3 n1 n2 n3 d1 d2 d3 m s1 s2 s3 with
  | inl (o1, o2, o3) => (o1 = None -> s1 = None /\ entries n1 m = []) /\ (o2 = None -> s2 = None /\ entries n2 m = []) /\ (o3 = None -> s3 = None /\ entries n3 m = [])
  | inr (MissingField _) => False
  | inr (DuplicateField k) => repeated k n1 s1 m \/ repeated k n2 s2 m \/ repeated k n3 s3 m
  | inr _ => True end.
Proof.
  induction m as [|[k d] m IH]; intros s1 s2 s3; cbn [map3].
  - repeat split; intros; try assumption; subst; try reflexivity.
  - destruct (String.eqb_spec k n1) as [->|N1]; [|destruct (String.eqb_spec k n2) as [->|N2]; [|destruct (String.eqb_spec k n3) as [->|N3]]].
    + pose proof (fill_cases X1 n1 d1 s1 d P1) as F. destruct (fill n1 d1 s1 d) as [s'|e].
      * destruct F as [-> [x ->]]. specialize (IH (Some x) s2 s3). destruct (map3 X1 X2 X3 n1 n2 n3 d1 d2 d3 m (Some x) s2 s3) as [[[o1 o2] o3]|e].
        -- destruct IH as (I1 & I2 & I3). split; [intros E; destruct (I1 E); discriminate|]. miss. split; assumption.
        -- destruct e; try exact IH. unfold repeated in *. miss. rewrite entries_hit. cbn [seen List.length] in *. destruct IH as [[-> IH]|IH]; [left; split; [reflexivity|lia]|right; exact IH].
      * destruct e; try exact F. destruct F as [-> F]. left. split; [reflexivity|]. rewrite entries_hit, F. cbn [List.length]. lia.
    + pose proof (fill_cases X2 n2 d2 s2 d P2) as F. destruct (fill n2 d2 s2 d) as [s'|e].
      * destruct F as [-> [x ->]]. specialize (IH s1 (Some x) s3). destruct (map3 X1 X2 X3 n1 n2 n3 d1 d2 d3 m s1 (Some x) s3) as [[[o1 o2] o3]|e].
        -- destruct IH as (I1 & I2 & I3). split; [|split]; [miss; exact I1|intros E; destruct (I2 E); discriminate|miss; exact I3].
        -- destruct e; try exact IH. unfold repeated in *. miss. rewrite entries_hit. cbn [seen List.length] in *. destruct IH as [IH|[[-> IH]|IH]]; [left; exact IH|right; left; split; [reflexivity|lia]|right; right; exact IH].
      * destruct e; try exact F. destruct F as [-> F]. right; left. split; [reflexivity|]. rewrite entries_hit, F. cbn [List.length]. lia.
    + pose proof (fill_cases X3 n3 d3 s3 d P3) as F. destruct (fill n3 d3 s3 d) as [s'|e].
      * destruct F as [-> [x ->]]. specialize (IH s1 s2 (Some x)). destruct (map3 X1 X2 X3 n1 n2 n3 d1 d2 d3 m s1 s2 (Some x)) as [[[o1 o2] o3]|e].
        -- destruct IH as (I1 & I2 & I3). split; [|split]; [miss; exact I1|miss; exact I2|intros E; destruct (I3 E); discriminate].
        -- destruct e; try exact IH. unfold repeated in *. miss. rewrite entries_hit. cbn [seen List.length] in *. destruct IH as [IH|[IH|[-> IH]]]; [left; exact IH|right; left; exact IH|right; right; split; [reflexivity|lia]].
      * destruct e; try exact F. destruct F as [-> F]. right; right. split; [reflexivity|]. rewrite entries_hit, F. cbn [List.length]. lia.
    + specialize (IH s1 s2 s3). destruct (map3 X1 X2 X3 n1 n2 n3 d1 d2 d3 m s1 s2 s3) as [[[o1 o2] o3]|e]; [miss; exact IH|]. destruct e; try exact IH. unfold repeated in *. miss. exact IH.
Qed.

Lemma twice : forall k n (m : list (string * Doc A)), repeated k n (@None unit) m -> k = n /\ exists v w r, entries n m = v :: w :: r.
Proof. intros k n m [E H]. split; [exact E|]. destruct (entries n m) as [|v [|w r]]; cbn [seen List.length] in H; [lia|lia|]. exists v, w, r. reflexivity. Qed.
Lemma seq_one : forall X (de : De X) v Y (F : X -> Y + DeError), plain de -> (forall x, (forall nm, F x <> inr (MissingField nm)) /\ (forall nm, F x <> inr (DuplicateField nm))) ->
  (forall nm, match de v with inr e => inr e | inl x => F x end <> inr (MissingField nm)) /\ (forall nm, match de v with inr e => inr e | inl x => F x end <> inr (DuplicateField nm)).
Proof.
  intros X de v Y F P H. destruct (P v) as [Q1 Q2]. destruct (de v) as [x|e]; [apply H|]. split; intros nm E; injection E as ->; [apply (Q1 nm)|apply (Q2 nm)]; reflexivity.
Qed.
Lemma last_one : forall Y (b : bool) (x : Y), (forall nm, (if b then inr InvalidLength else inl x) <> inr (MissingField nm)) /\ (forall nm, (if b then inr InvalidLength else inl x) <> inr (DuplicateField nm)).
Proof. intros Y [] x; split; intros nm; discriminate. Qed.
Lemma absurd_fields : forall T' (f : De T') fs d, (forall nm, f d <> inr (MissingField nm)) /\ (forall nm, f d <> inr (DuplicateField nm)) ->
  (forall nm, f d = inr (MissingField nm) -> In nm fs /\ exists m, d = DMap m /\ entries nm m = []) /\
  (forall nm, f d = inr (DuplicateField nm) -> In nm fs /\ exists m v w r, d = DMap m /\ entries nm m = v :: w :: r).
Proof. intros T' f fs d [H1 H2]. split; intros nm E; exfalso; [exact (H1 nm E)|exact (H2 nm E)]. Qed.

Lemma struct1_errors : forall build, reports_fields (@struct1 A strict X1 T n1 d1 build) [n1].
Proof.
  intros build d. destruct d as [x|z|l|m|]; try (apply absurd_fields; split; intros nm; discriminate).
  - apply absurd_fields. destruct l as [|v rest]; [split; intros nm; discriminate|]. cbn [struct1]. apply seq_one; [exact P1|]. intros x. apply last_one.
  - cbn [struct1]. destruct (map1_cases m None) as [C _]. destruct (map1 X1 n1 d1 m None) as [[x|]|e].
    + split; intros nm; discriminate.
    + split; intros nm E; [|discriminate]. injection E as <-. split; [left; reflexivity|]. exists m. split; [reflexivity|exact (C eq_refl)].
    + destruct e; try (split; intros nm E; discriminate); [contradiction|]. split; intros nm E; [discriminate|]. injection E as <-.
      apply (twice name n1 m) in C. destruct C as [-> (v & w & r & C)]. split; [left; reflexivity|]. exists m, v, w, r. split; [reflexivity|exact C].
Qed.
Lemma struct2_errors : forall build, reports_fields (@struct2 A strict X1 X2 T n1 n2 d1 d2 build) [n1; n2].
Proof.
  intros build d. destruct d as [x|z|l|m|]; try (apply absurd_fields; split; intros nm; discriminate).
  - apply absurd_fields. destruct l as [|v [|v' rest]]; try (split; intros nm; discriminate). cbn [struct2]. apply seq_one; [exact P1|]. intros x. apply seq_one; [exact P2|]. intros x'. apply last_one.
  - cbn [struct2]. pose proof (map2_cases m None None) as C. destruct (map2 X1 X2 n1 n2 d1 d2 m None None) as [[[x1|] o2]|e].
    + destruct C as [C1 C2]. destruct o2 as [x2|]; [split; intros nm; discriminate|]. split; intros nm E; [|discriminate]. injection E as <-. split; [right; left; reflexivity|]. exists m. split; [reflexivity|apply C2; reflexivity].
    + destruct C as [C1 C2]. split; intros nm E; [|discriminate]. injection E as <-. split; [left; reflexivity|]. exists m. split; [reflexivity|apply C1; reflexivity].
    + destruct e; try (split; intros nm E; discriminate); [contradiction|]. split; intros nm E; [discriminate|]. injection E as <-.
      destruct C as [C|C]; [apply (twice name n1 m) in C|apply (twice name n2 m) in C]; destruct C as [-> (v & w & r & C)].
      * split; [left; reflexivity|]. exists m, v, w, r. split; [reflexivity|exact C].
      * split; [right; left; reflexivity|]. exists m, v, w, r. split; [reflexivity|exact C].
Qed.
Lemma struct3_errors : forall build, reports_fields (@struct3 A strict X1 X2 X3 T n1 n2 n3 d1 d2 d3 build) [n1; n2; n3].
Proof.
  intros build d. destruct d as [x|z|l|m|]; try (apply absurd_fields; split; intros nm; discriminate).
  - apply absurd_fields. destruct l as [|v [|v' [|v'' rest]]]; try (split; intros nm; discriminate). cbn [struct3]. apply seq_one; [exact P1|]. intros x. apply seq_one; [exact P2|]. intros x'. apply seq_one; [exact P3|]. intros x''. apply last_one.
  - cbn [struct3]. pose proof (map3_cases m None None None) as C. destruct (map3 X1 X2 X3 n1 n2 n3 d1 d2 d3 m None None None) as [[[[x1|] o2] o3]|e].
    + destruct C as (C1 & C2 & C3). destruct o2 as [x2|].
      * destruct o3 as [x3|]; [split; intros nm; discriminate|]. split; intros nm E; [|discriminate]. injection E as <-. split; [right; right; left; reflexivity|]. exists m. split; [reflexivity|apply C3; reflexivity].
      * split; intros nm E; [|discriminate]. injection E as <-. split; [right; left; reflexivity|]. exists m. split; [reflexivity|apply C2; reflexivity].
    + destruct C as (C1 & C2 & C3). split; intros nm E; [|discriminate]. injection E as <-. split; [left; reflexivity|]. exists m. split; [reflexivity|apply C1; reflexivity].
    + destruct e; try (split; intros nm E; discriminate); [contradiction|]. split; intros nm E; [discriminate|]. injection E as <-.
      destruct C as [C|[C|C]]; [apply (twice name n1 m) in C|apply (twice name n2 m) in C|apply (twice name n3 m) in C]; destruct C as [-> (v & w & r & C)].
      * split; [left; reflexivity|]. exists m, v, w, r. split; [reflexivity|exact C].
      * split; [right; left; reflexivity|]. exists m, v, w, r. split; [reflexivity|exact C].
      * split; [right; right; left; reflexivity|]. exists m, v, w, r. split; [reflexivity|exact C].
Qed.
End Struct.
Local Open Scope string_scope.
Lemma all_errors :
  reports_fields (legendre_deserialize (A := A) strict) ["node_weight_pairs"] /\
  reports_fields (chebyshev1_deserialize (A := A) strict) ["node_weight_pairs"] /\
  reports_fields (chebyshev2_deserialize (A := A) strict) ["node_weight_pairs"] /\
  reports_fields (hermite_deserialize (A := A) strict) ["node_weight_pairs"] /\
  reports_fields (laguerre_deserialize (A := A) strict) ["node_weight_pairs"; "alpha"] /\
  reports_fields (jacobi_deserialize (A := A) strict) ["node_weight_pairs"; "alpha"; "beta"] /\
  reports_fields (midpoint_deserialize (A := A) strict) ["degree"] /\
  reports_fields (trapezoid_deserialize (A := A) strict) ["degree"] /\
  reports_fields (simpson_deserialize (A := A) strict) ["degree"].
Proof.
  repeat match goal with |- _ /\ _ => split end; first [ apply struct1_errors | apply struct2_errors | apply struct3_errors ]; first [ exact plain_pairs | exact plain_param | exact plain_degree | discriminate ].
Qed.
End Proofs.
