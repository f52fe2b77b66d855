(** Specification vocabulary for serialization: which documents describe which
    values.  Independent of how the decoder works. *)
From Coq Require Import ZArith List String.
From Verif Require Import Arith Param Rules NewtonCotes Serde.
Import ListNotations.

(** The values of the entries of a map with a given key, in order. *)
Fixpoint entries {N : Type} (name : string) (m : list (string * Doc N)) : list (Doc N) :=
  match m with
  | [] => []
  | (k, d) :: r => if string_dec k name then d :: entries name r else entries name r
  end.

Section Spec.
Context {A : Arith}.
Variable strict : bool.

(** [rest] may follow the elements that are read. *)
Definition tail_ok {X : Type} (rest : list X) : Prop := strict = true -> rest = [].

(** A number, or an integer of at most 64 bits that is converted to one. *)
Inductive denotes_number : Doc A -> A -> Prop :=
| number_num : forall x, denotes_number (DNum x) x
| number_int : forall z, (- 2 ^ 63 <= z < 2 ^ 64)%Z -> denotes_number (DInt z) (nofZ z).

Definition denotes_pair (d : Doc A) (q : A * A) : Prop :=
  exists x w rest, d = DSeq (x :: w :: rest) /\ tail_ok rest /\
    denotes_number x (fst q) /\ denotes_number w (snd q).
Definition denotes_pairs (d : Doc A) (p : Pairs A) : Prop :=
  exists l, d = DSeq l /\ Forall2 denotes_pair l p.
Definition denotes_param (d : Doc A) (a : Param A) : Prop := denotes_number d (param_get a).
Definition denotes_degree (d : Doc A) (n : Z) : Prop := d = DInt n /\ nonzero_u32 n.

(** A map with the key [name] exactly once and any other keys, in any order,
    or a sequence that starts with the fields in order of declaration. *)
Definition one_field (name : string) (P : Doc A -> Prop) (d : Doc A) : Prop :=
  (exists m v, d = DMap m /\ entries name m = [v] /\ P v) \/
  (exists v rest, d = DSeq (v :: rest) /\ tail_ok rest /\ P v).
Definition two_fields (name1 name2 : string) (P Q : Doc A -> Prop) (d : Doc A) : Prop :=
  (exists m v w, d = DMap m /\ entries name1 m = [v] /\ entries name2 m = [w] /\ P v /\ Q w) \/
  (exists v w rest, d = DSeq (v :: w :: rest) /\ tail_ok rest /\ P v /\ Q w).
Definition three_fields (name1 name2 name3 : string) (P Q T : Doc A -> Prop) (d : Doc A) : Prop :=
  (exists m v w u, d = DMap m /\ entries name1 m = [v] /\ entries name2 m = [w] /\
     entries name3 m = [u] /\ P v /\ Q w /\ T u) \/
  (exists v w u rest, d = DSeq (v :: w :: u :: rest) /\ tail_ok rest /\ P v /\ Q w /\ T u).
End Spec.

(** Errors about fields are true: a missing field does not occur in the map, a duplicate field
    occurs at least twice, and both are fields of the struct. *)
Definition reports_fields {A : Arith} {T : Type} (f : Doc A -> T + DeError) (fields : list string) : Prop := forall d,
  (forall name, f d = inr (MissingField name) -> In name fields /\ exists m, d = DMap m /\ entries name m = []) /\
  (forall name, f d = inr (DuplicateField name) -> In name fields /\ exists m v w r, d = DMap m /\ entries name m = v :: w :: r).
