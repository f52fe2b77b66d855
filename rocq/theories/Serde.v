(** Serialization of rules and parameters: the code that
    [derive(serde::Serialize, serde::Deserialize)] generates for the structs of
    the crate (feature "serde"), over serde's data model. *)
From Coq Require Import ZArith List Bool String.
From Verif Require Import Arith Machine Param Rules NewtonCotes.
Import ListNotations.

(** A document as a self-describing format presents it: numbers, integers,
    sequences, maps with string keys, and anything else (null, booleans,
    strings, bytes, ...).  How a format writes a document as text or bytes is
    not modelled. *)
Inductive Doc (N : Type) : Type :=
| DNum (x : N)
| DInt (z : Z)
| DSeq (l : list (Doc N))
| DMap (m : list (string * Doc N))
| DOther.
Arguments DNum {N} x. Arguments DInt {N} z. Arguments DSeq {N} l.
Arguments DMap {N} m. Arguments DOther {N}.

(** The error constructors of [serde::de::Error] that are used. *)
Inductive DeError : Type :=
| InvalidType
| InvalidNumber
| InvalidLength
| MissingField (name : string)
| DuplicateField (name : string).

Section Serde.
Context {A : Arith}.
(** Whether the format rejects a sequence with more elements than the visitor
    takes (serde_json does), or leaves the rest unread. *)
Variable strict : bool.

Notation De X := (Doc A -> X + DeError)%type.

(** [impl Deserialize for f64]: [visit_f64], and [visit_i64]/[visit_u64], which
    convert with [as]; 128-bit integers are not accepted. *)
Definition de_f64 : De A := fun d =>
  match d with
  | DNum x => inl x
  | DInt z => if ((- 2 ^ 63 <=? z) && (z <? 2 ^ 64))%Z then inl (nofZ z) else inr InvalidType
  | _ => inr InvalidType
  end.

(** [impl Deserialize for NonZeroU32]: integers that fit, but not zero. *)
Definition de_nonzero_u32 : De Z := fun d =>
  match d with
  | DInt z => if ((1 <=? z) && (z <? 2 ^ 32))%Z then inl z else inr InvalidNumber
  | _ => inr InvalidType
  end.

(** [impl Deserialize for (T, U)] at (f64, f64). *)
Definition de_pair : De (A * A) := fun d =>
  match d with
  | DSeq (x :: w :: rest) =>
      match de_f64 x with
      | inr e => inr e
      | inl x' =>
          match de_f64 w with
          | inr e => inr e
          | inl w' => if strict && negb (match rest with [] => true | _ => false end)
                      then inr InvalidLength else inl (x', w')
          end
      end
  | DSeq (x :: []) => match de_f64 x with inr e => inr e | inl _ => inr InvalidLength end
  | DSeq [] => inr InvalidLength
  | _ => inr InvalidType
  end.

(** [impl Deserialize for Box<[T]>], through [Vec<T>]. *)
Fixpoint de_all {X : Type} (de : De X) (l : list (Doc A)) : list X + DeError :=
  match l with
  | [] => inl []
  | d :: r =>
      match de d with
      | inr e => inr e
      | inl x => match de_all de r with inr e => inr e | inl xs => inl (x :: xs) end
      end
  end.
Definition de_pairs : De (Pairs A) := fun d =>
  match d with DSeq l => de_all de_pair l | _ => inr InvalidType end.

(** src/data_api.rs:25-26: the newtype, [visit_newtype_struct]. *)
Definition de_param : De (Param A) := fun d => param_deserialize de_f64 d.

(** One slot [let mut field: Option<T>] of the generated [visit_map]: a second
    occurrence of the key is an error, otherwise the value is decoded. *)
Definition fill {X : Type} (name : string) (de : De X) (slot : option X) (d : Doc A)
  : option X + DeError :=
  match slot with
  | Some _ => inr (DuplicateField name)
  | None => match de d with inl x => inl (Some x) | inr e => inr e end
  end.

(** The generated visitors for a struct with one, two or three fields.
    [visit_map] reads all entries, skips unknown keys ([IgnoredAny]) and then
    requires every field; [visit_seq] takes the fields in order. *)
Section Struct.
Variables X1 X2 X3 T : Type.
Variables n1 n2 n3 : string.
Variable d1 : De X1. Variable d2 : De X2. Variable d3 : De X3.

Fixpoint map1 (m : list (string * Doc A)) (s1 : option X1) : option X1 + DeError :=
  match m with
  | [] => inl s1
  | (k, d) :: r =>
      if String.eqb k n1 then
        match fill n1 d1 s1 d with inl s1' => map1 r s1' | inr e => inr e end
      else map1 r s1
  end.
Definition struct1 (build : X1 -> T) : De T := fun d =>
  match d with
  | DMap m =>
      match map1 m None with
      | inr e => inr e
      | inl None => inr (MissingField n1)
      | inl (Some x1) => inl (build x1)
      end
  | DSeq (v1 :: rest) =>
      match d1 v1 with
      | inr e => inr e
      | inl x1 => if strict && negb (match rest with [] => true | _ => false end)
                  then inr InvalidLength else inl (build x1)
      end
  | DSeq _ => inr InvalidLength
  | _ => inr InvalidType
  end.

Fixpoint map2 (m : list (string * Doc A)) (s1 : option X1) (s2 : option X2)
  : (option X1 * option X2) + DeError :=
  match m with
  | [] => inl (s1, s2)
  | (k, d) :: r =>
      if String.eqb k n1 then
        match fill n1 d1 s1 d with inl s1' => map2 r s1' s2 | inr e => inr e end
      else if String.eqb k n2 then
        match fill n2 d2 s2 d with inl s2' => map2 r s1 s2' | inr e => inr e end
      else map2 r s1 s2
  end.
Definition struct2 (build : X1 -> X2 -> T) : De T := fun d =>
  match d with
  | DMap m =>
      match map2 m None None with
      | inr e => inr e
      | inl (None, _) => inr (MissingField n1)
      | inl (Some _, None) => inr (MissingField n2)
      | inl (Some x1, Some x2) => inl (build x1 x2)
      end
  | DSeq (v1 :: v2 :: rest) =>
      match d1 v1 with
      | inr e => inr e
      | inl x1 =>
          match d2 v2 with
          | inr e => inr e
          | inl x2 => if strict && negb (match rest with [] => true | _ => false end)
                      then inr InvalidLength else inl (build x1 x2)
          end
      end
  | DSeq _ => inr InvalidLength
  | _ => inr InvalidType
  end.

Fixpoint map3 (m : list (string * Doc A)) (s1 : option X1) (s2 : option X2) (s3 : option X3)
  : (option X1 * option X2 * option X3) + DeError :=
  match m with
  | [] => inl (s1, s2, s3)
  | (k, d) :: r =>
      if String.eqb k n1 then
        match fill n1 d1 s1 d with inl s1' => map3 r s1' s2 s3 | inr e => inr e end
      else if String.eqb k n2 then
        match fill n2 d2 s2 d with inl s2' => map3 r s1 s2' s3 | inr e => inr e end
      else if String.eqb k n3 then
        match fill n3 d3 s3 d with inl s3' => map3 r s1 s2 s3' | inr e => inr e end
      else map3 r s1 s2 s3
  end.
Definition struct3 (build : X1 -> X2 -> X3 -> T) : De T := fun d =>
  match d with
  | DMap m =>
      match map3 m None None None with
      | inr e => inr e
      | inl (None, _, _) => inr (MissingField n1)
      | inl (Some _, None, _) => inr (MissingField n2)
      | inl (Some _, Some _, None) => inr (MissingField n3)
      | inl (Some x1, Some x2, Some x3) => inl (build x1 x2 x3)
      end
  | DSeq (v1 :: v2 :: v3 :: rest) =>
      match d1 v1 with
      | inr e => inr e
      | inl x1 =>
          match d2 v2 with
          | inr e => inr e
          | inl x2 =>
              match d3 v3 with
              | inr e => inr e
              | inl x3 => if strict && negb (match rest with [] => true | _ => false end)
                          then inr InvalidLength else inl (build x1 x2 x3)
              end
          end
      end
  | DSeq _ => inr InvalidLength
  | _ => inr InvalidType
  end.
End Struct.
Arguments struct1 {_ _} n1 d1 build d. Arguments struct2 {_ _ _} n1 n2 d1 d2 build d.
Arguments struct3 {_ _ _ _} n1 n2 n3 d1 d2 d3 build d.

Local Open Scope string_scope.

(** src/legendre/mod.rs:74-83, src/chebyshev/mod.rs:37-46, 139-144,
    src/hermite/mod.rs:54-63 [derive(serde::Deserialize)] *)
Definition legendre_deserialize : De (GaussLegendre A) :=
  struct1 "node_weight_pairs" de_pairs (fun p => {| legendre_pairs := p |}).
Definition chebyshev1_deserialize : De (GaussChebyshevFirstKind A) :=
  struct1 "node_weight_pairs" de_pairs (fun p => {| chebyshev1_pairs := p |}).
Definition chebyshev2_deserialize : De (GaussChebyshevSecondKind A) :=
  struct1 "node_weight_pairs" de_pairs (fun p => {| chebyshev2_pairs := p |}).
Definition hermite_deserialize : De (GaussHermite A) :=
  struct1 "node_weight_pairs" de_pairs (fun p => {| hermite_pairs := p |}).
(** src/laguerre/mod.rs:56-66 *)
Definition laguerre_deserialize : De (GaussLaguerre A) :=
  struct2 "node_weight_pairs" "alpha" de_pairs de_param
    (fun p a => {| laguerre_pairs := p; laguerre_alpha := a |}).
(** src/jacobi/mod.rs:56-67 *)
Definition jacobi_deserialize : De (GaussJacobi A) :=
  struct3 "node_weight_pairs" "alpha" "beta" de_pairs de_param de_param
    (fun p a b => {| jacobi_pairs := p; jacobi_alpha := a; jacobi_beta := b |}).
(** src/midpoint/mod.rs:61-65, src/trapezoid/mod.rs:50-54, src/simpson/mod.rs:55-59 *)
Definition midpoint_deserialize : De Midpoint :=
  struct1 "degree" de_nonzero_u32 (fun n => {| midpoint_degree := n |}).
Definition trapezoid_deserialize : De Trapezoid :=
  struct1 "degree" de_nonzero_u32 (fun n => {| trapezoid_degree := n |}).
Definition simpson_deserialize : De Simpson :=
  struct1 "degree" de_nonzero_u32 (fun n => {| simpson_degree := n |}).

(** [derive(serde::Serialize)]: [serialize_struct] with the fields in order.
    [compact] formats (such as bincode) write a struct as the sequence of its
    fields, the others as a map. *)
Variable compact : bool.
Definition ser_struct (fields : list (string * Doc A)) : Doc A :=
  if compact then DSeq (map snd fields) else DMap fields.
Definition ser_pairs (p : Pairs A) : Doc A :=
  DSeq (map (fun '(x, w) => DSeq [DNum x; DNum w]) p).
Definition ser_param (p : Param A) : Doc A := param_serialize DNum p.

Definition legendre_serialize (r : GaussLegendre A) : Doc A :=
  ser_struct [("node_weight_pairs", ser_pairs (legendre_pairs r))].
Definition chebyshev1_serialize (r : GaussChebyshevFirstKind A) : Doc A :=
  ser_struct [("node_weight_pairs", ser_pairs (chebyshev1_pairs r))].
Definition chebyshev2_serialize (r : GaussChebyshevSecondKind A) : Doc A :=
  ser_struct [("node_weight_pairs", ser_pairs (chebyshev2_pairs r))].
Definition hermite_serialize (r : GaussHermite A) : Doc A :=
  ser_struct [("node_weight_pairs", ser_pairs (hermite_pairs r))].
Definition laguerre_serialize (r : GaussLaguerre A) : Doc A :=
  ser_struct [("node_weight_pairs", ser_pairs (laguerre_pairs r));
              ("alpha", ser_param (laguerre_alpha r))].
Definition jacobi_serialize (r : GaussJacobi A) : Doc A :=
  ser_struct [("node_weight_pairs", ser_pairs (jacobi_pairs r));
              ("alpha", ser_param (jacobi_alpha r)); ("beta", ser_param (jacobi_beta r))].
Definition midpoint_serialize (r : Midpoint) : Doc A :=
  ser_struct [("degree", DInt (midpoint_degree r))].
Definition trapezoid_serialize (r : Trapezoid) : Doc A :=
  ser_struct [("degree", DInt (trapezoid_degree r))].
Definition simpson_serialize (r : Simpson) : Doc A :=
  ser_struct [("degree", DInt (simpson_degree r))].

End Serde.
