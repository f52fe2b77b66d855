(** Iterators of the data access API, src/data_api.rs:194-556, as state
    machines over positions. *)
From Coq Require Import ZArith List.
From Verif Require Import Machine.
Import ListNotations.

(** ** The iterator interface (core::iter::Iterator, DoubleEndedIterator,
    ExactSizeIterator).  Index arguments ([usize]) are natural numbers. *)
Record IterImpl (St X : Type) : Type := {
  it_next : St -> option X * St;
  it_size_hint : St -> nat * option nat;
  it_nth : nat -> St -> option X * St;
  it_count : St -> nat;
  it_next_back : St -> option X * St;
  it_nth_back : nat -> St -> option X * St;
  it_len : St -> nat
}.
Arguments it_next {_ _} _ _. Arguments it_size_hint {_ _} _ _.
Arguments it_nth {_ _} _ _ _. Arguments it_count {_ _} _ _.
Arguments it_next_back {_ _} _ _. Arguments it_nth_back {_ _} _ _ _.
Arguments it_len {_ _} _ _.

(** ** core::slice::Iter: a pair of pointers into a slice. *)
Record SliceIter (X : Type) : Type := { buf : list X; lo : nat; hi : nat }.
Arguments buf {_} _. Arguments lo {_} _. Arguments hi {_} _.

Definition slice_iter {X} (data : list X) : SliceIter X :=
  {| buf := data; lo := 0; hi := length data |}.
Definition slice_len {X} (s : SliceIter X) : nat := hi s - lo s.
Definition slice_next {X} (s : SliceIter X) : option X * SliceIter X :=
  if Nat.ltb (lo s) (hi s)
  then (nth_error (buf s) (lo s), {| buf := buf s; lo := S (lo s); hi := hi s |})
  else (None, s).
Definition slice_next_back {X} (s : SliceIter X) : option X * SliceIter X :=
  if Nat.ltb (lo s) (hi s)
  then (nth_error (buf s) (hi s - 1), {| buf := buf s; lo := lo s; hi := hi s - 1 |})
  else (None, s).
(* slice::Iter overrides nth and nth_back with a constant time jump *)
Definition slice_nth {X} (n : nat) (s : SliceIter X) : option X * SliceIter X :=
  if Nat.leb (slice_len s) n
  then (None, {| buf := buf s; lo := hi s; hi := hi s |})
  else slice_next {| buf := buf s; lo := lo s + n; hi := hi s |}.
Definition slice_nth_back {X} (n : nat) (s : SliceIter X) : option X * SliceIter X :=
  if Nat.leb (slice_len s) n
  then (None, {| buf := buf s; lo := lo s; hi := lo s |})
  else slice_next_back {| buf := buf s; lo := lo s; hi := hi s - n |}.
Definition slice_as_slice {X} (s : SliceIter X) : list X :=
  firstn (hi s - lo s) (skipn (lo s) (buf s)).

Definition SliceIterImpl (X : Type) : IterImpl (SliceIter X) X := {|
  it_next := slice_next;
  it_size_hint := fun s => (slice_len s, Some (slice_len s));
  it_nth := slice_nth;
  it_count := slice_len;
  it_next_back := slice_next_back;
  it_nth_back := slice_nth_back;
  it_len := slice_len
|}.

(** ** alloc::vec::IntoIter: also a pair of pointers; [nth] and [nth_back] are
    the default ones over the overridden [advance_by] / [advance_back_by]. *)
Definition into_advance {X} (n : nat) (s : SliceIter X) : bool * SliceIter X :=
  let step := Nat.min (slice_len s) n in
  (Nat.leb n step, {| buf := buf s; lo := lo s + step; hi := hi s |}).
Definition into_advance_back {X} (n : nat) (s : SliceIter X) : bool * SliceIter X :=
  let step := Nat.min (slice_len s) n in
  (Nat.leb n step, {| buf := buf s; lo := lo s; hi := hi s - step |}).
Definition VecIntoIterImpl (X : Type) : IterImpl (SliceIter X) X := {|
  it_next := slice_next;
  it_size_hint := fun s => (slice_len s, Some (slice_len s));
  it_nth := fun n s => let '(ok, s') := into_advance n s in
                       if ok then slice_next s' else (None, s');
  it_count := slice_len;
  it_next_back := slice_next_back;
  it_nth_back := fun n s => let '(ok, s') := into_advance_back n s in
                            if ok then slice_next_back s' else (None, s');
  it_len := slice_len
|}.

(** ** core::ops::Range<u32>. *)
Record RangeIter : Type := { r_start : Z; r_end : Z }.
Definition range_next (s : RangeIter) : option Z * RangeIter :=
  if Z.ltb (r_start s) (r_end s)
  then (Some (r_start s), {| r_start := (r_start s + 1)%Z; r_end := r_end s |})
  else (None, s).
Definition range_next_back (s : RangeIter) : option Z * RangeIter :=
  if Z.ltb (r_start s) (r_end s)
  then (Some (r_end s - 1)%Z, {| r_start := r_start s; r_end := (r_end s - 1)%Z |})
  else (None, s).
Definition range_len (s : RangeIter) : nat := Z.to_nat (r_end s - r_start s).

(** ** Default methods of Iterator: [advance_by] calls [next] n times, stopping
    at the first None; [nth] is [advance_by] then [next]; [count] folds. *)
Fixpoint default_advance {St X} (next : St -> option X * St) (n : nat) (s : St) : bool * St :=
  match n with
  | O => (true, s)
  | S n' => match next s with
            | (None, s') => (false, s')
            | (Some _, s') => default_advance next n' s'
            end
  end.
Definition default_nth {St X} (next : St -> option X * St) (n : nat) (s : St) : option X * St :=
  let '(ok, s') := default_advance next n s in
  if ok then next s' else (None, s').
(* consume the iterator completely; [fuel] bounds the number of calls *)
Fixpoint drain {St X} (next : St -> option X * St) (fuel : nat) (s : St) : list X :=
  match fuel with
  | O => []
  | S k => match next s with
           | (None, _) => []
           | (Some x, s') => x :: drain next k s'
           end
  end.

(** ** core::iter::Map over an inner iterator: [next], [next_back] and
    [size_hint]/[len] are forwarded, the other methods are the default ones. *)
Definition map_fst {X Y St} (f : X -> Y) (r : option X * St) : option Y * St :=
  (option_map f (fst r), snd r).
Definition MapImpl {St X Y} (next : St -> option X * St) (next_back : St -> option X * St)
  (len : St -> nat) (f : X -> Y) : IterImpl St Y := {|
  it_next := fun s => map_fst f (next s);
  it_size_hint := fun s => (len s, Some (len s));
  it_nth := fun n s => default_nth (fun s => map_fst f (next s)) n s;
  it_count := fun s => length (drain (fun s => map_fst f (next s)) (S (len s)) s);
  it_next_back := fun s => map_fst f (next_back s);
  it_nth_back := fun n s => default_nth (fun s => map_fst f (next_back s)) n s;
  it_len := len
|}.

(** ** The newtype wrappers, src/data_api.rs:427-482: every method forwards to
    the wrapped iterator except [last] (l.457), which is [next_back]. *)
Definition Newtype {St X} (inner : IterImpl St X) : IterImpl St X := {|
  it_next := it_next inner;              (* l.432 *)
  it_size_hint := it_size_hint inner;    (* l.437 *)
  it_nth := it_nth inner;                (* l.447 *)
  it_count := it_count inner;            (* l.452 *)
  it_next_back := it_next_back inner;    (* l.464 *)
  it_nth_back := it_nth_back inner;      (* l.469 *)
  it_len := it_len inner                 (* l.476 *)
|}.
Definition newtype_last {St X} (it : IterImpl St X) (s : St) : option X :=
  fst (it_next_back it s).               (* l.457 *)

(** src/data_api.rs:330-385 QuadratureRuleIter *)
Definition RuleIter (X : Type) : IterImpl (SliceIter X) X := Newtype (SliceIterImpl X).
(** src/data_api.rs:280-328 QuadratureRuleNodes / QuadratureRuleWeights *)
Definition RuleNodes (X Y : Type) : IterImpl (SliceIter (X * Y)) X :=
  Newtype (MapImpl slice_next slice_next_back slice_len fst).
Definition RuleWeights (X Y : Type) : IterImpl (SliceIter (X * Y)) Y :=
  Newtype (MapImpl slice_next slice_next_back slice_len snd).
(** src/data_api.rs:387-417 QuadratureRuleIntoIter *)
Definition RuleIntoIter (X : Type) : IterImpl (SliceIter X) X := Newtype (VecIntoIterImpl X).
(** src/data_api.rs:536-552 the iterator of a node rule:
    Map<Range<u32>, fn(u32) -> f64> *)
Definition NodeRuleIter {Y : Type} (as_f64 : Z -> Y) : IterImpl RangeIter Y :=
  Newtype (MapImpl range_next range_next_back range_len as_f64).
