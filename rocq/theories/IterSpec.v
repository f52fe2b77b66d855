(** Specification of a double-ended iterator over a list: what a client that
    performs an arbitrary sequence of calls observes. *)
From Coq Require Import List Arith.
From Verif Require Import Iter.
Import ListNotations.

Inductive Op : Type :=
| ONext | ONextBack | ONth (k : nat) | ONthBack (k : nat) | OLen | OSizeHint.

Inductive Obs (X : Type) : Type :=
| Item (o : option X)
| Len (n : nat)
| Hint (lower : nat) (upper : option nat).
Arguments Item {X} o. Arguments Len {X} n. Arguments Hint {X} lower upper.

(** *** The list that still has to be delivered is the whole state. *)
Definition hd_opt {X} (l : list X) : option X := match l with [] => None | x :: _ => Some x end.
Definition last_opt {X} (l : list X) : option X := hd_opt (rev l).
Definition drop_front {X} (k : nat) (l : list X) : list X := skipn k l.
Definition drop_back {X} (k : nat) (l : list X) : list X := rev (skipn k (rev l)).

Definition deque_step {X} (o : Op) (l : list X) : Obs X * list X :=
  match o with
  | ONext => (Item (hd_opt l), drop_front 1 l)
  | ONextBack => (Item (last_opt l), drop_back 1 l)
  | ONth k => (Item (nth_error l k), drop_front (k + 1) l)
  | ONthBack k => (Item (nth_error (rev l) k), drop_back (k + 1) l)
  | OLen => (Len (length l), l)
  | OSizeHint => (Hint (length l) (Some (length l)), l)
  end.
Fixpoint deque_run {X} (ops : list Op) (l : list X) : list (Obs X) * list X :=
  match ops with
  | [] => ([], l)
  | o :: r => let '(b, l') := deque_step o l in
              let '(bs, l'') := deque_run r l' in (b :: bs, l'')
  end.

(** *** The same client driving an iterator implementation. *)
Definition impl_step {St X} (it : IterImpl St X) (o : Op) (s : St) : Obs X * St :=
  match o with
  | ONext => let '(x, s') := it_next it s in (Item x, s')
  | ONextBack => let '(x, s') := it_next_back it s in (Item x, s')
  | ONth k => let '(x, s') := it_nth it k s in (Item x, s')
  | ONthBack k => let '(x, s') := it_nth_back it k s in (Item x, s')
  | OLen => (Len (it_len it s), s)
  | OSizeHint => (let '(a, b) := it_size_hint it s in Hint a b, s)
  end.
Fixpoint impl_run {St X} (it : IterImpl St X) (ops : list Op) (s : St) : list (Obs X) * St :=
  match ops with
  | [] => ([], s)
  | o :: r => let '(b, s') := impl_step it o s in
              let '(bs, s'') := impl_run it r s' in (b :: bs, s'')
  end.

(** [it], started in [s], behaves like a deque that contains [l]: every finite
    sequence of calls makes the same observations, and afterwards [count()] and
    [last()] (which consume the iterator) return what the remaining list says. *)
Definition behaves_like_deque {St X} (it : IterImpl St X) (s : St) (l : list X) : Prop :=
  forall ops,
    fst (impl_run it ops s) = fst (deque_run ops l) /\
    it_count it (snd (impl_run it ops s)) = length (snd (deque_run ops l)) /\
    newtype_last it (snd (impl_run it ops s)) = last_opt (snd (deque_run ops l)).

(** Calling [next] until it returns None (and once more) delivers exactly [l]. *)
Definition yields {St X} (it : IterImpl St X) (s : St) (l : list X) : Prop :=
  fst (impl_run it (repeat ONext (length l + 2)) s) =
  map (fun x => Item (Some x)) l ++ [Item None; Item None].
