(** rayon: what the parallel iterators used by the crate compute, for every
    schedule. *)
From Coq Require Import ZArith List.
From Verif Require Import Arith Machine Rules.
Import ListNotations.

(** Indexed parallel iterators are executed by recursively splitting the index
    range in two; whether a part is split further depends on work stealing.  A
    schedule is the resulting binary tree; [Split m] splits off the first [m]
    items.  (rayon always splits in the middle; we allow any split.) *)
Inductive Sched : Type :=
| Seq
| Split (m : nat) (l r : Sched).

Section Par.
Context {A : Arith}.

(** rayon::iter::sum: [add(l, r) = [l, r].into_iter().sum()]. *)
Definition rayon_add (l r : A) : A := nadd (nadd nnegzero l) r.

(** [par_iter().map(f).sum()]: a leaf folds its items sequentially and adds the
    result to the empty sum; results are combined along the tree with [add].
    [f] is [Fn + Sync]; it is modelled as a pure function. *)
Fixpoint par_sum {X : Type} (t : Sched) (f : X -> A) (l : list X) : A :=
  match t with
  | Seq => rayon_add nnegzero (fst (iter_sum (fun (_ : unit) x => (f x, tt)) l tt))
  | Split m tl tr => rayon_add (par_sum tl f (firstn m l)) (par_sum tr f (skipn m l))
  end.

(** The groups of items that are processed sequentially by one worker each. *)
Fixpoint par_chunks {X : Type} (t : Sched) (l : list X) : list (list X) :=
  match t with
  | Seq => [l]
  | Split m tl tr => par_chunks tl (firstn m l) ++ par_chunks tr (skipn m l)
  end.
End Par.

(** Indexed [par_iter().map(f).collect()]: every leaf writes its results to the
    positions of its items. *)
Fixpoint par_collect_res {X Y} (t : Sched) (f : X -> Res Y) (l : list X) : Res (list Y) :=
  match t with
  | Seq => collect_res f l
  | Split m tl tr =>
      let! ys := par_collect_res tl f (firstn m l) in
      let! zs := par_collect_res tr f (skipn m l) in
      Ok (ys ++ zs)
  end.
