(** Panics, machine integers and ranges. *)
From Coq Require Import ZArith List Bool.
Import ListNotations.
Local Open Scope Z_scope.

(** Result of a computation that may panic. *)
Inductive Res (X : Type) : Type :=
| Ok (x : X)
| Panic.
Arguments Ok {X} x. Arguments Panic {X}.

Definition bind {X Y} (r : Res X) (f : X -> Res Y) : Res Y :=
  match r with Ok x => f x | Panic => Panic end.
Notation "'let!' x ':=' r 'in' k" := (bind r (fun x => k))
  (at level 200, x pattern, right associativity).

(** Integer overflow: a panic in debug builds ([overflow-checks] on), two's
    complement wrapping in release builds. *)
Inductive BuildMode := Debug | Release.

(** The target: overflow behaviour and [usize::MAX]. *)
Record Target := { build_mode : BuildMode; usize_max : Z }.

Definition usize_wrap (t : Target) (z : Z) : Res Z :=
  if (0 <=? z) && (z <=? usize_max t) then Ok z
  else match build_mode t with
       | Debug => Panic
       | Release => Ok (z mod (usize_max t + 1))
       end.
Definition usize_add (t : Target) (a b : Z) : Res Z := usize_wrap t (a + b).
Definition usize_sub (t : Target) (a b : Z) : Res Z := usize_wrap t (a - b).
Definition usize_mul (t : Target) (a b : Z) : Res Z := usize_wrap t (a * b).

(** Slice indexing [l[i]] with an in-range usize [i]. *)
Definition index {X} (l : list X) (i : Z) : Res X :=
  match nth_error l (Z.to_nat i) with Some x => Ok x | None => Panic end.

(** The integers of the half-open range [lo..hi] in order. *)
Definition zrange (lo hi : Z) : list Z :=
  map (fun i => lo + Z.of_nat i) (seq 0 (Z.to_nat (hi - lo))).

(** [iter.map(f).collect()] for a closure that may panic. *)
Fixpoint collect_res {X Y} (f : X -> Res Y) (l : list X) : Res (list Y) :=
  match l with
  | [] => Ok []
  | x :: r => let! y := f x in let! ys := collect_res f r in Ok (y :: ys)
  end.
