(** Arithmetic interface over which the whole model is written.

    The Rust code computes with [f64].  Every function of the model takes a
    record [Arith] of the operations on numbers that the source uses; it is
    instantiated with IEEE-754 binary64 (F64.v) and with the exact real numbers
    (RInst.v), so that statements about rounding and statements about the
    underlying mathematics are about the very same program text. *)
From Coq Require Import ZArith List.

Record Arith : Type := mkArith {
  num :> Type;
  (* the primitive f64 operators + - * / *)
  nadd : num -> num -> num;
  nsub : num -> num -> num;
  nmul : num -> num -> num;
  ndiv : num -> num -> num;
  (* src/math.rs:19-36 [sin], 38-55 [cos], 57-74 [pow], 76-91 [sqrt]: each
     forwards to std or to libm depending on the enabled feature *)
  nsin : num -> num;
  ncos : num -> num;
  npow : num -> num -> num;
  nsqrt : num -> num;
  (* PartialOrd on f64: None when unordered (a NaN is involved) *)
  ncmp : num -> num -> option comparison;
  (* f64::total_cmp *)
  ntotal_cmp : num -> num -> comparison;
  (* f64::is_finite *)
  nfinite : num -> bool;
  (* integer to float conversion: [as f64], f64::from *)
  nofZ : Z -> num;
  (* a decimal literal m * 10^e *)
  nlit : Z -> Z -> num;
  (* the literal -0.0: neutral element of f64's Sum (Rust >= 1.83) *)
  nnegzero : num;
  (* core::f64::consts::PI and E *)
  npi : num;
  neul : num
}.

Arguments nadd {_} _ _. Arguments nsub {_} _ _. Arguments nmul {_} _ _.
Arguments ndiv {_} _ _. Arguments nsin {_} _. Arguments ncos {_} _.
Arguments npow {_} _ _. Arguments nsqrt {_} _. Arguments ncmp {_} _ _.
Arguments ntotal_cmp {_} _ _. Arguments nfinite {_} _. Arguments nofZ {_} _.
Arguments nlit {_} _ _. Arguments nnegzero {_}. Arguments npi {_}.
Arguments neul {_}.

Declare Scope num_scope.
Delimit Scope num_scope with num.
Infix "[+]" := nadd (at level 50, left associativity) : num_scope.
Infix "[-]" := nsub (at level 50, left associativity) : num_scope.
Infix "[*]" := nmul (at level 40, left associativity) : num_scope.
Infix "[/]" := ndiv (at level 40, left associativity) : num_scope.

(** The comparison operators [<], [>] and [==] on f64. *)
Definition nlt {A : Arith} (x y : A) : bool :=
  match ncmp x y with Some Lt => true | _ => false end.
Definition ngt {A : Arith} (x y : A) : bool :=
  match ncmp x y with Some Gt => true | _ => false end.
Definition neqb {A : Arith} (x y : A) : bool :=
  match ncmp x y with Some Eq => true | _ => false end.

(** Literals that occur in the source. *)
Definition lit0 {A : Arith} : A := nlit 0 0.          (* 0.0 *)
Definition lit1 {A : Arith} : A := nlit 1 0.          (* 1.0 *)
Definition lit2 {A : Arith} : A := nlit 2 0.          (* 2.0 *)
Definition lit_half {A : Arith} : A := nlit 5 (-1).   (* 0.5 *)
Definition lit_neg1 {A : Arith} : A := nlit (-1) 0.   (* -1.0 *)
Definition lit_neg_half {A : Arith} : A := nlit (-5) (-1).  (* -0.5 *)
