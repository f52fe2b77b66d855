(** Exact real-number instance of [Arith]. *)
From Coq Require Import Reals ZArith Lra.
From Flocq Require Import Core.
From Verif Require Import Arith.
Local Open Scope R_scope.

(** Decimal literal as an exact real number. *)
Definition R_lit (m e : Z) : R :=
  if (e <? 0)%Z then IZR m / IZR (10 ^ (- e)) else IZR (m * 10 ^ e).

(** [Rpower] is the real power function for positive bases; the library only
    ever raises positive numbers ([2.0] and the base of the gamma
    approximation) to real powers. *)
Definition RA : Arith := {|
  num := R;
  nadd := Rplus; nsub := Rminus; nmul := Rmult; ndiv := Rdiv;
  nsin := sin; ncos := cos; npow := Rpower; nsqrt := R_sqrt.sqrt;
  ncmp := fun x y => Some (Rcompare x y);
  ntotal_cmp := Rcompare;
  nfinite := fun _ => true;
  nofZ := IZR;
  nlit := R_lit;
  nnegzero := 0;
  npi := PI;
  neul := exp 1
|}.
