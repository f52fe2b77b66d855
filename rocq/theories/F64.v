(** IEEE-754 binary64 instance of [Arith], on top of Flocq. *)
From Coq Require Import ZArith List Bool.
From Flocq Require Import Core IEEE754.Binary IEEE754.Bits.
From Flocq Require IEEE754.BinarySingleNaN.
From Verif Require Import Arith.
Local Open Scope Z_scope.

(** Same type as Flocq's [binary64]; every constructor argument is data, so
    NaN payloads and signs of zeros are distinguished (bit-for-bit equality is
    Leibniz equality up to the boundedness proofs, which are unique). *)
Definition f64 : Set := binary_float 53 1024.

Definition f64_is_nan (x : f64) : bool := is_nan 53 1024 x.
Definition nan64 : Set := { x : f64 | f64_is_nan x = true }.

(** What IEEE-754 and Rust leave open: which NaN an operation produces, and
    the results of the math backend's [sin], [cos], [pow] (std or libm, see
    src/math.rs:19-74).  Theorems quantify over all backends. *)
Record Backend : Type := {
  nan_add : f64 -> f64 -> nan64;
  nan_sub : f64 -> f64 -> nan64;
  nan_mul : f64 -> f64 -> nan64;
  nan_div : f64 -> f64 -> nan64;
  nan_sqrt : f64 -> nan64;
  be_sin : f64 -> f64;
  be_cos : f64 -> f64;
  be_pow : f64 -> f64 -> f64
}.

Lemma prec53 : Prec_gt_0 53. Proof. reflexivity. Qed.
Lemma prec53_emax : BinarySingleNaN.Prec_lt_emax 53 1024. Proof. reflexivity. Qed.

(** Correctly rounded (nearest, ties to even) conversion of an integer. *)
Definition f64_of_Z (z : Z) : f64 :=
  binary_normalize 53 1024 prec53 prec53_emax BinarySingleNaN.mode_NE z 0 false.

Definition quiet_nan : nan64 :=
  exist _ (B754_nan 53 1024 false (2 ^ 51)%positive eq_refl) eq_refl.

(** Correctly rounded decimal literal [m * 10^e]: what rustc does. *)
Definition f64_lit (m e : Z) : f64 :=
  if e <? 0 then
    match m with
    | Z0 => B754_zero 53 1024 false
    | Zpos p =>
        BSN2B 53 1024 quiet_nan (BinarySingleNaN.SF2B _ (proj1 (BinarySingleNaN.Bdiv_correct_aux 53 1024 prec53 prec53_emax BinarySingleNaN.mode_NE
                   false p 0 false (Z.to_pos (10 ^ (- e))) 0)))
    | Zneg p =>
        BSN2B 53 1024 quiet_nan (BinarySingleNaN.SF2B _ (proj1 (BinarySingleNaN.Bdiv_correct_aux 53 1024 prec53 prec53_emax BinarySingleNaN.mode_NE
                   true p 0 false (Z.to_pos (10 ^ (- e))) 0)))
    end
  else binary_normalize 53 1024 prec53 prec53_emax BinarySingleNaN.mode_NE (m * 10 ^ e) 0 false.

(** f64::total_cmp compares the bits as sign-magnitude integers:
    [left ^= (((left >> 63) as u64) >> 1) as i64] maps a negative number of
    magnitude m to -1-m. *)
Definition f64_key (x : f64) : Z :=
  let b := bits_of_b64 x in
  if 2 ^ 63 <=? b then -1 - (b - 2 ^ 63) else b.
Definition f64_total_cmp (x y : f64) : comparison := f64_key x ?= f64_key y.

Definition F64 (be : Backend) : Arith := {|
  num := f64;
  nadd := Bplus 53 1024 prec53 prec53_emax (nan_add be) BinarySingleNaN.mode_NE;
  nsub := Bminus 53 1024 prec53 prec53_emax (nan_sub be) BinarySingleNaN.mode_NE;
  nmul := Bmult 53 1024 prec53 prec53_emax (nan_mul be) BinarySingleNaN.mode_NE;
  ndiv := Bdiv 53 1024 prec53 prec53_emax (nan_div be) BinarySingleNaN.mode_NE;
  nsin := be_sin be;
  ncos := be_cos be;
  npow := be_pow be;
  nsqrt := Bsqrt 53 1024 prec53 prec53_emax (nan_sqrt be) BinarySingleNaN.mode_NE;
  ncmp := Bcompare 53 1024;
  ntotal_cmp := f64_total_cmp;
  nfinite := is_finite 53 1024;
  nofZ := f64_of_Z;
  nlit := f64_lit;
  nnegzero := B754_zero 53 1024 true;
  (* 3.14159265358979323846264338327950288_f64 *)
  npi := f64_lit 314159265358979323846264338327950288 (-35);
  (* 2.71828182845904523536028747135266250_f64 *)
  neul := f64_lit 271828182845904523536028747135266250 (-35)
|}.
