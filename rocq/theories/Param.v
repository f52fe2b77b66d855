(** The parameter type [FiniteAboveNegOneF64], src/data_api.rs:14-186. *)
From Coq Require Import ZArith List Bool.
From Verif Require Import Arith.

Section Param.
Context {A : Arith}.
Local Open Scope num_scope.

(** src/data_api.rs:41 [pub struct FiniteAboveNegOneF64(f64)]. *)
Record Param : Type := MkParam { pval : A }.

(** src/data_api.rs:67-73 [new]: [value > -1.0 && value.is_finite()]. *)
Definition param_new (value : A) : option Param :=
  if ngt value lit_neg1 && nfinite value then Some (MkParam value) else None.

(** src/data_api.rs:77-79 [get]. *)
Definition param_get (p : Param) : A := pval p.

(** src/data_api.rs:82-104 [checked_add] ... [checked_pow]. *)
Definition param_checked_add (p : Param) (other : A) : option Param :=
  param_new (param_get p [+] other).
Definition param_checked_sub (p : Param) (other : A) : option Param :=
  param_new (param_get p [-] other).
Definition param_checked_mul (p : Param) (other : A) : option Param :=
  param_new (param_get p [*] other).
Definition param_checked_div (p : Param) (denominator : A) : option Param :=
  param_new (param_get p [/] denominator).
Definition param_checked_pow (p : Param) (exp : A) : option Param :=
  param_new (npow (param_get p) exp).

(** src/data_api.rs:107-113 [Default]. *)
Definition param_default : Param := MkParam lit0.

(** src/data_api.rs:115-118 [InfNanNegOneOrLessError]. *)
Inductive InfNanNegOneOrLessError : Type := MkInfNanNegOneOrLessError.

(** src/data_api.rs:131-141 [TryFrom<f64>]; a Rust [Result<T, E>] is [T + E]. *)
Definition param_try_from (value : A) : Param + InfNanNegOneOrLessError :=
  match param_new value with
  | Some p => inl p
  | None => inr MkInfNanNegOneOrLessError
  end.

(** src/data_api.rs:143-148 [From<FiniteAboveNegOneF64> for f64]. *)
Definition f64_from_param (p : Param) : A := pval p.

(** src/data_api.rs:152-155 [ParseFiniteAboveNegOneF64Error]. *)
Inductive ParseParamError (ParseFloatError : Type) : Type :=
| ParseError (e : ParseFloatError)
| InvalidValue (e : InfNanNegOneOrLessError).
Arguments ParseError {_} e. Arguments InvalidValue {_} e.

(** src/data_api.rs:175-186 [FromStr]; [parse] is the standard library's f64
    parser on strings of type [Str]. *)
Definition param_from_str {Str PFE : Type} (parse : Str -> A + PFE) (s : Str)
  : Param + ParseParamError PFE :=
  match parse s with
  | inl value =>
      match param_try_from value with
      | inl p => inl p
      | inr e => inr (InvalidValue e)
      end
  | inr e => inr (ParseError e)
  end.

(** src/data_api.rs:43-62 [Display], [LowerExp], [UpperExp]: all forward to the
    formatting of the inner value, [write!(f, "{}", self.0)] etc.; [fmt] is the
    standard library's formatter in the respective style. *)
Definition param_fmt {Str : Type} (fmt : A -> Str) (p : Param) : Str := fmt (pval p).

(** src/data_api.rs:25-40: [derive(serde::Serialize, serde::Deserialize)] (and
    rkyv) on the newtype: the inner number is (de)serialized, without a call to
    [new].  [ser]/[de] are the format's handling of an f64. *)
Definition param_serialize {Doc : Type} (ser : A -> Doc) (p : Param) : Doc := ser (pval p).
Definition param_deserialize {Doc Err : Type} (de : Doc -> A + Err) (d : Doc) : Param + Err :=
  match de d with
  | inl v => inl (MkParam v)
  | inr e => inr e
  end.

(** derive(PartialEq, PartialOrd) on the newtype (src/data_api.rs:25). *)
Definition param_eqb (p q : Param) : bool := neqb (pval p) (pval q).
Definition param_partial_cmp (p q : Param) : option comparison := ncmp (pval p) (pval q).

End Param.
Arguments Param : clear implicits.
Arguments ParseError {_} e. Arguments InvalidValue {_} e.
