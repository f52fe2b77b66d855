(** The error types of the parameter wrapper and its zerocopy implementations,
    src/data_api.rs:31-41, 115-173. *)
From Coq Require Import ZArith List Bool String.
From Flocq Require Import IEEE754.Bits.
From Verif Require Import Arith F64 Param.
Import ListNotations.
Local Open Scope string_scope.

(** The errors that can occur, as [dyn core::error::Error]; [PFE] is the
    standard library's [ParseFloatError]. *)
Inductive AnyError (PFE : Type) : Type :=
| StdParseFloat (e : PFE)
| CrateInvalid (e : InfNanNegOneOrLessError)
| CrateParse (e : ParseParamError PFE).
Arguments StdParseFloat {PFE} e. Arguments CrateInvalid {PFE} e. Arguments CrateParse {PFE} e.

Section Errors.
Context {PFE : Type}.
(** The standard library's message. *)
Variable show_pfe : PFE -> string.

(** src/data_api.rs:120-127 *)
Definition invalid_display (e : InfNanNegOneOrLessError) : string :=
  "attempted to convert a value that is infinite, NAN, or less than or equal to -1.0 to a `FiniteAboveNegOneF64`".
(** src/data_api.rs:157-164 *)
Definition parse_param_display (e : ParseParamError PFE) : string :=
  match e with
  | ParseError e => show_pfe e
  | InvalidValue e => invalid_display e
  end.
(** [Display] of the trait object. *)
Definition any_display (e : AnyError PFE) : string :=
  match e with
  | StdParseFloat e => show_pfe e
  | CrateInvalid e => invalid_display e
  | CrateParse e => parse_param_display e
  end.
(** [Error::source]: src/data_api.rs:129 (the default, [None]) and 166-173;
    [ParseFloatError] has no source. *)
Definition any_source (e : AnyError PFE) : option (AnyError PFE) :=
  match e with
  | StdParseFloat _ => None
  | CrateInvalid _ => None
  | CrateParse (ParseError e) => Some (StdParseFloat e)
  | CrateParse (InvalidValue e) => Some (CrateInvalid e)
  end.
(** derive(PartialEq) (src/data_api.rs:150): same variant, equal contents. *)
Definition parse_param_error_eqb (pfe_eqb : PFE -> PFE -> bool) (x y : ParseParamError PFE) : bool :=
  match x, y with
  | ParseError a, ParseError b => pfe_eqb a b
  | InvalidValue _, InvalidValue _ => true
  | _, _ => false
  end.
End Errors.

(** src/data_api.rs:31-39 [derive(zerocopy::FromZeros, zerocopy::IntoBytes, ...)]
    on the newtype: the value is made of, and viewed as, the eight bytes of the
    inner f64; there is no [FromBytes]. *)
Inductive Endian := LittleEndian | BigEndian.
(** The eight bytes of a 64-bit word, lowest first. *)
Definition word_bytes (z : Z) : list Z :=
  map (fun i => (z / 2 ^ (8 * Z.of_nat i)) mod 256)%Z (seq 0 8).
Definition f64_bytes (en : Endian) (x : f64) : list Z :=
  match en with
  | LittleEndian => word_bytes (bits_of_b64 x)
  | BigEndian => rev (word_bytes (bits_of_b64 x))
  end.
(** [IntoBytes::as_bytes] *)
Definition param_as_bytes {be : Backend} (en : Endian) (p : Param (F64 be)) : list Z :=
  f64_bytes en (pval p).
(** [FromZeros::new_zeroed] (and [zero], in place): the value all of whose
    bits are zero. *)
Definition param_new_zeroed {be : Backend} : Param (F64 be) := MkParam (A := F64 be) (b64_of_bits 0).
