(** Properties C01-C06: the parameter type FiniteAboveNegOneF64, in IEEE double
    arithmetic, for every NaN-payload convention and math library [be].
    [admissible v] (F64Spec): v is finite and its value is above -1. *)
From Coq Require Import Reals.
From Verif Require Import Arith F64 F64Spec Param ParamSpec ParamProof ExtraProof.
Local Open Scope R_scope.

(** C01: new accepts exactly the finite values above -1 and keeps them as they are. *)
Theorem C01_new_accepts_exactly_admissible : forall (be : Backend) (v : F64 be),
  (admissible v -> exists p, param_new v = Some p /\ param_get p = v) /\
  (~ admissible v -> param_new v = None).
Proof. exact new_spec. Qed.
Print Assumptions C01_new_accepts_exactly_admissible.

(** C02: every value obtained through any history of API calls is admissible. *)
Theorem C02_reachable_values_are_admissible :
  forall (be : Backend) (Str PFE : Type) (parse : Str -> f64 + PFE) (p : Param (F64 be)),
  Reachable be parse p -> admissible (param_get p).
Proof. exact reachable_admissible. Qed.
Print Assumptions C02_reachable_values_are_admissible.
Example C02_example : forall be, exists p : Param (F64 be),
  Reachable be (fun s : f64 => @inl f64 unit s) p /\ fval (param_get p) = / 2.
Proof. exact reach_example. Qed.

(** C03: checked arithmetic returns the correctly rounded result, or None
    exactly when that result overflows, is undefined or is at most -1. *)
Theorem C03_checked_add : forall (be : Backend) (p : Param (F64 be)) (y : F64 be), ffin (param_get p) ->
  ((exists q, param_checked_add p y = Some q) <->
   (ffin y /\ no_overflow (fval (param_get p) + fval y) /\ -1 < rnd (fval (param_get p) + fval y))) /\
  (forall q, param_checked_add p y = Some q ->
     ffin (param_get q) /\ fval (param_get q) = rnd (fval (param_get p) + fval y)).
Proof. exact checked_add_spec. Qed.
Print Assumptions C03_checked_add.
Theorem C03_checked_sub : forall (be : Backend) (p : Param (F64 be)) (y : F64 be), ffin (param_get p) ->
  ((exists q, param_checked_sub p y = Some q) <->
   (ffin y /\ no_overflow (fval (param_get p) - fval y) /\ -1 < rnd (fval (param_get p) - fval y))) /\
  (forall q, param_checked_sub p y = Some q ->
     ffin (param_get q) /\ fval (param_get q) = rnd (fval (param_get p) - fval y)).
Proof. exact checked_sub_spec. Qed.
Print Assumptions C03_checked_sub.
Theorem C03_checked_mul : forall (be : Backend) (p : Param (F64 be)) (y : F64 be), ffin (param_get p) ->
  ((exists q, param_checked_mul p y = Some q) <->
   (ffin y /\ no_overflow (fval (param_get p) * fval y) /\ -1 < rnd (fval (param_get p) * fval y))) /\
  (forall q, param_checked_mul p y = Some q ->
     ffin (param_get q) /\ fval (param_get q) = rnd (fval (param_get p) * fval y)).
Proof. exact checked_mul_spec. Qed.
Print Assumptions C03_checked_mul.
(** For division an infinite denominator gives a zero quotient. *)
Theorem C03_checked_div : forall (be : Backend) (p : Param (F64 be)) (y : F64 be), ffin (param_get p) ->
  ((exists q, param_checked_div p y = Some q) <->
   ((ffin y /\ fval y <> 0 /\ no_overflow (fval (param_get p) / fval y)
     /\ -1 < rnd (fval (param_get p) / fval y))
    \/ (~ fnan y /\ ~ ffin y))) /\
  (forall q, param_checked_div p y = Some q -> ffin (param_get q) /\
     ((ffin y /\ fval (param_get q) = rnd (fval (param_get p) / fval y))
      \/ (~ ffin y /\ fval (param_get q) = 0))).
Proof. exact checked_div_spec. Qed.
Print Assumptions C03_checked_div.
(** checked_pow: x to the power y by the math library in use, or None. *)
Theorem C03_checked_pow : forall (be : Backend) (p : Param (F64 be)) (y : F64 be),
  ((exists q, param_checked_pow p y = Some q) <-> admissible (be_pow be (param_get p) y)) /\
  (forall q, param_checked_pow p y = Some q -> param_get q = be_pow be (param_get p) y).
Proof. exact checked_pow_spec. Qed.
Print Assumptions C03_checked_pow.

(** C04: conversions classify failures. *)
Theorem C04_try_from : forall (be : Backend) (v : F64 be),
  (forall p, param_try_from v = inl p <-> param_new v = Some p) /\
  (forall e, param_try_from v = inr e <-> ~ admissible v).
Proof. exact try_from_spec. Qed.
Print Assumptions C04_try_from.
Theorem C04_from_str : forall (be : Backend) (Str PFE : Type) (parse : Str -> f64 + PFE) (s : Str),
  match param_from_str (A := F64 be) parse s with
  | inl p => parse s = inl (param_get p) /\ admissible (param_get p)
  | inr (ParseError e) => parse s = inr e
  | inr (InvalidValue _) => exists v, parse s = inl v /\ ~ admissible v
  end.
Proof. exact from_str_spec. Qed.
Print Assumptions C04_from_str.
Theorem C04_into_f64 : forall (be : Backend) (p : Param (F64 be)), f64_from_param p = param_get p /\
  forall (v : F64 be) (q : Param (F64 be)), param_new v = Some q -> f64_from_param q = v.
Proof. exact into_f64_spec. Qed.
Print Assumptions C04_into_f64.

(** C05: formatting and parsing back gives the same parameter, if the standard
    library's formatting and parsing of finite doubles round-trips. *)
Theorem C05_display_parse_round_trip :
  forall (be : Backend) (Str PFE : Type) (fmt : f64 -> Str) (parse : Str -> f64 + PFE),
  (forall v, ffin v -> parse (fmt v) = inl v) ->
  forall p : Param (F64 be), Reachable be parse p ->
  param_from_str (A := F64 be) parse (param_fmt (A := F64 be) fmt p) = inl p.
Proof. exact reachable_fmt_round_trip. Qed.
Print Assumptions C05_display_parse_round_trip.

(** C06: the round trip holds, but deserialization can create a value that is
    not admissible: a format that faithfully transports doubles delivers -2. *)
Theorem C06_deserialize_serialize_partial :
  forall (be : Backend) (Str PFE : Type) (parse : Str -> f64 + PFE)
    (Doc Err : Type) (ser : f64 -> Doc) (de : Doc -> f64 + Err),
  (forall v, ffin v -> de (ser v) = inl v) ->
  forall p : Param (F64 be), Reachable be parse p ->
  param_deserialize (A := F64 be) de (param_serialize (A := F64 be) ser p) = inl p.
Proof. exact reachable_serde_round_trip. Qed.
Print Assumptions C06_deserialize_serialize_partial.
Theorem C06_deserialized_values_are_admissible_refuted :
  exists (de : f64 -> f64 + unit) (doc : f64) p,
  (forall v, de v = inl v) /\
  param_deserialize (A := F64 be0) de doc = inl p /\ ~ admissible (param_get p).
Proof. exact deserialize_refuted. Qed.
Print Assumptions C06_deserialized_values_are_admissible_refuted.
