(** Properties C57-C60: serialization of rules, the byte view of a parameter,
    and the error types. *)
From Coq Require Import String ZArith Reals List.
From Verif Require Import Arith F64 F64Spec Param ParamMore ParamMoreProof Rules NewtonCotes.
From Verif Require Import Serde SerdeSpec SerdeProof SerdeErr SerdeBad ParamProof.
Import ListNotations.
Local Open Scope string_scope.

(** C57: deserialize(serialize(r)) = r, bit for bit, for every rule of every
    kind, in formats that write structs as maps and in those that write them as
    sequences. *)
Theorem C57_round_trip : forall (A : Arith) (strict compact : bool),
  (forall r : GaussLegendre A,
     legendre_deserialize strict (legendre_serialize compact r) = inl r) /\
  (forall r : GaussChebyshevFirstKind A,
     chebyshev1_deserialize strict (chebyshev1_serialize compact r) = inl r) /\
  (forall r : GaussChebyshevSecondKind A,
     chebyshev2_deserialize strict (chebyshev2_serialize compact r) = inl r) /\
  (forall r : GaussHermite A,
     hermite_deserialize strict (hermite_serialize compact r) = inl r) /\
  (forall r : GaussLaguerre A,
     laguerre_deserialize strict (laguerre_serialize compact r) = inl r) /\
  (forall r : GaussJacobi A,
     jacobi_deserialize strict (jacobi_serialize compact r) = inl r) /\
  (forall r, nonzero_u32 (midpoint_degree r) ->
     midpoint_deserialize strict (midpoint_serialize (A := A) compact r) = inl r) /\
  (forall r, nonzero_u32 (trapezoid_degree r) ->
     trapezoid_deserialize strict (trapezoid_serialize (A := A) compact r) = inl r) /\
  (forall r, nonzero_u32 (simpson_degree r) ->
     simpson_deserialize strict (simpson_serialize (A := A) compact r) = inl r).
Proof.
  exact (fun A s c =>
    conj (@legendre_round_trip A s c) (conj (@chebyshev1_round_trip A s c)
    (conj (@chebyshev2_round_trip A s c) (conj (@hermite_round_trip A s c)
    (conj (@laguerre_round_trip A s c) (conj (@jacobi_round_trip A s c)
    (conj (@midpoint_round_trip A s c) (conj (@trapezoid_round_trip A s c)
    (@simpson_round_trip A s c))))))))).
Qed.
Print Assumptions C57_round_trip.

(** Exactly these documents are accepted, with these results: every field once,
    in any order, among any other fields; or the fields in order. *)
Theorem C57_accepted_legendre : forall (A : Arith) strict (d : Doc A) r,
  legendre_deserialize strict d = inl r <->
  one_field strict "node_weight_pairs" (fun v => denotes_pairs strict v (legendre_pairs r)) d.
Proof. exact @legendre_de_iff. Qed.
Print Assumptions C57_accepted_legendre.
Theorem C57_accepted_chebyshev1 : forall (A : Arith) strict (d : Doc A) r,
  chebyshev1_deserialize strict d = inl r <->
  one_field strict "node_weight_pairs" (fun v => denotes_pairs strict v (chebyshev1_pairs r)) d.
Proof. exact @chebyshev1_de_iff. Qed.
Print Assumptions C57_accepted_chebyshev1.
Theorem C57_accepted_chebyshev2 : forall (A : Arith) strict (d : Doc A) r,
  chebyshev2_deserialize strict d = inl r <->
  one_field strict "node_weight_pairs" (fun v => denotes_pairs strict v (chebyshev2_pairs r)) d.
Proof. exact @chebyshev2_de_iff. Qed.
Print Assumptions C57_accepted_chebyshev2.
Theorem C57_accepted_hermite : forall (A : Arith) strict (d : Doc A) r,
  hermite_deserialize strict d = inl r <->
  one_field strict "node_weight_pairs" (fun v => denotes_pairs strict v (hermite_pairs r)) d.
Proof. exact @hermite_de_iff. Qed.
Print Assumptions C57_accepted_hermite.
Theorem C57_accepted_laguerre : forall (A : Arith) strict (d : Doc A) r,
  laguerre_deserialize strict d = inl r <->
  two_fields strict "node_weight_pairs" "alpha"
    (fun v => denotes_pairs strict v (laguerre_pairs r))
    (fun v => denotes_param v (laguerre_alpha r)) d.
Proof. exact @laguerre_de_iff. Qed.
Print Assumptions C57_accepted_laguerre.
Theorem C57_accepted_jacobi : forall (A : Arith) strict (d : Doc A) r,
  jacobi_deserialize strict d = inl r <->
  three_fields strict "node_weight_pairs" "alpha" "beta"
    (fun v => denotes_pairs strict v (jacobi_pairs r))
    (fun v => denotes_param v (jacobi_alpha r)) (fun v => denotes_param v (jacobi_beta r)) d.
Proof. exact @jacobi_de_iff. Qed.
Print Assumptions C57_accepted_jacobi.
Theorem C57_accepted_newton_cotes : forall (A : Arith) strict (d : Doc A),
  (forall r, midpoint_deserialize strict d = inl r <->
     one_field strict "degree" (fun v => denotes_degree v (midpoint_degree r)) d) /\
  (forall r, trapezoid_deserialize strict d = inl r <->
     one_field strict "degree" (fun v => denotes_degree v (trapezoid_degree r)) d) /\
  (forall r, simpson_deserialize strict d = inl r <->
     one_field strict "degree" (fun v => denotes_degree v (simpson_degree r)) d).
Proof.
  exact (fun A s d => conj (midpoint_de_iff s d) (conj (trapezoid_de_iff s d) (simpson_de_iff s d))).
Qed.
Print Assumptions C57_accepted_newton_cotes.

(** When a document is rejected because of a field, the reported field is one of the struct and is
    indeed absent, or indeed repeated. *)
Theorem C57_field_errors : forall (A : Arith) (strict : bool),
  reports_fields (legendre_deserialize (A := A) strict) ["node_weight_pairs"] /\
  reports_fields (chebyshev1_deserialize (A := A) strict) ["node_weight_pairs"] /\
  reports_fields (chebyshev2_deserialize (A := A) strict) ["node_weight_pairs"] /\
  reports_fields (hermite_deserialize (A := A) strict) ["node_weight_pairs"] /\
  reports_fields (laguerre_deserialize (A := A) strict) ["node_weight_pairs"; "alpha"] /\
  reports_fields (jacobi_deserialize (A := A) strict) ["node_weight_pairs"; "alpha"; "beta"] /\
  reports_fields (midpoint_deserialize (A := A) strict) ["degree"] /\
  reports_fields (trapezoid_deserialize (A := A) strict) ["degree"] /\
  reports_fields (simpson_deserialize (A := A) strict) ["degree"].
Proof. exact @all_errors. Qed.
Print Assumptions C57_field_errors.

(** C60: a deserialized rule keeps the guarantees of a constructed one.  For the
    Newton-Cotes rules: no document leads to a rule with a degree of zero. *)
Theorem C60_newton_cotes_degree_valid_partial : forall (A : Arith) strict (d : Doc A),
  (forall r, midpoint_deserialize strict d = inl r -> (1 <= midpoint_degree r < 2 ^ 32)%Z) /\
  (forall r, trapezoid_deserialize strict d = inl r -> (1 <= trapezoid_degree r < 2 ^ 32)%Z) /\
  (forall r, simpson_deserialize strict d = inl r -> (1 <= simpson_degree r < 2 ^ 32)%Z).
Proof. exact @nc_degree_valid. Qed.
Print Assumptions C60_newton_cotes_degree_valid_partial.

(** The node-weight rules do not have this protection: a document with no pairs
    makes a rule of degree zero, which no constructor can (C10), and alpha and
    beta are taken as they are. *)
Theorem C60_deserialized_rules_are_valid_refuted : exists d : Doc (F64 be0),
  (exists r, legendre_deserialize true d = inl r /\ rule_degree (legendre_pairs r) = 0%nat) /\
  (exists r, chebyshev1_deserialize true d = inl r /\ rule_degree (chebyshev1_pairs r) = 0%nat) /\
  (exists r, chebyshev2_deserialize true d = inl r /\ rule_degree (chebyshev2_pairs r) = 0%nat) /\
  (exists r, hermite_deserialize true d = inl r /\ rule_degree (hermite_pairs r) = 0%nat) /\
  (exists r, laguerre_deserialize true d = inl r /\ rule_degree (laguerre_pairs r) = 0%nat) /\
  (exists r, jacobi_deserialize true d = inl r /\ rule_degree (jacobi_pairs r) = 0%nat).
Proof. exact (ex_intro _ _ (empty_rules_accepted (F64 be0) true)). Qed.
Print Assumptions C60_deserialized_rules_are_valid_refuted.
Theorem C60_deserialized_parameters_are_valid_refuted : exists d : Doc (F64 be0),
  (exists r, laguerre_deserialize true d = inl r /\ ~ admissible (param_get (laguerre_alpha r))) /\
  (exists r, jacobi_deserialize true d = inl r /\ ~ admissible (param_get (jacobi_alpha r)) /\
     ~ admissible (param_get (jacobi_beta r))).
Proof. exact (ex_intro _ _ (bad_params_accepted be0 true)). Qed.
Print Assumptions C60_deserialized_parameters_are_valid_refuted.

(** Examples: fields in another order and an unknown field; a missing field; a
    field that occurs twice; too many elements. *)
Example C57_example_order : forall (A : Arith) (x w a : A),
  laguerre_deserialize true (DMap [("alpha", DNum a); ("comment", DOther);
                                   ("node_weight_pairs", DSeq [DSeq [DNum x; DNum w]])])
  = inl {| laguerre_pairs := [(x, w)]; laguerre_alpha := MkParam a |}.
Proof. reflexivity. Qed.
Example C57_example_missing : forall (A : Arith),
  laguerre_deserialize true (DMap [("node_weight_pairs", DSeq (N := A) [])])
  = inr (MissingField "alpha").
Proof. reflexivity. Qed.
Example C57_example_duplicate : forall (A : Arith),
  midpoint_deserialize (A := A) true (DMap [("degree", DInt 3); ("degree", DInt 4)])
  = inr (DuplicateField "degree").
Proof. reflexivity. Qed.
Example C57_example_zero : forall (A : Arith),
  simpson_deserialize (A := A) true (DMap [("degree", DInt 0)]) = inr InvalidNumber.
Proof. reflexivity. Qed.

(** C58: the byte view of a parameter has eight bytes, determines the parameter
    bit for bit, and the parameter made of zero bytes is the default, 0. *)
Theorem C58_bytes : forall (be : Backend) (en : Endian) (p q : Param (F64 be)),
  (length (param_as_bytes en p) = 8%nat /\
   Forall (fun b => (0 <= b < 256)%Z) (param_as_bytes en p)) /\
  (param_as_bytes en p = param_as_bytes en q -> p = q) /\
  (param_as_bytes en p = repeat 0%Z 8 <-> p = param_new_zeroed).
Proof. exact bytes_spec. Qed.
Print Assumptions C58_bytes.
Theorem C58_zeroed_is_valid : forall be : Backend,
  @param_new_zeroed be = param_default /\
  fval (param_get (@param_new_zeroed be)) = 0%R /\ admissible (param_get (@param_new_zeroed be)).
Proof. exact zeroed_admissible. Qed.
Print Assumptions C58_zeroed_is_valid.
(** 1.0 is 0x3ff0000000000000. *)
Example C58_example : f64_bytes BigEndian (f64_of_Z 1) = [63; 240; 0; 0; 0; 0; 0; 0]%Z.
Proof. reflexivity. Qed.

(** C59: what a failed parse reports: the standard library's error, or that the
    number is not admissible; message and source belong to that error. *)
Theorem C59_parse_errors : forall (Str PFE : Type) (be : Backend) (parse : Str -> f64 + PFE)
    (show_pfe : PFE -> string) (s : Str) e,
  param_from_str (A := F64 be) parse s = inr e ->
  (exists e0, parse s = inr e0 /\ e = ParseError e0 /\
     parse_param_display show_pfe e = show_pfe e0 /\
     any_source (CrateParse e) = Some (StdParseFloat e0)) \/
  (exists v, parse s = inl v /\ ~ admissible v /\ e = InvalidValue MkInfNanNegOneOrLessError /\
     parse_param_display show_pfe e = invalid_display MkInfNanNegOneOrLessError /\
     any_source (CrateParse e) = Some (CrateInvalid MkInfNanNegOneOrLessError)).
Proof. exact @parse_errors. Qed.
Print Assumptions C59_parse_errors.
(** Every error with a source shows the source's message, and chains of sources
    have one element. *)
Theorem C59_source_has_same_message : forall (PFE : Type) (show_pfe : PFE -> string)
    (e e' : AnyError PFE), any_source e = Some e' ->
  any_display show_pfe e' = any_display show_pfe e /\ any_source e' = None.
Proof. exact @source_same_message. Qed.
Print Assumptions C59_source_has_same_message.
(** Two errors are equal exactly if they have the same kind and equal contents. *)
Theorem C59_errors_equal : forall (PFE : Type) (pfe_eqb : PFE -> PFE -> bool), (forall a b, pfe_eqb a b = true <-> a = b) ->
  forall x y : ParseParamError PFE, parse_param_error_eqb pfe_eqb x y = true <-> x = y.
Proof. exact @errors_equal. Qed.
Print Assumptions C59_errors_equal.
Example C59_example : forall be : Backend,
  param_from_str (A := F64 be) (fun z : Z => inl (f64_of_Z z) : f64 + string) (-1)%Z
  = inr (InvalidValue MkInfNanNegOneOrLessError).
Proof. reflexivity. Qed.
