(** Documents that are accepted although no constructor builds such a rule. *)
From Coq Require Import ZArith List Bool String Reals Lra Lia.
From Flocq Require Import Core IEEE754.Binary.
From Verif Require Import Arith F64 F64Spec F64Proof Machine Param ParamProof Rules Serde SerdeSpec.
Import ListNotations.
Local Open Scope string_scope.

Lemma empty_rules_accepted (A : Arith) (strict : bool) :
  let d : Doc A := DMap [("node_weight_pairs", DSeq []); ("alpha", DInt 0); ("beta", DInt 0)] in
  (exists r, legendre_deserialize strict d = inl r /\ rule_degree (legendre_pairs r) = 0%nat) /\
  (exists r, chebyshev1_deserialize strict d = inl r /\ rule_degree (chebyshev1_pairs r) = 0%nat) /\
  (exists r, chebyshev2_deserialize strict d = inl r /\ rule_degree (chebyshev2_pairs r) = 0%nat) /\
  (exists r, hermite_deserialize strict d = inl r /\ rule_degree (hermite_pairs r) = 0%nat) /\
  (exists r, laguerre_deserialize strict d = inl r /\ rule_degree (laguerre_pairs r) = 0%nat) /\
  (exists r, jacobi_deserialize strict d = inl r /\ rule_degree (jacobi_pairs r) = 0%nat).
Proof.
  intros d. repeat split; eexists; (split; [reflexivity|]); reflexivity.
Qed.

Lemma bad_params_accepted (be : Backend) (strict : bool) :
  let d : Doc (F64 be) :=
    DMap [("node_weight_pairs", DSeq [DSeq [DInt 0; DInt 1]]); ("alpha", DInt (-2)); ("beta", DInt (-1))] in
  (exists r, laguerre_deserialize strict d = inl r /\ ~ admissible (param_get (laguerre_alpha r))) /\
  (exists r, jacobi_deserialize strict d = inl r /\ ~ admissible (param_get (jacobi_alpha r)) /\
     ~ admissible (param_get (jacobi_beta r))).
Proof.
  intros d.
  assert (N : forall z, (-2 <= z <= -1)%Z -> ~ admissible (f64_of_Z z)).
  { intros z Hz [_ H]. destruct (ofZ_exact z) as [_ E]; [lia|].
    rewrite E in H. assert (IZR z <= -1)%R by (apply IZR_le; lia). lra. }
  split.
  - exists {| laguerre_pairs := ([(f64_of_Z 0, f64_of_Z 1)] : Pairs (F64 be));
              laguerre_alpha := MkParam (A := F64 be) (f64_of_Z (-2)) |}.
    split; [destruct strict; reflexivity|]. apply (N (-2)%Z); lia.
  - exists {| jacobi_pairs := ([(f64_of_Z 0, f64_of_Z 1)] : Pairs (F64 be));
              jacobi_alpha := MkParam (A := F64 be) (f64_of_Z (-2));
              jacobi_beta := MkParam (A := F64 be) (f64_of_Z (-1)) |}.
    split; [destruct strict; reflexivity|]. split; [apply (N (-2)%Z) | apply (N (-1)%Z)]; lia.
Qed.
