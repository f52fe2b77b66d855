(** A rule with 1000 points, in both arithmetics. *)
From Coq Require Import ZArith Lia.
From Verif Require Import Arith RInst F64 Machine Rules Legendre SizeProof Prop_Legendre.
Local Open Scope Z_scope.
Lemma both_rules_1000 : forall be : Backend, exists (r : GaussLegendre (F64 be)) (q : GaussLegendre RA),
  legendre_new target64 (Z.of_nat 1000) = Ok r /\ legendre_new target64 (Z.of_nat 1000) = Ok q.
Proof.
  intros be. destruct (legendre_new_ok (A := F64 be) target64 1000) as (r & E & _); [vm_compute; discriminate|lia|vm_compute; discriminate|].
  destruct (legendre_new_ok (A := RA) target64 1000) as (q & F & _); [vm_compute; discriminate|lia|vm_compute; discriminate|].
  exists r, q. change (Z.of_nat 1000) with 1000. split; [exact E|exact F].
Qed.
