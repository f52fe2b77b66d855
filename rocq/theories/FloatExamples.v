(** Concrete cases for the properties of double arithmetic. *)
From Coq Require Import Reals ZArith List Lra Lia.
From Flocq Require Import Core IEEE754.Binary.
From Verif Require Import Arith F64 F64Spec F64Proof Param Rules IntegrateSpec SignSpec SignProof SignRules ZeroSpec EqSpec ParamProof JacobiNan JacobiFinite.
Import ListNotations.
Local Open Scope R_scope.
Section E.
Variable be : Backend.
Notation A := (F64 be).
Lemma ex_weights : weights_not_negative [(@lit_neg1 A, @lit2 A); (@lit1 A, @lit_half A)].
Proof.
  apply Forall_cons; [|apply Forall_cons; [|apply Forall_nil]]; apply nn_iff; cbn [snd]; [apply lit_pos; lia|apply half_nn].
Qed.
Lemma ex_sign : nlt (@lit2 A) (@lit1 A) = false /\ not_negative (@lit2 A).
Proof.
  split; [|apply nn_iff, lit_pos; lia]. destruct (nlt (@lit2 A) (@lit1 A)) eqn:E; [|reflexivity]. exfalso.
  destruct (lit_int_exact 1) as [H1 H2]; [lia|]. destruct (lit_int_exact 2) as [G1 G2]; [lia|].
  apply (lt_finite be (@lit2 A) (@lit1 A) G1 H1) in E. change (fval (f64_lit 2 0) < fval (f64_lit 1 0)) in E. rewrite G2, H2 in E. lra.
Qed.
Lemma ex_moderate : moderate (@lit2 A) /\ ffin (@lit_half A).
Proof.
  destruct (lit_int_exact 2) as [G1 G2]; [lia|]. split; [|apply half_exact]. split; [exact G1|].
  change (Rabs (fval (f64_lit 2 0)) <= bpow radix2 960). rewrite G2, Rabs_pos_eq by lra. change 2 with (bpow radix2 1). apply bpow_le. lia.
Qed.
Lemma ex_eq : ieee_equal (B754_zero 53 1024 true) (B754_zero 53 1024 false).
Proof. left. repeat split. Qed.
Lemma ex_params : admissible (@lit_neg_half A) /\ admissible (@lit_half A) /\ admissible (@lit0 A) /\
  fval (@lit_neg_half A) = - / 2 /\ fval (@lit_half A) = / 2 /\ fval (@lit0 A) = 0.
Proof.
  destruct neg_half_exact as [N1 N2]. destruct half_exact as [P1 P2]. destruct (lit_int_exact 0) as [Z1 Z2]; [lia|].
  split; [|split; [|split; [|split; [|split]]]]; try assumption; split; try assumption.
  - refine (eq_ind_r (fun z => -1 < z) _ N2). lra.
  - refine (eq_ind_r (fun z => -1 < z) _ P2). lra.
  - refine (eq_ind_r (fun z => -1 < z) _ Z2). lra.
Qed.
Lemma ex_jacobi : admissible (@lit_half A) /\ admissible (@lit2 A) /\ fval (@lit_half A) <= bpow radix2 200 /\ fval (@lit2 A) <= bpow radix2 200 /\
  bpow radix2 (-48) <= Rabs (fval (@lit_half A) + fval (@lit2 A) + 1).
Proof.
  destruct half_exact as [P1 P2]. destruct (lit_int_exact 2) as [G1 G2]; [lia|].
  change (fval (@lit_half A)) with (fval (f64_lit 5 (-1))). change (fval (@lit2 A)) with (fval (f64_lit 2 0)).
  pose proof (pw_le 1 200 ltac:(lia)) as H. change (bpow radix2 1) with 2 in H. pose proof (pw_le (-48) 0 ltac:(lia)) as H'. change (bpow radix2 0) with 1 in H'.
  rewrite P2, G2. split; [|split; [|split; [|split]]]; try lra.
  - split; [exact P1|]. refine (eq_ind_r (fun z => -1 < z) _ P2). lra.
  - split; [exact G1|]. refine (eq_ind_r (fun z => -1 < z) _ G2). lra.
  - rewrite Rabs_pos_eq; lra.
Qed.
Lemma family : forall n (alpha beta : A) a b, (2 <= n)%nat -> ffin alpha -> ffin beta ->
  fval alpha = IZR a * bpow radix2 (-52) -> fval beta = IZR b * bpow radix2 (-52) ->
  (- 2 ^ 52 < a)%Z -> (- 2 ^ 52 < b)%Z -> (a + b = - 2 ^ 52)%Z ->
  exists m, GolubWelsch.companion_matrix n (Jacobi.jacobi_diag alpha beta) (Jacobi.jacobi_off_diag alpha beta) = Machine.Ok m /\ fnan (GWSpec.entry m 0 1).
Proof. intros n alpha beta a b Hn Fa Fb Va Vb. apply family_nan; [exact Hn|split; assumption|split; assumption]. Qed.
End E.
