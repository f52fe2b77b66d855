(** Property C80: what integrate returns respects affine substitution, for every rule on an interval, and
    exchanging alpha and beta of a Gauss-Jacobi rule reflects it. Exact arithmetic.
    Vocabulary: RuleSpec.v ([jacobi_value] etc. is what integrate returns; [symmetric_rule]), NCSpec.v,
    EigenSpec.v ([exact_on], [sorts]), WeightSpec.v ([delegated]). *)
From Coq Require Import Reals List ZArith Lra.
From Verif Require Import Arith RInst Machine Param Rules GolubWelsch GWSpec EigenSpec WeightSpec MassSpec NCSpec
  Gamma Jacobi Chebyshev Legendre RuleSpec GaussExact Mirror.
Local Open Scope R_scope.

(** Substituting c x + d for x, for any c and d, also zero or negative c *)
Theorem C80_substitution : forall a b c d f,
  (forall r, legendre_value r (c * a + d) (c * b + d) f = c * legendre_value r a b (fun x => f (c * x + d))) /\
  (forall r, jacobi_value r (c * a + d) (c * b + d) f = c * jacobi_value r a b (fun x => f (c * x + d))) /\
  (forall r, chebyshev1_value r (c * a + d) (c * b + d) f = c * chebyshev1_value r a b (fun x => f (c * x + d))) /\
  (forall r, chebyshev2_value r (c * a + d) (c * b + d) f = c * chebyshev2_value r a b (fun x => f (c * x + d))).
Proof.
  exact (fun a b c d f => conj (fun r => legendre_affine r a b c d f) (conj (fun r => jacobi_affine r a b c d f)
    (conj (fun r => chebyshev1_affine r a b c d f) (fun r => chebyshev2_affine r a b c d f)))).
Qed.
Print Assumptions C80_substitution.
Theorem C80_substitution_newton_cotes : forall n a b c d f, (1 <= n)%nat ->
  midpoint_value n (c * a + d) (c * b + d) f = c * midpoint_value n a b (fun x => f (c * x + d)) /\
  trapezoid_value n (c * a + d) (c * b + d) f = c * trapezoid_value n a b (fun x => f (c * x + d)) /\
  simpson_value n (c * a + d) (c * b + d) f = c * simpson_value n a b (fun x => f (c * x + d)).
Proof. exact nc_affine. Qed.
Print Assumptions C80_substitution_newton_cotes.

(** Exchanged parameters: the nodes are negated, in reverse order, with the same weights; for every degree,
    including the odd ones whose middle node is moved to 0 (C36). The two rules may come from different solvers. *)
Theorem C80_exchanged_parameters : forall t (e1 e2 : Linalg RA) n (pa pb : Param RA) (r q : GaussJacobi RA), (1 <= n)%Z ->
  -1 < param_get pa -> -1 < param_get pb -> param_get pa + param_get pb <> -1 -> ~ delegated (param_get pa) (param_get pb) ->
  sorts e1 -> exact_on e1 (Z.to_nat n) (@jacobi_diag RA (param_get pa) (param_get pb)) (@jacobi_off_diag RA (param_get pa) (param_get pb)) ->
  sorts e2 -> exact_on e2 (Z.to_nat n) (@jacobi_diag RA (param_get pb) (param_get pa)) (@jacobi_off_diag RA (param_get pb) (param_get pa)) ->
  jacobi_new t e1 n pa pb = Ok r -> jacobi_new t e2 n pb pa = Ok q ->
  jacobi_pairs q = rev (map (fun xw : R * R => (- fst xw, snd xw)) (jacobi_pairs r)).
Proof. exact jacobi_swapped. Qed.
Print Assumptions C80_exchanged_parameters.
Theorem C80_exchanged_values : forall t (e1 e2 : Linalg RA) n (pa pb : Param RA) (r q : GaussJacobi RA), (1 <= n)%Z ->
  -1 < param_get pa -> -1 < param_get pb -> param_get pa + param_get pb <> -1 -> ~ delegated (param_get pa) (param_get pb) ->
  sorts e1 -> exact_on e1 (Z.to_nat n) (@jacobi_diag RA (param_get pa) (param_get pb)) (@jacobi_off_diag RA (param_get pa) (param_get pb)) ->
  sorts e2 -> exact_on e2 (Z.to_nat n) (@jacobi_diag RA (param_get pb) (param_get pa)) (@jacobi_off_diag RA (param_get pb) (param_get pa)) ->
  jacobi_new t e1 n pa pb = Ok r -> jacobi_new t e2 n pb pa = Ok q ->
  forall a b f, jacobi_value q a b f = jacobi_value r a b (fun x => f (a + b - x)) /\ jacobi_value q a b f = - jacobi_value r b a f.
Proof. exact jacobi_swapped_value. Qed.
Print Assumptions C80_exchanged_values.
(** Equal parameters: the rule is symmetric *)
Theorem C80_equal_parameters : forall t (e : Linalg RA) n (pa pb : Param RA) (r : GaussJacobi RA), (1 <= n)%Z ->
  -1 < param_get pa -> param_get pa = param_get pb -> param_get pa + param_get pb <> -1 -> ~ delegated (param_get pa) (param_get pb) ->
  sorts e -> exact_on e (Z.to_nat n) (@jacobi_diag RA (param_get pa) (param_get pb)) (@jacobi_off_diag RA (param_get pa) (param_get pb)) ->
  jacobi_new t e n pa pb = Ok r -> symmetric_rule (jacobi_pairs r).
Proof. exact jacobi_symmetric. Qed.
Print Assumptions C80_equal_parameters.

(** Solvers as required exist for every degree from 2 and both orders of the parameters. *)
Example C80_solvers : forall t n (pa pb : Param RA), (2 <= n)%Z -> -1 < param_get pa -> -1 < param_get pb ->
  param_get pa + param_get pb <> -1 -> ~ delegated (param_get pa) (param_get pb) -> exists (e1 e2 : Linalg RA) (r q : GaussJacobi RA),
  sorts e1 /\ exact_on e1 (Z.to_nat n) (@jacobi_diag RA (param_get pa) (param_get pb)) (@jacobi_off_diag RA (param_get pa) (param_get pb)) /\
  sorts e2 /\ exact_on e2 (Z.to_nat n) (@jacobi_diag RA (param_get pb) (param_get pa)) (@jacobi_off_diag RA (param_get pb) (param_get pa)) /\
  jacobi_new t e1 n pa pb = Ok r /\ jacobi_new t e2 n pb pa = Ok q.
Proof. exact mirror_solvers. Qed.
Example C80_parameters : ~ delegated 1 0 /\ -1 < 1 /\ -1 < 0 /\ 1 + 0 <> -1.
Proof. repeat split; try lra. unfold delegated. intros [[? ?]|[[? ?]|[? ?]]]; lra. Qed.
