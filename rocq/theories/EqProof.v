(** Equality and order of rules and parameters in double arithmetic; the special Jacobi parameters. *)
From Coq Require Import Reals ZArith List Lra Lia Bool.
From Flocq Require Import Core IEEE754.Binary.
From Flocq Require IEEE754.BinarySingleNaN.
From Verif Require Import Arith F64 F64Spec F64Proof Machine Iter Param Rules Par Chebyshev GolubWelsch Hermite Laguerre Legendre Jacobi
  ParamSpec ParamProof EqSpec.
Import ListNotations.
Local Open Scope R_scope.

Section Eq.
Variable be : Backend.
Notation A := (F64 be).

Lemma neqb_iff : forall x y : A, neqb x y = true <-> ieee_equal x y.
Proof.
  intros x y. unfold ieee_equal.
  destruct (is_finite 53 1024 x) eqn:Fx; [destruct (is_finite 53 1024 y) eqn:Fy|].
  - rewrite (eqb_finite be x y Fx Fy). split.
    + intros H. left. split; [exact Fx|split; [exact Fy|exact H]].
    + intros [(_ & _ & H)|(s & -> & _)]; [exact H|discriminate Fx].
  - split.
    + intros H. exfalso. destruct x as [s|s|s p Hp|s m e Hp]; try discriminate Fx; destruct y as [s'|s'|s' p' Hp'|s' m' e' Hp']; try discriminate Fy; try destruct s'; try destruct s; discriminate H.
    + intros [(_ & H & _)|(s & -> & _)]; [unfold ffin in H; congruence|discriminate Fx].
  - split.
    + intros H. right. destruct x as [s|s|s p Hp|s m e Hp]; try discriminate Fx; [|discriminate H].
      exists s. split; [reflexivity|]. destruct y as [s'|s'|s' p' Hp'|s' m' e' Hp']; destruct s; try destruct s'; try discriminate H; reflexivity.
    + intros [(H & _)|(s & -> & ->)]; [unfold ffin in H; congruence|]. destruct s; reflexivity.
Qed.
Lemma ieee_refl : forall x : f64, ieee_equal x x <-> ~ fnan x.
Proof.
  intros x. unfold ieee_equal, fnan. destruct x as [s|s|s p Hp|s m e Hp]; simpl.
  - split; [intros _ H; discriminate H|]. intros _. left. repeat split.
  - split; [intros _ H; discriminate H|]. intros _. right. exists s. split; reflexivity.
  - split; [|intros H; exfalso; apply H; reflexivity]. intros [(H & _)|(s' & H & _)]; discriminate H.
  - split; [intros _ H; discriminate H|]. intros _. left. repeat split.
Qed.
Theorem pairs_eq : forall p q : Pairs A, pairs_eqb p q = true <->
  List.Forall2 (fun x y => ieee_equal (fst x) (fst y) /\ ieee_equal (snd x) (snd y)) p q.
Proof.
  induction p as [|[x w] p IH]; intros [|[y v] q]; simpl.
  - split; [constructor|reflexivity].
  - split; [discriminate|intros H; inversion H].
  - split; [discriminate|intros H; inversion H].
  - rewrite !andb_true_iff, IH, !neqb_iff. split.
    + intros [[H1 H2] H3]. constructor; [split; assumption|exact H3].
    + intros H. inversion H; subst. simpl in *. tauto.
Qed.
Lemma forall2_diag : forall (p : Pairs A), List.Forall2 (fun x y => ieee_equal (fst x) (fst y) /\ ieee_equal (snd x) (snd y)) p p <->
  List.Forall (fun x => ~ fnan (fst x) /\ ~ fnan (snd x)) p.
Proof.
  induction p as [|x p IH]; [split; constructor|]. split; intros H; inversion H; subst; constructor; try (apply IH; assumption).
  - rewrite <- !ieee_refl. assumption.
  - rewrite !ieee_refl. assumption.
Qed.
Theorem clone_eq : forall p : Pairs A, pairs_eqb p p = true <-> List.Forall (fun x => ~ fnan (fst x) /\ ~ fnan (snd x)) p.
Proof. intros p. rewrite pairs_eq. apply forall2_diag. Qed.
Theorem laguerre_eq : forall r s : GaussLaguerre A, laguerre_eqb r s = true <->
  List.Forall2 (fun x y => ieee_equal (fst x) (fst y) /\ ieee_equal (snd x) (snd y)) (laguerre_pairs r) (laguerre_pairs s) /\
  ieee_equal (param_get (laguerre_alpha r)) (param_get (laguerre_alpha s)).
Proof. intros r s. unfold laguerre_eqb, param_eqb. rewrite andb_true_iff, pairs_eq, neqb_iff. reflexivity. Qed.
Theorem jacobi_eq : forall r s : GaussJacobi A, jacobi_eqb r s = true <->
  List.Forall2 (fun x y => ieee_equal (fst x) (fst y) /\ ieee_equal (snd x) (snd y)) (jacobi_pairs r) (jacobi_pairs s) /\
  ieee_equal (param_get (jacobi_alpha r)) (param_get (jacobi_alpha s)) /\
  ieee_equal (param_get (jacobi_beta r)) (param_get (jacobi_beta s)).
Proof. intros r s. unfold jacobi_eqb, param_eqb. rewrite !andb_true_iff, pairs_eq, !neqb_iff. unfold param_get. tauto. Qed.
Theorem laguerre_clone : forall r : GaussLaguerre A, laguerre_eqb r r = true <->
  List.Forall (fun x => ~ fnan (fst x) /\ ~ fnan (snd x)) (laguerre_pairs r) /\ ~ fnan (param_get (laguerre_alpha r)).
Proof. intros r. rewrite laguerre_eq, forall2_diag, ieee_refl. reflexivity. Qed.
Theorem jacobi_clone : forall r : GaussJacobi A, jacobi_eqb r r = true <->
  List.Forall (fun x => ~ fnan (fst x) /\ ~ fnan (snd x)) (jacobi_pairs r) /\
  ~ fnan (param_get (jacobi_alpha r)) /\ ~ fnan (param_get (jacobi_beta r)).
Proof. intros r. rewrite jacobi_eq, forall2_diag, !ieee_refl. reflexivity. Qed.

(** parameters *)
Theorem param_order : forall p q : Param A, admissible (param_get p) -> admissible (param_get q) ->
  (param_partial_cmp p q = Some Lt <-> fval (param_get p) < fval (param_get q)) /\
  (param_partial_cmp p q = Some Eq <-> fval (param_get p) = fval (param_get q)) /\
  (param_partial_cmp p q = Some Gt <-> fval (param_get p) > fval (param_get q)) /\
  (param_eqb p q = true <-> fval (param_get p) = fval (param_get q)).
Proof.
  intros [x] [y] [Fx _] [Fy _]. unfold param_partial_cmp, param_eqb, param_get in *. simpl in *.
  split; [|split; [|split]].
  - change (Bcompare 53 1024 x y) with (@ncmp A x y). rewrite (cmp_finite be x y Fx Fy). destruct (Rcompare_spec (fval x) (fval y)); split; intros; try reflexivity; try discriminate; try lra; exfalso; lra.
  - change (Bcompare 53 1024 x y) with (@ncmp A x y). rewrite (cmp_finite be x y Fx Fy). destruct (Rcompare_spec (fval x) (fval y)); split; intros; try reflexivity; try discriminate; try lra; exfalso; lra.
  - change (Bcompare 53 1024 x y) with (@ncmp A x y). rewrite (cmp_finite be x y Fx Fy). destruct (Rcompare_spec (fval x) (fval y)); split; intros; try reflexivity; try discriminate; try lra; exfalso; lra.
  - apply (eqb_finite be x y Fx Fy).
Qed.

(** Jacobi *)
Definition pair_is (c : R) (alpha beta : Param A) : Prop := fval (param_get alpha) = c /\ fval (param_get beta) = c.
Lemma eqb_lit : forall (p : Param A) (l : A) (c : R), ffin (param_get p) -> ffin l -> fval l = c -> neqb (param_get p) l = true <-> fval (param_get p) = c.
Proof. intros p l c Hp Hl <-. apply eqb_finite; assumption. Qed.
Lemma and_true : forall a b P Q, (a = true <-> P) -> (b = true <-> Q) -> (a && b = true <-> P /\ Q).
Proof. intros a b P Q H1 H2. rewrite andb_true_iff, H1, H2. reflexivity. Qed.
Lemma tests : forall alpha beta : Param A, ffin (param_get alpha) -> ffin (param_get beta) ->
  (neqb (param_get alpha) lit0 && neqb (param_get beta) lit0 = true <-> pair_is 0 alpha beta) /\
  (neqb (param_get alpha) lit_neg_half && neqb (param_get beta) lit_neg_half = true <-> pair_is (- / 2) alpha beta) /\
  (neqb (param_get alpha) lit_half && neqb (param_get beta) lit_half = true <-> pair_is (/ 2) alpha beta).
Proof.
  intros alpha beta Ha Hb. destruct (lit_int_exact 0) as [Z1 Z2]; [lia|]. destruct neg_half_exact as [N1 N2]. destruct half_exact as [P1 P2].
  split; [|split]; apply and_true; apply eqb_lit; assumption.
Qed.
Lemma bool_cases : forall (b : bool) P, (b = true <-> P) -> ~ P -> b = false.
Proof. intros [] P H N; [exfalso; apply N, H; reflexivity|reflexivity]. Qed.

Theorem jacobi_legendre : forall t ext deg (alpha beta : Param A), admissible (param_get alpha) -> admissible (param_get beta) ->
  pair_is 0 alpha beta ->
  jacobi_new t ext deg alpha beta = (let! r := legendre_new t deg in Ok (jacobi_from_legendre r)).
Proof.
  intros t ext deg alpha beta [Ha _] [Hb _] H. destruct (tests alpha beta Ha Hb) as (T1 & T2 & T3).
  unfold jacobi_new. cbv zeta. rewrite (proj2 T1 H). reflexivity.
Qed.
Theorem jacobi_chebyshev1 : forall t ext deg (alpha beta : Param A), admissible (param_get alpha) -> admissible (param_get beta) ->
  pair_is (- / 2) alpha beta ->
  jacobi_new t ext deg alpha beta = (let! r := chebyshev1_new t deg in Ok (jacobi_from_chebyshev1 r)).
Proof.
  intros t ext deg alpha beta [Ha _] [Hb _] H. destruct (tests alpha beta Ha Hb) as (T1 & T2 & T3).
  unfold jacobi_new. cbv zeta. rewrite (bool_cases _ _ T1) by (destruct H; unfold pair_is; intros [? ?]; lra).
  rewrite (proj2 T2 H). reflexivity.
Qed.
Theorem jacobi_chebyshev2 : forall t ext deg (alpha beta : Param A), admissible (param_get alpha) -> admissible (param_get beta) ->
  pair_is (/ 2) alpha beta ->
  jacobi_new t ext deg alpha beta = (let! r := chebyshev2_new t deg in Ok (jacobi_from_chebyshev2 r)).
Proof.
  intros t ext deg alpha beta [Ha _] [Hb _] H. destruct (tests alpha beta Ha Hb) as (T1 & T2 & T3).
  unfold jacobi_new. cbv zeta. rewrite (bool_cases _ _ T1) by (destruct H; unfold pair_is; intros [? ?]; lra).
  rewrite (bool_cases _ _ T2) by (destruct H; unfold pair_is; intros [? ?]; lra).
  rewrite (proj2 T3 H). reflexivity.
Qed.
Lemma self_eq : forall p : Param A, ffin (param_get p) -> param_eqb p p = true.
Proof. intros p H. apply (eqb_finite be); try exact H. reflexivity. Qed.
Lemma lit_eq : forall (p : Param A) (l : A) c, ffin (param_get p) -> ffin l -> fval l = c -> fval (param_get p) = c -> param_eqb (MkParam l) p = true.
Proof. intros p l c Hp Hl H1 H2. apply (eqb_finite be); try assumption. exact (eq_trans H1 (eq_sym H2)). Qed.
Theorem jacobi_params : forall t ext deg (alpha beta : Param A) r, admissible (param_get alpha) -> admissible (param_get beta) ->
  jacobi_new t ext deg alpha beta = Ok r ->
  param_eqb (jacobi_get_alpha r) alpha = true /\ param_eqb (jacobi_get_beta r) beta = true.
Proof.
  intros t ext deg alpha beta r [Ha Ha'] [Hb Hb']. destruct (tests alpha beta Ha Hb) as (T1 & T2 & T3).
  destruct (lit_int_exact 0) as [Z1 Z2]; [lia|]. destruct neg_half_exact as [N1 N2]. destruct half_exact as [P1 P2].
  unfold jacobi_new. cbv zeta.
  destruct (neqb (param_get alpha) lit0 && neqb (param_get beta) lit0).
  { destruct (proj1 T1 eq_refl) as [E1 E2]. destruct (legendre_new t deg) as [l|]; [|discriminate]. intros H. injection H as <-.
    split; eapply lit_eq; try eassumption. }
  destruct (neqb (param_get alpha) lit_neg_half && neqb (param_get beta) lit_neg_half).
  { destruct (proj1 T2 eq_refl) as [E1 E2]. destruct (chebyshev1_new t deg) as [l|]; [|discriminate]. intros H. injection H as <-.
    split; eapply lit_eq; try eassumption. }
  destruct (neqb (param_get alpha) lit_half && neqb (param_get beta) lit_half).
  { destruct (proj1 T3 eq_refl) as [E1 E2]. destruct (chebyshev2_new t deg) as [l|]; [|discriminate]. intros H. injection H as <-.
    split; eapply lit_eq; try eassumption. }
  destruct (deg =? 1)%Z.
  { intros H. injection H as <-. split; now apply self_eq. }
  destruct (golub_welsch _ _ _ _ _) as [ps|]; [|discriminate]. unfold bind at 1.
  destruct (if (deg mod 2 =? 1)%Z then zero_node ps (Z.to_nat (deg / 2)) else Ok ps) as [ps'|]; [|discriminate].
  intros H. injection H as <-. split; now apply self_eq.
Qed.
Theorem jacobi_general : forall t ext deg (alpha beta : Param A) r, admissible (param_get alpha) -> admissible (param_get beta) ->
  ~ pair_is 0 alpha beta -> ~ pair_is (- / 2) alpha beta -> ~ pair_is (/ 2) alpha beta ->
  jacobi_new t ext deg alpha beta = Ok r -> jacobi_get_alpha r = alpha /\ jacobi_get_beta r = beta.
Proof.
  intros t ext deg alpha beta r [Ha Ha'] [Hb Hb'] H1 H2 H3. destruct (tests alpha beta Ha Hb) as (T1 & T2 & T3).
  unfold jacobi_new. cbv zeta. rewrite (bool_cases _ _ T1 H1), (bool_cases _ _ T2 H2), (bool_cases _ _ T3 H3).
  destruct (deg =? 1)%Z.
  { intros H. injection H as <-. split; reflexivity. }
  destruct (golub_welsch _ _ _ _ _) as [ps|]; [|discriminate]. unfold bind at 1.
  destruct (if (deg mod 2 =? 1)%Z then zero_node ps (Z.to_nat (deg / 2)) else Ok ps) as [ps'|]; [|discriminate].
  intros H. injection H as <-. split; reflexivity.
Qed.
Theorem jacobi_from : 
  (forall r : GaussLegendre A, jacobi_pairs (jacobi_from_legendre r) = legendre_pairs r /\ pair_is 0 (jacobi_get_alpha (jacobi_from_legendre r)) (jacobi_get_beta (jacobi_from_legendre r))) /\
  (forall r : GaussChebyshevFirstKind A, jacobi_pairs (jacobi_from_chebyshev1 r) = chebyshev1_pairs r /\ pair_is (- / 2) (jacobi_get_alpha (jacobi_from_chebyshev1 r)) (jacobi_get_beta (jacobi_from_chebyshev1 r))) /\
  (forall r : GaussChebyshevSecondKind A, jacobi_pairs (jacobi_from_chebyshev2 r) = chebyshev2_pairs r /\ pair_is (/ 2) (jacobi_get_alpha (jacobi_from_chebyshev2 r)) (jacobi_get_beta (jacobi_from_chebyshev2 r))).
Proof.
  destruct (lit_int_exact 0) as [Z1 Z2]; [lia|]. destruct neg_half_exact as [N1 N2]. destruct half_exact as [P1 P2].
  repeat split; assumption.
Qed.
End Eq.
