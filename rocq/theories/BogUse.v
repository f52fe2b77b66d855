(** Consequences of BogRule.v: integrals computed with more than 100 points. *)
From Coq Require Import Reals ZArith List Lia Lra Psatz FunctionalExtensionality Sorting.Sorted.
From Coquelicot Require Import Coquelicot.
From Verif Require Import Arith RInst RInstProof RSum Machine Rules LegendreData Legendre PolySpec PolyProof EigenSpec GWRoots MassSpec RuleSpec ErrorSpec GaussRuleSpec
  GaussProof TransferProof OrthoProof Improper ChebRule LegSym LegShape LegPoly LegInt LegOde BogGauss BogRule Bern.
Import ListNotations.
Local Open Scope R_scope.

Lemma gauss_rule_exists : forall n, (1 <= n)%nat -> exists l, gauss_rule n l /\ forall m, gauss_rule n m -> m = l.
Proof.
  intros n Hn. destruct (rule_exists n Hn) as (ps & G & R & _). exists ps. split; [exact G|]. intros m Gm. apply (rule_unique n m ps Hn Gm G (rule_pos n ps Hn R)).
Qed.
Lemma rules_differ : forall f M D e (lp l : list (R * R)),
  Forall2 (fun p q => Rabs (f (fst p) - f (fst q)) <= D /\ Rabs (f (fst p)) <= M /\ Rabs (snd p - snd q) <= e * snd q /\ 0 <= snd q) lp l ->
  Rabs (apply_rule lp f - apply_rule l f) <= (D + e * M) * apply_rule l (fun _ => 1).
Proof.
  intros f M D e lp l H. unfold apply_rule. induction H as [|[x w] [X W] lp l (H1 & H2 & H3 & H4) _ IH]; cbn [map lsum fst snd] in *; [rewrite Rminus_0_r, Rabs_R0; lra|].
  set (A := lsum (map (fun xw => f (fst xw) * snd xw) lp)) in *. set (B := lsum (map (fun xw => f (fst xw) * snd xw) l)) in *.
  replace (f x * w + A - (f X * W + B)) with ((w - W) * f x + W * (f x - f X) + (A - B)) by ring.
  eapply Rle_trans; [apply Rabs_triang|]. rewrite Rmult_plus_distr_l. apply Rplus_le_compat; [|exact IH].
  eapply Rle_trans; [apply Rabs_triang|]. rewrite !Rabs_mult, (Rabs_pos_eq W) by exact H4.
  pose proof (Rabs_pos (f x)). pose proof (Rabs_pos (w - W)).
  assert (T1 : Rabs (w - W) * Rabs (f x) <= e * W * M) by (apply Rmult_le_compat; assumption).
  assert (T2 : W * Rabs (f x - f X) <= W * D) by (apply Rmult_le_compat_l; assumption). lra.
Qed.

Lemma total_apply : forall l : list (R * R), lsum (map snd l) = apply_rule l (fun _ => 1).
Proof. intros l. unfold apply_rule. apply lsum_map_ext. intros; ring. Qed.

Section N.
Variables (t : Target) (n : nat) (r : GaussLegendre RA).
Hypothesis Hu : (100 <= usize_max t)%Z.
Hypothesis Hn : (100 < n)%nat.
Hypothesis H2n : (2 * Z.of_nat n <= usize_max t)%Z.
Hypothesis Hr : legendre_new t (Z.of_nat n) = Ok r.

Lemma rule_mass : forall l, gauss_rule n l -> apply_rule l (fun _ => 1) = 2.
Proof.
  intros l (_ & _ & E). rewrite E by apply poly_const. rewrite RInt_const. match goal with |- ?a = ?b => change (@eq R a b) end. unfold scal; simpl; unfold mult; simpl. ring.
Qed.
Lemma eps_pos : 0 <= eps_node n. Proof. unfold eps_node. pose proof (pos_INR n). apply Rmult_le_pos; [lra|]. left. apply Rinv_0_lt_compat. lra. Qed.
Lemma pairs_full : forall l, gauss_rule n l -> Forall2 (fun p q => (exists x y, fst p = cos x /\ fst q = cos y /\ Rabs (x - y) <= eps_node n) /\ Rabs (fst p - fst q) <= eps_node n /\ Rabs (snd p - snd q) <= eps_weight * snd q /\ 0 <= snd q /\ -1 <= fst p <= 1 /\ -1 <= fst q <= 1) (legendre_pairs r) l.
Proof.
  intros l G. pose proof (pairs_close t n Hu Hn H2n r Hr l G) as C. destruct (rule_roots n l ltac:(lia) G) as [RR _]. pose proof (rule_pos n l ltac:(lia) RR) as P.
  destruct (legendre_shape t (Z.of_nat n) r Hu ltac:(lia) H2n Hr) as [_ F].
  assert (I : List.Forall (fun q : R * R => -1 <= fst q <= 1) l).
  { destruct (rule_angles t n Hu Hn H2n l G) as (us & _ & ->). apply List.Forall_forall. intros q Hq. apply in_rev in Hq. apply in_map_iff in Hq. destruct Hq as (v & <- & _). apply COS_bound. }
  clear G RR. revert P F I. induction C as [|p q lp l (A1 & A2 & A3) _ IH]; intros P F I; [constructor|].
  apply Forall_inv in P as P1. apply Forall_inv_tail in P. apply Forall_inv in F as F1. apply Forall_inv_tail in F. apply Forall_inv in I as I1. apply Forall_inv_tail in I. constructor; [|apply IH; assumption].
  split; [exists (acos (fst p)), (acos (fst q)); rewrite !cos_acos by lra; repeat split; exact A1|]. split; [exact A2|]. split; [exact A3|]. lra.
Qed.
Lemma forall2_impl : forall (X Y : Type) (P Q : X -> Y -> Prop), (forall x y, P x y -> Q x y) -> forall l m, Forall2 P l m -> Forall2 Q l m.
Proof. intros X Y P Q H l m F. induction F; constructor; auto. Qed.

Lemma big_weights : Rabs (lsum (map snd (legendre_pairs r)) - 2) <= 48 / 10 ^ 14.
Proof.
  destruct (gauss_rule_exists n ltac:(lia)) as (l & G & _).
  assert (E : lsum (map snd (legendre_pairs r)) = apply_rule (legendre_pairs r) (fun _ => 1)) by (apply total_apply).
  rewrite E. replace (apply_rule (legendre_pairs r) (fun _ => 1) - 2) with (apply_rule (legendre_pairs r) (fun _ => 1) - apply_rule l (fun _ => 1)) by (rewrite (rule_mass l G); reflexivity). eapply Rle_trans; [apply (rules_differ (fun _ => 1) 1 0 eps_weight)|].
  - eapply forall2_impl; [|apply (pairs_full l G)]. intros p q (_ & _ & A & B & _). rewrite Rminus_eq_0, Rabs_R0, Rabs_R1. repeat split; try lra; assumption.
  - rewrite (rule_mass l G). unfold eps_weight. lra.
Qed.
Lemma weights_unit : 0 <= apply_rule (legendre_pairs r) (fun _ => 1) <= 2 + 48 / 10 ^ 14.
Proof.
  pose proof big_weights as B.
  assert (E : lsum (map snd (legendre_pairs r)) = apply_rule (legendre_pairs r) (fun _ => 1)) by (apply total_apply).
  rewrite E in B. split; [|pose proof (Rle_abs (apply_rule (legendre_pairs r) (fun _ => 1) - 2)); lra].
  destruct (legendre_shape t (Z.of_nat n) r Hu ltac:(lia) H2n Hr) as [_ F]. unfold apply_rule. clear - F. induction F as [|[x w] l [_ H] _ IH]; cbn [map lsum fst snd] in *; lra.
Qed.
Lemma unit_poly : forall p M, polynomial (2 * n - 1) p -> (forall x, -1 <= x <= 1 -> Rabs (p x) <= M) -> Rabs (apply_rule (legendre_pairs r) p - RInt p (-1) 1) <= 105 / 10 ^ 14 * M.
Proof.
  intros p M Hp HM. destruct (gauss_rule_exists n ltac:(lia)) as (l & G & _). assert (PM : 0 <= M) by (pose proof (HM 0 ltac:(lra)); pose proof (Rabs_pos (p 0)); lra).
  replace (RInt p (-1) 1 : R) with (apply_rule l p) by (apply G; exact Hp).
  eapply Rle_trans; [apply (rules_differ p M (284 / 10 ^ 15 * M) eps_weight)|].
  - eapply forall2_impl; [|apply (pairs_full l G)]. intros a b ((x & y & X & Y & A1) & _ & A & B & C & D). split; [|repeat split; try assumption; apply HM; exact C].
    rewrite X, Y. eapply Rle_trans; [apply (bernstein (2 * n - 1) p M Hp HM)|].
    apply Rle_trans with (2 * INR (2 * n - 1) * M * eps_node n); [apply Rmult_le_compat_l; [apply Rmult_le_pos; [pose proof (pos_INR (2 * n - 1)); lra|exact PM]|exact A1]|].
    rewrite minus_INR, mult_INR by lia. simpl (INR 2). simpl (INR 1). unfold eps_node. assert (N : 101 <= INR n) by (rewrite INR_IZR_INZ; apply IZR_le; lia). set (k := INR n) in *. clearbody k.
    replace (2 * ((1 + 1) * k - 1) * M * (71 / 10 ^ 15 / (k + / 2))) with (142 / 10 ^ 15 * M * ((2 * k - 1) / (k + / 2))) by (field; lra).
    replace (284 / 10 ^ 15 * M) with (142 / 10 ^ 15 * M * 2) by field. apply Rmult_le_compat_l; [nra|]. apply (Rmult_le_reg_r (k + / 2)); [lra|]. unfold Rdiv. rewrite Rmult_assoc, Rinv_l by lra. lra.
  - rewrite (rule_mass l G). unfold eps_weight. lra.
Qed.
Lemma half_abs : forall a b, Rabs ((b - a) / 2) = Rabs (b - a) / 2. Proof. intros a b. unfold Rdiv. rewrite Rabs_mult, (Rabs_pos_eq (/ 2)) by lra. reflexivity. Qed.
Theorem big_poly : forall a b p M, polynomial (2 * n - 1) p -> (forall x, between a b x -> Rabs (p x) <= M) ->
  Rabs (legendre_value r a b p - RInt p a b) <= 105 / 10 ^ 14 * M * (Rabs (b - a) / 2).
Proof.
  intros a b p M Hp HM. unfold legendre_value. rewrite legendre_R, gauss_pulled. destruct (Req_dec a b) as [E|E].
  - subst b. rewrite RInt_point. replace ((a - a) / 2) with 0 by field. replace (a - a) with 0 by ring. change zero with 0. rewrite Rmult_0_l, Rminus_0_r, Rabs_R0. lra.
  - destruct (pull_int p a b E (poly_int _ p a b Hp)) as [_ ->]. rewrite <- Rmult_minus_distr_l, Rabs_mult, half_abs, Rmult_comm.
    apply Rmult_le_compat_r; [unfold Rdiv; apply Rmult_le_pos; [apply Rabs_pos|lra]|].
    apply unit_poly; [apply pulled_poly; exact Hp|]. intros x Hx. apply HM, pull_between, Hx.
Qed.
Theorem big_any : forall a b (f p : R -> R) M E, polynomial (2 * n - 1) p -> ex_RInt f a b ->
  (forall x, between a b x -> Rabs (f x) <= M) -> (forall x, between a b x -> Rabs (f x - p x) <= E) ->
  Rabs (legendre_value r a b f - RInt f a b) <= (105 / 10 ^ 14 * M + 5 * E) * (Rabs (b - a) / 2).
Proof.
  intros a b f p M E Hp Hf HM HE. destruct (Req_dec a b) as [Eab|Eab].
  { unfold legendre_value. rewrite legendre_R, gauss_pulled. subst b. rewrite RInt_point. replace ((a - a) / 2) with 0 by field. replace (a - a) with 0 by ring. change zero with 0. rewrite Rmult_0_l, Rminus_0_r, Rabs_R0. lra. }
  assert (Ba : between a b a) by (unfold between, Rmin, Rmax; destruct (Rle_dec a b); lra).
  assert (PE : 0 <= E) by (pose proof (HE a Ba); pose proof (Rabs_pos (f a - p a)); lra).
  assert (PM : 0 <= M) by (pose proof (HM a Ba); pose proof (Rabs_pos (f a)); lra).
  assert (HP : forall x, between a b x -> Rabs (p x) <= M + E).
  { intros x Hx. replace (p x) with (f x - (f x - p x)) by ring. unfold Rminus at 1. eapply Rle_trans; [apply Rabs_triang|]. rewrite Rabs_Ropp. pose proof (HM x Hx). pose proof (HE x Hx). lra. }
  pose proof (big_poly a b p (M + E) Hp HP) as V. set (h := Rabs (b - a) / 2) in *.
  assert (Ph : 0 <= h) by (unfold h, Rdiv; apply Rmult_le_pos; [apply Rabs_pos|lra]).
  assert (A : Rabs (legendre_value r a b f - legendre_value r a b p) <= h * (E * (2 + 48 / 10 ^ 14))).
  { unfold legendre_value. rewrite !legendre_R, !gauss_pulled, <- Rmult_minus_distr_l, Rabs_mult, half_abs. fold h.
    apply Rmult_le_compat_l; [exact Ph|]. rewrite apply_minus. eapply Rle_trans; [apply (apply_bound _ _ E PE)|apply Rmult_le_compat_l; [exact PE|apply weights_unit]].
    destruct (legendre_shape t (Z.of_nat n) r Hu ltac:(lia) H2n Hr) as [_ F]. eapply List.Forall_impl; [|exact F]. intros [x w] [H1 H2]. cbn [fst snd] in *.
    split; [|exact H2]. unfold pulled. apply HE, pull_between. lra. }
  assert (B : Rabs (RInt f a b - RInt p a b) <= h * (2 * E)).
  { replace (h * (2 * E)) with (Rabs (b - a) * E) by (unfold h; field).
    assert (X : ex_RInt p a b) by (apply (poly_int _ p a b Hp)).
    replace (RInt f a b - RInt p a b) with (RInt (fun x => f x - p x) a b).
    2:{ apply (is_RInt_unique (V := R_CompleteNormedModule)). apply (is_RInt_minus (V := R_NormedModule)); apply (RInt_correct (V := R_CompleteNormedModule)); assumption. }
    assert (EX : ex_RInt (fun x => f x - p x) a b) by (apply (ex_RInt_minus (V := R_NormedModule)); assumption).
    destruct (Rle_dec a b) as [O|O].
    - rewrite (Rabs_pos_eq (b - a)) by lra. apply abs_RInt_le_const; [exact O|exact EX|].
      intros x Hx. apply HE. unfold between. rewrite Rmin_left, Rmax_right by lra. exact Hx.
    - rewrite <- (opp_RInt_swap (V := R_CompleteNormedModule)) by (apply ex_RInt_swap; exact EX). change (opp ?x) with (- x). rewrite Rabs_Ropp.
      rewrite (Rabs_left (b - a)) by lra. replace (- (b - a)) with (a - b) by ring. apply abs_RInt_le_const; [lra|apply ex_RInt_swap; exact EX|].
      intros x Hx. apply HE. unfold between. rewrite Rmin_right, Rmax_left by lra. exact Hx. }
  replace (legendre_value r a b f - RInt f a b) with ((legendre_value r a b f - legendre_value r a b p) + (legendre_value r a b p - RInt p a b) - (RInt f a b - RInt p a b)) by ring.
  unfold Rminus at 1. eapply Rle_trans; [apply Rabs_triang|]. rewrite Rabs_Ropp. eapply Rle_trans; [apply Rplus_le_compat_r, Rabs_triang|].
  assert (HE2 : 0 <= h * E) by (apply Rmult_le_pos; assumption). lra.
Qed.
(** the same value as the exact rule, for any integrand *)
Theorem big_same : forall l, gauss_rule n l -> forall a b f M omega, (forall x, closed_between a b x -> Rabs (f x) <= M) ->
  oscillation a b f (Rabs (b - a) / INR n / 10 ^ 13) omega ->
  Rabs (legendre_value r a b f - (b - a) / 2 * apply_rule l (fun x => f ((b - a) / 2 * x + (a + b) / 2))) <= (omega + 24 / 10 ^ 14 * M) * Rabs (b - a).
Proof.
  intros l G a b f M om HM HO. unfold legendre_value. rewrite legendre_R, gauss_pulled. unfold pulled. rewrite <- Rmult_minus_distr_l, Rabs_mult, half_abs.
  assert (N : 101 <= INR n) by (rewrite INR_IZR_INZ; apply IZR_le; lia).
  replace ((om + 24 / 10 ^ 14 * M) * Rabs (b - a)) with (Rabs (b - a) / 2 * ((om + 24 / 10 ^ 14 * M) * 2)) by field. apply Rmult_le_compat_l; [unfold Rdiv; apply Rmult_le_pos; [apply Rabs_pos|lra]|].
  pose proof (rule_mass l G) as E2. apply Rle_trans with ((om + eps_weight * M) * apply_rule l (fun _ => 1)); [|rewrite E2; unfold eps_weight; lra].
  apply (rules_differ (fun x => f ((b - a) / 2 * x + (a + b) / 2))). eapply forall2_impl; [|apply (pairs_full l G)]. intros p q (_ & A1 & A & B & C & D).
  split; [|split; [apply HM, pull_between, C|split; assumption]].
  apply HO; [apply pull_between, C|apply pull_between, D|].
  replace ((b - a) / 2 * fst p + (a + b) / 2 - ((b - a) / 2 * fst q + (a + b) / 2)) with ((b - a) / 2 * (fst p - fst q)) by ring. rewrite Rabs_mult, half_abs.
  unfold Rdiv at 1 2 3. rewrite !Rmult_assoc. apply Rmult_le_compat_l; [apply Rabs_pos|].
  assert (EN : eps_node n <= 71 / 10 ^ 15 * / INR n). { unfold eps_node. unfold Rdiv at 1. apply Rmult_le_compat_l; [lra|]. apply Rinv_le_contravar; lra. }
  assert (0 < / INR n) by (apply Rinv_0_lt_compat; lra). lra.
Qed.
End N.
