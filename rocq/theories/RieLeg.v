(** Gauss-Legendre rules of every degree converge for every Riemann integrable function. *)
From Coq Require Import Reals ZArith List Lra Lia FunctionalExtensionality.
From Coquelicot Require Import Coquelicot.
From Verif Require Import Arith RInst Machine Rules Legendre RSum PolySpec PolyProof MassSpec RuleSpec ErrorSpec GaussProof Interp GaussErr TransferSpec TransferProof
  Improper LegInt LegConv ErrRules ErrConv GaussRuleSpec BogGauss BogRule BogUse GaussSide LegZeroRule LegZeroUse LegSide MonoSpec StepPoly MonoRule MonoLeg LegWeight RieStep.
Import ListNotations.
Local Open Scope R_scope.

(** the nodes of one rule with the weights of another *)
Fixpoint mixed (lp l : list (R * R)) : list (R * R) :=
  match lp, l with p :: lp', q :: l' => (fst p, snd q) :: mixed lp' l' | _, _ => [] end.
Lemma mixed_close : forall d lp l, Forall2 (fun p q : R * R => (unit_closed (fst p) /\ unit_closed (fst q) /\ 0 <= snd q) /\ Rabs (fst p - fst q) <= d) lp l ->
  Forall2 (fun p q : R * R => (unit_closed (fst p) /\ unit_closed (fst q) /\ 0 <= snd q) /\ Rabs (fst p - fst q) <= d /\ Rabs (snd p - snd q) <= 0 * snd q) (mixed lp l) l.
Proof.
  intros d lp l F. induction F as [|p q lp l (D & A) _ IH]; [constructor|]. cbn [mixed]. constructor; [|exact IH]. cbn [fst snd].
  split; [exact D|]. split; [exact A|]. rewrite Rminus_eq_0, Rabs_R0. lra.
Qed.
Lemma mixed_inside : forall d lp l, Forall2 (fun p q : R * R => (unit_closed (fst p) /\ unit_closed (fst q) /\ 0 <= snd q) /\ Rabs (fst p - fst q) <= d) lp l ->
  List.Forall (fun p : R * R => unit_closed (fst p) /\ 0 <= snd p) (mixed lp l).
Proof. intros d lp l F. induction F as [|p q lp l ((D1 & D2 & D3) & A) _ IH]; [constructor|]. cbn [mixed]. constructor; [split; assumption|exact IH]. Qed.
Lemma mixed_value : forall e M g lp l, 0 <= e -> (forall x, unit_closed x -> Rabs (g x) <= M) ->
  Forall2 (fun p q : R * R => (unit_closed (fst p) /\ 0 <= snd q) /\ Rabs (snd p - snd q) <= e * snd q) lp l ->
  Rabs (apply_rule lp g - apply_rule (mixed lp l) g) <= e * M * apply_rule l (fun _ => 1).
Proof.
  intros e M g lp l He HM F. unfold apply_rule. induction F as [|[x w] [y u] lp l ((D & U) & A) _ IH]; cbn [mixed map lsum fst snd] in *; [rewrite Rminus_0_r, Rabs_R0; lra|].
  assert (P : Rabs (g x * w - g x * u) <= e * u * M).
  { replace (g x * w - g x * u) with ((w - u) * g x) by ring. rewrite Rabs_mult. apply Rmult_le_compat; [apply Rabs_pos|apply Rabs_pos|exact A|apply HM, D]. }
  match goal with |- Rabs (?a + ?b - (?c + ?d)) <= _ => replace (a + b - (c + d)) with ((a - c) + (b - d)) by ring end.
  eapply Rle_trans; [apply Rabs_triang|]. lra.
Qed.

Section N.
Variables (t : Target) (n : nat) (r : GaussLegendre RA).
Hypothesis Hu : (100 <= usize_max t)%Z.
Hypothesis H2n : (2 * Z.of_nat n <= usize_max t)%Z.
Hypothesis Hr : legendre_new t (Z.of_nat n) = Ok r.
Hypothesis Hn : (1 <= n)%nat.
Lemma legendre_catches : exists lm, catches n lm /\ forall g M, (forall x, unit_closed x -> Rabs (g x) <= M) -> Rabs (apply_rule (legendre_pairs r) g - apply_rule lm g) <= 48 / 10 ^ 14 * M.
Proof.
  destruct (gauss_rule_exists n Hn) as (l & G & _).
  assert (In1 := inside_all t n r Hu H2n Hr Hn). assert (In2 := exact_nodes_inside t n Hu H2n Hn l G). assert (Hk := legendre_weight_le t n r Hu H2n Hr Hn).
  assert (C := every_close t n r Hu H2n Hr Hn l G). destruct (rule_roots n l Hn G) as [RR _]. assert (P := rule_pos n l Hn RR).
  set (d := 71 / 10 ^ 15 / (INR n + / 2)) in *. assert (N1 : 1 <= INR n) by (apply (le_INR 1); exact Hn).
  assert (Hd : 0 <= d <= 2 /\ d <= / INR n).
  { assert (D1 : 0 < / (INR n + / 2) <= / INR n) by (split; [apply Rinv_0_lt_compat; lra|apply Rinv_le_contravar; lra]).
    assert (D2 : / INR n <= 1) by (rewrite <- Rinv_1; apply Rinv_le_contravar; lra). unfold d, Rdiv. lra. }
  destruct Hd as [Hd Hd']. set (k := 4 / INR n) in *.
  assert (Kl : (List.Forall (fun p : R * R => unit_closed (fst p) /\ 0 <= snd p <= k * (1 + / 10 ^ 12)) l /\
    Forall2 (fun p q : R * R => (unit_closed (fst p) /\ unit_closed (fst q) /\ 0 <= snd q) /\ Rabs (fst p - fst q) <= d) (legendre_pairs r) l) /\
    Forall2 (fun p q : R * R => (unit_closed (fst p) /\ 0 <= snd q) /\ Rabs (snd p - snd q) <= 24 / 10 ^ 14 * snd q) (legendre_pairs r) l).
  { clear G RR. induction C as [|p q lp l (A1 & A2 & A3) _ IH]; [repeat split; constructor|].
    apply Forall_inv in P as P1. apply Forall_inv_tail in P. apply Forall_inv in In1 as I1. apply Forall_inv_tail in In1. apply Forall_inv in In2 as I2. apply Forall_inv_tail in In2.
    apply Forall_inv in Hk as K1. apply Forall_inv_tail in Hk. cbv beta in P1, I1, I2, K1. destruct (IH In1 In2 Hk P) as [[J1 J2] J3].
    assert (Z := Rle_abs (- (snd p - snd q))). rewrite Rabs_Ropp in Z.
    repeat split; constructor; try assumption; unfold unit_closed; repeat split; lra. }
  destruct Kl as [[Kl Cl] Cw]. exists (mixed (legendre_pairs r) l). split; [split; [exact (mixed_inside d _ _ Cl)|]|].
  - intros g bot top v Hg Hv. set (M := Rabs bot + Rabs top).
    assert (B1 : - M <= bot) by (unfold M; split_Rabs; lra). assert (B2 : top <= M) by (unfold M; split_Rabs; lra).
    assert (X := near_mono n (mixed (legendre_pairs r) l) l (k * (1 + / 10 ^ 12)) d 0 Hn G Hd ltac:(lra) Kl (mixed_close d _ _ Cl) g bot top M v Hg B1 B2 Hv).
    assert (T : 0 <= top - bot) by (assert (B := proj2 Hg 0 ltac:(unfold unit_closed; lra)); lra).
    eapply Rle_trans; [exact X|]. replace (2 * 0 * M) with 0 by ring. rewrite Rplus_0_r. apply Rmult_le_compat_r; [exact T|]. unfold k, Rdiv in *. lra.
  - intros g M HM. eapply Rle_trans; [apply (mixed_value (24 / 10 ^ 14) M g _ l ltac:(lra) HM Cw)|]. rewrite (rule_mass n l G). lra.
Qed.
End N.

Lemma legendre_riemann : forall a b f, a <> b -> ex_RInt f a b -> forall eps, 0 < eps ->
  exists N, forall (t : Target) (n : nat) (r : GaussLegendre RA) M, (100 <= usize_max t)%Z -> (2 * Z.of_nat n <= usize_max t)%Z -> legendre_new t (Z.of_nat n) = Ok r ->
  (N <= n)%nat -> (forall x, closed_between a b x -> Rabs (f x) <= M) ->
  Rabs (legendre_value r a b f - RInt f a b) <= eps + 24 / 10 ^ 14 * M * Rabs (b - a).
Proof.
  intros a b f E Hi eps He. set (h := (b - a) / 2). assert (Hh : h <> 0) by (unfold h; lra). assert (Ph : 0 < Rabs h) by (apply Rabs_pos_lt; exact Hh).
  assert (HP : int (pulled a b f) (-1) 1 (RInt f a b / h)).
  { assert (X : int f a b (RInt f a b)) by (apply (RInt_correct (V := R_CompleteNormedModule)); exact Hi).
    replace a with (h * (-1) + (a + b) / 2) in X at 1 by (unfold h; field). replace b with (h * 1 + (a + b) / 2) in X at 2 by (unfold h; field).
    apply (is_RInt_comp_lin (V := R_NormedModule) f h ((a + b) / 2) (-1) 1) in X.
    apply (is_RInt_scal (V := R_NormedModule) _ _ _ (/ h)) in X.
    replace (RInt f a b / h) with (scal (/ h) (RInt f a b)) by (change (/ h * RInt f a b = RInt f a b / h); unfold Rdiv; ring).
    refine (is_RInt_ext (V := R_NormedModule) _ _ _ _ _ _ X). intros x _. change (/ h * (h * f (h * x + (a + b) / 2)) = pulled a b f x).
    unfold pulled. fold h. field. exact Hh. }
  destruct (riemann_conv _ _ HP) as [_ C]. destruct (C (eps / Rabs h) ltac:(apply Rdiv_lt_0_compat; assumption)) as (N & HN).
  exists (S N). intros t n r M Hu H2n Hr L HM.
  destruct (legendre_catches t n r Hu H2n Hr ltac:(lia)) as (lm & K & D). specialize (HN n lm ltac:(lia) ltac:(lia) K).
  specialize (D (pulled a b f) M). assert (D' : Rabs (apply_rule (legendre_pairs r) (pulled a b f) - apply_rule lm (pulled a b f)) <= 48 / 10 ^ 14 * M).
  { apply D. intros x Hx. apply HM. apply pull_between. exact Hx. }
  unfold legendre_value. rewrite legendre_R, gauss_pulled. fold h. set (v := RInt f a b) in *.
  replace v with (h * (v / h)) by (field; exact Hh). rewrite <- Rmult_minus_distr_l, Rabs_mult.
  replace (Rabs (b - a)) with (2 * Rabs h) by (unfold h, Rdiv; rewrite Rabs_mult, (Rabs_pos_eq (/ 2)) by lra; field).
  match goal with |- Rabs h * Rabs (?q - ?u) <= _ => replace (q - u) with ((q - apply_rule lm (pulled a b f)) + (apply_rule lm (pulled a b f) - u)) by ring end.
  apply Rle_trans with (Rabs h * (48 / 10 ^ 14 * M + eps / Rabs h)).
  - apply Rmult_le_compat_l; [lra|]. eapply Rle_trans; [apply Rabs_triang|]. lra.
  - apply Req_le. field. lra.
Qed.
