(** Gauss-Legendre rules against the exact Gauss rule: at most 100 points in exact and in double
    arithmetic, and every number of points. *)
From Coq Require Import Reals ZArith List Lra Lia.
From Coquelicot Require Import Coquelicot.
From Flocq Require Import Core.
From Verif Require Import Arith RInst F64 F64Spec Machine Rules Par LegendreData Legendre IntegrateSpec GaussSpec RSum PolySpec PolyProof MassSpec RoundSpec RuleSpec ErrorSpec GaussProof GaussErr TransferSpec TransferProof SizeProof
  LegAsym LegSym LegShape LegInt LegConv Gaussian ErrRules ErrLeg ErrConv ErrCheb TrigSpec LegFloat GaussFloat GaussFloatRules LegBigRule GaussRuleSpec BogGauss BogRule BogUse BogFloat LegZeroRule.
Import ListNotations.
Local Open Scope R_scope.

(** a rule whose nodes and weights are close to those of the Gauss rule gives nearly the same value *)
Lemma same_value : forall n (r : GaussLegendre RA) l d e, (1 <= n)%nat -> gauss_rule n l -> 0 <= e ->
  List.Forall (fun p : R * R => -1 <= fst p <= 1) (legendre_pairs r) -> List.Forall (fun p : R * R => -1 <= fst p <= 1) l ->
  Forall2 (fun p q : R * R => Rabs (fst p - fst q) <= d /\ Rabs (snd p - snd q) <= e * snd q) (legendre_pairs r) l ->
  forall a b f M omega, (forall x, closed_between a b x -> Rabs (f x) <= M) -> oscillation a b f (d * (Rabs (b - a) / 2)) omega ->
  Rabs (legendre_value r a b f - (b - a) / 2 * apply_rule l (fun x => f ((b - a) / 2 * x + (a + b) / 2))) <= (omega + e * M) * Rabs (b - a).
Proof.
  intros n r l d e Hn G He F1 I F2 a b f M om HM HO. unfold legendre_value. rewrite legendre_R, gauss_pulled. unfold pulled. rewrite <- Rmult_minus_distr_l, Rabs_mult, half_abs.
  replace ((om + e * M) * Rabs (b - a)) with (Rabs (b - a) / 2 * ((om + e * M) * 2)) by field. apply Rmult_le_compat_l; [unfold Rdiv; apply Rmult_le_pos; [apply Rabs_pos|lra]|].
  pose proof (rule_mass n l G) as E2. replace ((om + e * M) * 2) with ((om + e * M) * apply_rule l (fun _ => 1)) by (rewrite E2; reflexivity).
  destruct (rule_roots n l Hn G) as [RR _]. pose proof (rule_pos n l Hn RR) as P.
  apply (rules_differ (fun x => f ((b - a) / 2 * x + (a + b) / 2))). clear G E2 RR.
  induction F2 as [|p q lp l (A1 & A2) _ IH]; [constructor|]. apply Forall_inv in P as P1. apply Forall_inv_tail in P. apply Forall_inv in F1 as B1. apply Forall_inv_tail in F1. apply Forall_inv in I as C1. apply Forall_inv_tail in I.
  constructor; [|apply IH; assumption]. split; [|split; [apply HM, pull_between, B1|split; [exact A2|lra]]].
  apply HO; [apply pull_between, B1|apply pull_between; lra|].
  replace ((b - a) / 2 * fst p + (a + b) / 2 - ((b - a) / 2 * fst q + (a + b) / 2)) with ((fst p - fst q) * ((b - a) / 2)) by ring. rewrite Rabs_mult, half_abs.
  apply Rmult_le_compat_r; [unfold Rdiv; apply Rmult_le_pos; [apply Rabs_pos|lra]|exact A1].
Qed.
Section N.
Variables (t : Target) (n : nat) (r : GaussLegendre RA).
Hypothesis Hu : (100 <= usize_max t)%Z.
Hypothesis H2n : (2 * Z.of_nat n <= usize_max t)%Z.
Hypothesis Hr : legendre_new t (Z.of_nat n) = Ok r.
Lemma inside_all : (1 <= n)%nat -> List.Forall (fun p : R * R => -1 <= fst p <= 1) (legendre_pairs r).
Proof.
  intros Hn. destruct (legendre_shape t (Z.of_nat n) r Hu ltac:(lia) H2n Hr) as [_ F]. eapply List.Forall_impl; [|exact F]. intros p Hp. cbv beta in Hp. lra.
Qed.
Lemma table_same : (1 <= n <= 100)%nat -> forall l, gauss_rule n l -> forall a b f M omega, (forall x, closed_between a b x -> Rabs (f x) <= M) ->
  oscillation a b f (21 / 10 ^ 17 * (Rabs (b - a) / 2)) omega ->
  Rabs (legendre_value r a b f - (b - a) / 2 * apply_rule l (fun x => f ((b - a) / 2 * x + (a + b) / 2))) <= (omega + 21 / 10 ^ 17 * M) * Rabs (b - a).
Proof.
  intros Hn l G. apply (same_value n); [lia|exact G|lra|apply inside_all; lia| |].
  { destruct (table_angles t n Hu Hn H2n l G) as (us & _ & ->). apply List.Forall_forall. intros q Hq. apply in_rev in Hq. apply in_map_iff in Hq. destruct Hq as (v & <- & _). apply COS_bound. }
  eapply forall2_impl; [|exact (table_close t n Hu Hn H2n r Hr l G)]. intros p q (_ & A1 & A2). split; assumption.
Qed.
Lemma every_close : (1 <= n)%nat -> forall l, gauss_rule n l -> Forall2 (fun p q => Rabs (acos (fst p) - acos (fst q)) <= 71 / 10 ^ 15 / (INR n + / 2) /\
  Rabs (fst p - fst q) <= 71 / 10 ^ 15 / (INR n + / 2) /\ Rabs (snd p - snd q) <= 24 / 10 ^ 14 * snd q) (legendre_pairs r) l.
Proof.
  intros Hn l G. destruct (le_lt_dec n 100) as [L|L]; [|exact (pairs_close t n Hu L H2n r Hr l G)].
  pose proof (table_close t n Hu ltac:(lia) H2n r Hr l G) as C. destruct (rule_roots n l Hn G) as [RR _]. pose proof (rule_pos n l Hn RR) as P.
  assert (E : eps_tab <= 71 / 10 ^ 15 / (INR n + / 2)).
  { assert (N : INR n <= 100) by (rewrite INR_IZR_INZ; apply IZR_le; lia). pose proof (pos_INR n). unfold eps_tab. apply (Rmult_le_reg_r (INR n + / 2)); [lra|]. replace (71 / 10 ^ 15 / (INR n + / 2) * (INR n + / 2)) with (71 / 10 ^ 15) by (field; lra). lra. }
  clear G RR. induction C as [|p q lp l (A1 & A2 & A3) _ IH]; [constructor|]. apply Forall_inv in P as P1. apply Forall_inv_tail in P. constructor; [|apply IH; exact P].
  split; [lra|]. split; [lra|]. eapply Rle_trans; [exact A3|]. apply Rmult_le_compat_r; [lra|unfold eps_tab; lra].
Qed.
End N.

Section F.
Variable be : Backend.
Notation A := (F64 be).
Variable kappa : R.
Hypothesis HT : accurate_trig be kappa.
Lemma table_gauss_close : forall t (n : nat) (r : GaussLegendre A), (100 <= usize_max t)%Z -> (1 <= n <= 100)%nat -> (2 * Z.of_nat n <= usize_max t)%Z ->
  legendre_new t (Z.of_nat n) = Ok r -> forall l, gauss_rule n l ->
  Forall2 (fun p q => (ffin (fst p) /\ Rabs (fval (fst p) - fst q) <= kappa + 11 / 10 ^ 16) /\
    (ffin (snd p) /\ Rabs (fval (snd p) - snd q) <= 2 / 10 ^ 15 / INR n + 21 / 10 ^ 17 * snd q)) (legendre_pairs r) l.
Proof.
  intros t n r Hu Hn H2 Hr l G. destruct (legendre_new_ok (A := RA) t (Z.of_nat n) Hu ltac:(lia) H2) as (q & Hq & _).
  pose proof (tabulated_rule_close be kappa HT t (Z.of_nat n) r q Hu ltac:(lia) H2 Hr Hq) as C. rewrite <- INR_IZR_INZ in C.
  assert (D' : Forall2 (fun p q : R * R => Rabs (fst p - fst q) <= 21 / 10 ^ 17 /\ Rabs (snd p - snd q) <= 21 / 10 ^ 17 * snd q) (legendre_pairs q) l).
  { eapply forall2_impl; [|exact (table_close t n Hu Hn H2 q Hq l G)]. intros x y (_ & A1 & A2). split; assumption. }
  pose proof (chain be _ _ _ _ _ _ _ C D') as E. eapply forall2_impl; [|exact E]. intros x y ((A1 & A2) & A3). split; [split; [exact A1|]|exact A3].
  eapply Rle_trans; [exact A2|]. lra.
Qed.
End F.
