(** Rules with a 1/n error on monotone functions converge for every Riemann integrable function. *)
From Coq Require Import Reals RList ZArith List Lra Lia FunctionalExtensionality.
From Coquelicot Require Import Coquelicot.
From Verif Require Import RSum PolySpec PolyProof GaussProof GaussErr MonoSpec LegSide.
Import ListNotations.
Local Open Scope R_scope.
Notation int f a b v := (is_RInt (V := R_NormedModule) f a b v).

Definition catches (n : nat) (l : list (R * R)) : Prop :=
  List.Forall (fun p : R * R => unit_closed (fst p) /\ 0 <= snd p) l /\
  forall g bot top (v : R), rises_between unit_closed g bot top -> int g (-1) 1 v -> Rabs (apply_rule l g - v) <= 6 / INR n * (top - bot).
Definition conv (f : R -> R) (v : R) : Prop :=
  int f (-1) 1 v /\ forall eps, 0 < eps -> exists N, forall n l, (1 <= n)%nat -> (N <= n)%nat -> catches n l -> Rabs (apply_rule l f - v) <= eps.

Lemma rule_ext : forall (D : R -> Prop) l f g, List.Forall (fun p : R * R => D (fst p) /\ 0 <= snd p) l -> (forall x, D x -> f x = g x) -> apply_rule l f = apply_rule l g.
Proof.
  intros D l f g H E. unfold apply_rule. induction H as [|p l (Hp & _) _ IH]; [reflexivity|]. cbn [map lsum]. rewrite IH, (E _ Hp). reflexivity.
Qed.
Lemma rule_lin : forall l f g k, apply_rule l (fun x => f x + k * g x) = apply_rule l f + k * apply_rule l g.
Proof. intros l f g k. unfold apply_rule. induction l as [|p l IH]; cbn [map lsum]; [ring|]. rewrite IH. ring. Qed.
Lemma rule_le : forall (D : R -> Prop) l f g, List.Forall (fun p : R * R => D (fst p) /\ 0 <= snd p) l -> (forall x, D x -> f x <= g x) -> apply_rule l f <= apply_rule l g.
Proof.
  intros D l f g H E. unfold apply_rule. induction H as [|p l (Hp & W) _ IH]; cbn [map lsum]; [lra|].
  assert (f (fst p) * snd p <= g (fst p) * snd p) by (apply Rmult_le_compat_r; [exact W|apply E, Hp]). lra.
Qed.

Lemma up_nat : forall x, x < INR (Z.to_nat (up x)).
Proof.
  intros x. destruct (archimed x) as [H _]. rewrite INR_IZR_INZ. destruct (Z.le_gt_cases 0 (up x)) as [L|L]; [rewrite Z2Nat.id by exact L; exact H|].
  replace (Z.to_nat (up x)) with 0%nat by lia. cbn. assert (IZR (up x) < 0) by (apply IZR_lt; exact L). lra.
Qed.
Lemma conv_rises : forall g bot top v, rises_between unit_closed g bot top -> int g (-1) 1 v -> conv g v.
Proof.
  intros g bot top v Hg Hv. split; [exact Hv|]. intros eps He. assert (HN0 : 6 * (top - bot) / eps < INR (Z.to_nat (up (6 * (top - bot) / eps)))) by apply up_nat. set (N := Z.to_nat (up (6 * (top - bot) / eps))) in *. assert (HN : 6 * (top - bot) < INR N * eps) by (apply (Rmult_lt_compat_r eps) in HN0; [|exact He]; unfold Rdiv in HN0; rewrite Rmult_assoc, Rinv_l, Rmult_1_r in HN0 by lra; exact HN0).
  exists N. intros n l Hn L [_ C]. eapply Rle_trans; [apply (C g bot top v Hg Hv)|].
  assert (N1 : 1 <= INR n) by (apply (le_INR 1); exact Hn). assert (N2 : INR N <= INR n) by (apply le_INR; exact L).
  apply (Rmult_le_reg_l (INR n)); [lra|]. replace (INR n * (6 / INR n * (top - bot))) with (6 * (top - bot)) by (field; lra).
  assert (INR N * eps <= INR n * eps) by (apply Rmult_le_compat_r; lra). lra.
Qed.
Lemma conv_ext : forall f g v, (forall x, unit_closed x -> f x = g x) -> conv f v -> conv g v.
Proof.
  intros f g v E [I C]. split.
  - refine (is_RInt_ext (V := R_NormedModule) _ _ _ _ _ _ I). intros x Hx. rewrite Rmin_left, Rmax_right in Hx by lra. apply E. unfold unit_closed. lra.
  - intros eps He. destruct (C eps He) as (N & HN). exists N. intros n l Hn L K. rewrite <- (rule_ext unit_closed l f g (proj1 K) E). apply (HN n l Hn L K).
Qed.
Lemma conv_lin : forall f g k v u, conv f v -> conv g u -> conv (fun x => f x + k * g x) (v + k * u).
Proof.
  intros f g k v u [I1 C1] [I2 C2]. split.
  - apply (is_RInt_plus (V := R_NormedModule) f (fun x => k * g x)); [exact I1|]. exact (is_RInt_scal (V := R_NormedModule) g _ _ k u I2).
  - intros eps He. destruct (C1 (eps / 2) ltac:(lra)) as (N1 & H1). assert (P : 0 < Rabs k + 1) by (pose proof (Rabs_pos k); lra).
    destruct (C2 (eps / 2 / (Rabs k + 1)) ltac:(apply Rdiv_lt_0_compat; lra)) as (N2 & H2).
    exists (Nat.max N1 N2). intros n l Hn L K. specialize (H1 n l Hn ltac:(lia) K). specialize (H2 n l Hn ltac:(lia) K). rewrite rule_lin.
    replace (apply_rule l f + k * apply_rule l g - (v + k * u)) with ((apply_rule l f - v) + k * (apply_rule l g - u)) by ring.
    eapply Rle_trans; [apply Rabs_triang|]. rewrite Rabs_mult.
    assert (Rabs k * Rabs (apply_rule l g - u) <= (Rabs k + 1) * (eps / 2 / (Rabs k + 1))).
    { apply Rmult_le_compat; [apply Rabs_pos|apply Rabs_pos|lra|exact H2]. }
    replace ((Rabs k + 1) * (eps / 2 / (Rabs k + 1))) with (eps / 2) in * by (field; lra). lra.
Qed.
Lemma int_const : forall c a b, int (fun _ => c) a b (c * (b - a)).
Proof. intros c a b. replace (c * (b - a)) with (scal (b - a) c) by (unfold scal; simpl; unfold mult; simpl; ring). apply (is_RInt_const (V := R_NormedModule)). Qed.
Lemma conv_const : forall k, conv (fun _ => k) (k * 2).
Proof.
  intros k. apply (conv_rises _ k k); [split; intros; lra|]. replace 2 with (1 - -1) by ring. apply int_const.
Qed.
Lemma two_pieces : forall (f : R -> R) c u v, -1 <= c <= 1 -> (forall x, x < c -> f x = u) -> (forall x, c < x -> f x = v) -> exists w : R, int f (-1) 1 w.
Proof.
  intros f c u v Hc H1 H2. eexists. apply (is_RInt_Chasles (V := R_NormedModule) f (-1) c 1).
  - apply (is_RInt_ext (V := R_NormedModule) (fun _ => u)); [|apply int_const]. intros x Hx. rewrite Rmin_left, Rmax_right in Hx by lra. symmetry. apply H1. lra.
  - apply (is_RInt_ext (V := R_NormedModule) (fun _ => v)); [|apply int_const]. intros x Hx. rewrite Rmin_left, Rmax_right in Hx by lra. symmetry. apply H2. lra.
Qed.
Lemma conv_below : forall c, -1 <= c <= 1 -> exists v, conv (fun x => if Rlt_dec x c then 1 else 0) v.
Proof.
  intros c Hc. destruct (two_pieces (fun x => if Rlt_dec x c then 0 else 1) c 0 1 Hc) as (w & Hw); [intros x Hx; destruct (Rlt_dec x c); lra..|].
  exists (1 * 2 + (-1) * w). apply (conv_ext (fun x => 1 + (-1) * (if Rlt_dec x c then 0 else 1))); [intros x _; destruct (Rlt_dec x c); ring|].
  apply (conv_lin (fun _ => 1) (fun x => if Rlt_dec x c then 0 else 1)); [apply conv_const|]. apply (conv_rises _ 0 1); [|exact Hw].
  split; [intros x y _ _ L|intros x _]; repeat destruct (Rlt_dec _ c); lra.
Qed.
Lemma conv_upto : forall c, -1 <= c <= 1 -> exists v, conv (fun x => if Rle_dec x c then 1 else 0) v.
Proof.
  intros c Hc. destruct (two_pieces (fun x => if Rle_dec x c then 0 else 1) c 0 1 Hc) as (w & Hw); [intros x Hx; destruct (Rle_dec x c); lra..|].
  exists (1 * 2 + (-1) * w). apply (conv_ext (fun x => 1 + (-1) * (if Rle_dec x c then 0 else 1))); [intros x _; destruct (Rle_dec x c); ring|].
  apply (conv_lin (fun _ => 1) (fun x => if Rle_dec x c then 0 else 1)); [apply conv_const|]. apply (conv_rises _ 0 1); [|exact Hw].
  split; [intros x y _ _ L|intros x _]; repeat destruct (Rle_dec _ c); lra.
Qed.

(** step functions *)
Lemma step_pieces : forall l lf f a, -1 <= a <= 1 -> adapted_couple f a 1 l lf -> int f a 1 (Int_SF lf l) /\ exists v, conv (fun x => f (Rmax x a)) v.
Proof.
  induction l as [|r1 l IH]; intros lf f a Ha H.
  - destruct H as (_ & _ & _ & L & _). discriminate L.
  - destruct l as [|r2 l].
    + destruct H as (_ & P0 & P1 & L & _). destruct lf as [|r3 lf]; [|discriminate L]. cbn in P0, P1. rewrite Rmin_left in P0 by lra. rewrite Rmax_right in P1 by lra.
      assert (E : a = 1) by lra. rewrite E. split; [exact (is_RInt_point (V := R_NormedModule) f 1)|].
      exists (f 1 * 2). apply (conv_ext (fun _ => f 1)); [|apply conv_const]. intros x Hx. rewrite Rmax_right by (unfold unit_closed in Hx; lra). reflexivity.
    + destruct lf as [|r3 lf]; [destruct H as (_ & _ & _ & L & _); discriminate L|].
      assert (H' := StepFun_P7 (proj2 Ha) H). destruct H as (O & P0 & P1 & L & C). cbn [pos_Rl length] in P0. rewrite Rmin_left in P0 by lra. subst r1.
      assert (O1 : a <= r2) by (apply (O 0%nat); cbn; lia).
      assert (O2 : r2 <= 1).
      { destruct H' as (O' & P0' & P1' & L' & _). cbn [pos_Rl] in P0'. pose proof (Rmin_r r2 1). lra. }
      specialize (C 0%nat ltac:(cbn; lia)). cbn [pos_Rl] in C. unfold constant_D_eq, open_interval in C.
      destruct (IH lf f r2 ltac:(lra) H') as (I & v & V).
      assert (I0 : int f a r2 (r3 * (r2 - a))).
      { apply (is_RInt_ext (V := R_NormedModule) (fun _ => r3)); [|apply int_const]. intros x Hx. rewrite Rmin_left, Rmax_right in Hx by lra. symmetry. apply C. exact Hx. }
      split; [exact (is_RInt_Chasles (V := R_NormedModule) f a r2 1 _ _ I0 I)|].
      destruct (Req_dec a r2) as [E|E]; [rewrite E; exists v; exact V|].
      destruct (conv_below r2 ltac:(lra)) as (u1 & U1). destruct (conv_upto a ltac:(lra)) as (u2 & U2). eexists.
      refine (conv_ext _ _ _ _ (conv_lin _ _ (f a - r3) _ _ (conv_lin _ _ (r3 - f r2) _ _ V U1) U2)).
      intros x Hx. cbv beta. unfold Rmax. destruct (Rle_dec x r2), (Rle_dec x a), (Rlt_dec x r2); try lra.
      * rewrite (C x) by lra. ring.
      * assert (X : x = r2) by lra. rewrite X. ring.
Qed.
Lemma step_conv : forall f : StepFun (-1) 1, conv f (RiemannInt_SF f).
Proof.
  intros f. destruct (step_pieces _ _ f (-1) ltac:(lra) (StepFun_P1 f)) as (I & v & V).
  assert (V' : conv f v) by (refine (conv_ext _ _ _ _ V); intros x Hx; cbv beta; rewrite Rmax_left by (unfold unit_closed in Hx; lra); reflexivity).
  assert (E : RiemannInt_SF f = Int_SF (subdivision_val f) (subdivision f)) by (unfold RiemannInt_SF; destruct (Rle_dec (-1) 1); [reflexivity|lra]).
  rewrite E. assert (E1 := is_RInt_unique (V := R_CompleteNormedModule) _ _ _ _ I). assert (E2 := is_RInt_unique (V := R_CompleteNormedModule) _ _ _ _ (proj1 V')).
  rewrite E1 in E2. rewrite E2. exact V'.
Qed.

(** Riemann integrable functions *)
Lemma riemann_conv : forall f v, int f (-1) 1 v -> conv f v.
Proof.
  intros f v Hv. split; [exact Hv|]. intros eps He.
  assert (RI : Riemann_integrable f (-1) 1) by (apply ex_RInt_Reals_0; exists v; exact Hv).
  destruct (RI (mkposreal (eps / 5) ltac:(lra))) as (phi & psi & D & S). cbn [pos] in S.
  rewrite Rmin_left, Rmax_right in D by lra. destruct (step_conv phi) as [I1 C1]. destruct (step_conv psi) as [I2 C2].
  destruct (C1 (eps / 5) ltac:(lra)) as (N1 & H1). destruct (C2 (eps / 5) ltac:(lra)) as (N2 & H2).
  exists (Nat.max N1 N2). intros n l Hn L K. specialize (H1 n l Hn ltac:(lia) K). specialize (H2 n l Hn ltac:(lia) K).
  assert (S1 := Rle_abs (RiemannInt_SF psi)).
  assert (A1 : apply_rule l (fun x => phi x + (-1) * psi x) <= apply_rule l f <= apply_rule l (fun x => phi x + 1 * psi x)).
  { split; apply (rule_le unit_closed); try exact (proj1 K); intros x Hx; assert (X := D x Hx); apply Rabs_le_between in X; lra. }
  rewrite !rule_lin in A1.
  assert (A2 : RiemannInt_SF phi - RiemannInt_SF psi <= v <= RiemannInt_SF phi + RiemannInt_SF psi).
  { split.
    - refine (is_RInt_le _ _ (-1) 1 _ _ ltac:(lra) (is_RInt_minus (V := R_NormedModule) _ _ _ _ _ _ I1 I2) Hv _). intros x Hx.
      change (phi x - psi x <= f x). assert (X := D x ltac:(lra)). apply Rabs_le_between in X. lra.
    - refine (is_RInt_le _ _ (-1) 1 _ _ ltac:(lra) Hv (is_RInt_plus (V := R_NormedModule) _ _ _ _ _ _ I1 I2) _). intros x Hx.
      change (f x <= phi x + psi x). assert (X := D x ltac:(lra)). apply Rabs_le_between in X. lra. }
  apply Rabs_le_between in H1. apply Rabs_le_between in H2. apply Rabs_le. lra.
Qed.
