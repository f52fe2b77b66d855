(** The tabulated Gauss-Legendre rules on any interval and for any integrand. *)
From Coq Require Import Reals ZArith List Lia Lra Bool Psatz FunctionalExtensionality.
From Coquelicot Require Import Coquelicot.
From Verif Require Import Arith RInst RInstProof Machine Rules LegendreData Legendre RSum PolySpec PolyProof RuleSpec MassSpec GaussProof TransferProof OrthoProof
  Improper ChebRule LegSym LegShape LegPoly.
Import ListNotations.
Local Open Scope R_scope.

Lemma pull_int : forall (f : R -> R) a b, a <> b -> ex_RInt f a b ->
  ex_RInt (pulled a b f) (-1) 1 /\ RInt f a b = (b - a) / 2 * RInt (pulled a b f) (-1) 1.
Proof.
  intros f a b Hab Hf. pose proof (RInt_correct (V := R_CompleteNormedModule) f a b Hf) as H. change (RInt f a b) with (RInt f a b : R) in *. set (v := RInt f a b : R) in *.
  assert (H' : is_RInt f ((b - a) / 2 * -1 + (a + b) / 2) ((b - a) / 2 * 1 + (a + b) / 2) v).
  { replace ((b - a) / 2 * -1 + (a + b) / 2) with a by field. replace ((b - a) / 2 * 1 + (a + b) / 2) with b by field. exact H. }
  apply (comp_lin f ((b - a) / 2) ((a + b) / 2) (-1) 1) in H'; [|lra]. split; [exists (v / ((b - a) / 2)); exact H'|].
  apply (is_RInt_unique (V := R_CompleteNormedModule)) in H'. unfold pulled. rewrite H'. change (v = (b - a) / 2 * (v / ((b - a) / 2)) :> R). field. lra.
Qed.
Definition between (a b x : R) : Prop := Rmin a b <= x <= Rmax a b.
Lemma pull_between : forall a b x, -1 <= x <= 1 -> between a b ((b - a) / 2 * x + (a + b) / 2).
Proof.
  intros a b x Hx. unfold between, Rmin, Rmax. destruct (Rle_dec a b) as [H|H]; split; nra.
Qed.
Lemma apply_bound : forall (l : list (R * R)) g E, 0 <= E -> List.Forall (fun xw => Rabs (g (fst xw)) <= E /\ 0 < snd xw) l ->
  Rabs (apply_rule l g) <= E * apply_rule l (fun _ => 1).
Proof.
  intros l g E HE H. unfold apply_rule. induction H as [|[x w] l [H1 H2] _ IH]; cbn [map lsum fst snd] in *; [rewrite Rabs_R0; lra|].
  eapply Rle_trans; [apply Rabs_triang|]. rewrite Rabs_mult, (Rabs_pos_eq w) by lra.
  assert (Rabs (g x) * w <= E * w) by (apply Rmult_le_compat_r; lra). lra.
Qed.
Lemma apply_minus : forall (l : list (R * R)) f g, apply_rule l f - apply_rule l g = apply_rule l (fun x => f x - g x).
Proof. intros l f g. unfold apply_rule. induction l as [|[x w] l IH]; cbn [map lsum fst snd]; [ring|]. rewrite <- IH. ring. Qed.

Section N.
Variables (t : Target) (n : nat) (r : GaussLegendre RA).
Hypothesis Hu : (100 <= usize_max t)%Z.
Hypothesis Hn : (1 <= n <= 100)%nat.
Hypothesis H2n : (2 * Z.of_nat n <= usize_max t)%Z.
Hypothesis Hr : legendre_new t (Z.of_nat n) = Ok r.

Theorem value_max : forall a b p M, polynomial (2 * n - 1) p -> (forall x, between a b x -> Rabs (p x) <= M) ->
  Rabs (legendre_value r a b p - RInt p a b) <= 3 / 10 ^ 14 * M * (Rabs (b - a) / 2).
Proof.
  intros a b p M Hp HM. unfold legendre_value. rewrite legendre_R, gauss_pulled. destruct (Req_dec a b) as [E|E].
  - subst b. rewrite RInt_point. replace ((a - a) / 2) with 0 by field. replace (a - a) with 0 by ring. change zero with 0. rewrite Rmult_0_l, Rminus_0_r, Rabs_R0. lra.
  - destruct (pull_int p a b E (poly_int _ p a b Hp)) as [_ ->]. rewrite <- Rmult_minus_distr_l, Rabs_mult.
    replace (Rabs ((b - a) / 2)) with (Rabs (b - a) / 2) by (unfold Rdiv; rewrite Rabs_mult, (Rabs_pos_eq (/ 2)) by lra; reflexivity). rewrite Rmult_comm.
    apply Rmult_le_compat_r; [unfold Rdiv; apply Rmult_le_pos; [apply Rabs_pos|lra]|].
    apply (legendre_max t n r Hu Hn H2n Hr); [apply pulled_poly; exact Hp|]. intros x Hx. apply HM, pull_between, Hx.
Qed.
Theorem value_coefficients : forall c : nat -> R, let p := fun x => rsum (2 * n) (fun k => c k * x ^ k) in
  Rabs (legendre_value r (-1) 1 p - RInt p (-1) 1) <= 15 / 10 ^ 17 * rsum (2 * n) (fun k => Rabs (c k)).
Proof.
  intros c p. unfold legendre_value. rewrite legendre_R, gauss_pulled. replace ((1 - -1) / 2) with 1 by field. rewrite Rmult_1_l.
  replace (pulled (-1) 1 p) with p by (extensionality x; unfold pulled; f_equal; field). apply (legendre_coefficients t n r Hu Hn H2n Hr).
Qed.
Lemma weight_sum : 0 <= apply_rule (legendre_pairs r) (fun _ => 1) <= 2 + 15 / 10 ^ 17.
Proof.
  split.
  - destruct (legendre_shape t (Z.of_nat n) r Hu ltac:(lia) H2n Hr) as [_ F]. unfold apply_rule. induction F as [|[x w] l [_ H] _ IH]; cbn [map lsum fst snd] in *; lra.
  - pose proof (monomial_error t n r Hu Hn H2n Hr 0 ltac:(lia)) as M. rewrite I1_pow in M. replace ((1 - (-1) ^ 1) / INR 1) with 2 in M by (simpl; field).
    change (fun x => x ^ 0) with (fun _ : R => 1) in M. pose proof (Rle_abs (apply_rule (legendre_pairs r) (fun _ => 1) - 2)). lra.
Qed.
Theorem value_any : forall a b (f p : R -> R) M E, polynomial (2 * n - 1) p -> ex_RInt f a b ->
  (forall x, between a b x -> Rabs (f x) <= M) -> (forall x, between a b x -> Rabs (f x - p x) <= E) ->
  Rabs (legendre_value r a b f - RInt f a b) <= (3 / 10 ^ 14 * M + 5 * E) * (Rabs (b - a) / 2).
Proof.
  intros a b f p M E Hp Hf HM HE. destruct (Req_dec a b) as [Eab|Eab].
  { unfold legendre_value. rewrite legendre_R, gauss_pulled. subst b. rewrite RInt_point. replace ((a - a) / 2) with 0 by field. replace (a - a) with 0 by ring. change zero with 0. rewrite Rmult_0_l, Rminus_0_r, Rabs_R0. lra. }
  assert (Ba : between a b a) by (unfold between, Rmin, Rmax; destruct (Rle_dec a b); lra).
  assert (PE : 0 <= E) by (pose proof (HE a Ba); pose proof (Rabs_pos (f a - p a)); lra).
  assert (PM : 0 <= M) by (pose proof (HM a Ba); pose proof (Rabs_pos (f a)); lra).
  assert (HP : forall x, between a b x -> Rabs (p x) <= M + E).
  { intros x Hx. replace (p x) with (f x - (f x - p x)) by ring. unfold Rminus at 1. eapply Rle_trans; [apply Rabs_triang|]. rewrite Rabs_Ropp. pose proof (HM x Hx). pose proof (HE x Hx). lra. }
  pose proof (value_max a b p (M + E) Hp HP) as V. set (h := Rabs (b - a) / 2) in *.
  assert (Ph : 0 <= h) by (unfold h, Rdiv; apply Rmult_le_pos; [apply Rabs_pos|lra]).
  assert (A : Rabs (legendre_value r a b f - legendre_value r a b p) <= h * (E * (2 + 15 / 10 ^ 17))).
  { unfold legendre_value. rewrite !legendre_R, !gauss_pulled, <- Rmult_minus_distr_l, Rabs_mult.
    replace (Rabs ((b - a) / 2)) with h by (unfold h, Rdiv; rewrite Rabs_mult, (Rabs_pos_eq (/ 2)) by lra; reflexivity).
    apply Rmult_le_compat_l; [exact Ph|]. rewrite apply_minus. eapply Rle_trans; [apply (apply_bound _ _ E PE)|apply Rmult_le_compat_l; [exact PE|apply weight_sum]].
    destruct (legendre_shape t (Z.of_nat n) r Hu ltac:(lia) H2n Hr) as [_ F]. eapply List.Forall_impl; [|exact F]. intros [x w] [H1 H2]. cbn [fst snd] in *.
    split; [|exact H2]. unfold pulled. apply HE, pull_between. lra. }
  assert (B : Rabs (RInt f a b - RInt p a b) <= h * (2 * E)).
  { replace (h * (2 * E)) with (Rabs (b - a) * E) by (unfold h; field).
    assert (X : ex_RInt p a b) by (apply (poly_int _ p a b Hp)).
    replace (RInt f a b - RInt p a b) with (RInt (fun x => f x - p x) a b).
    2:{ apply (is_RInt_unique (V := R_CompleteNormedModule)). apply (is_RInt_minus (V := R_NormedModule)); apply (RInt_correct (V := R_CompleteNormedModule)); assumption. }
    assert (EX : ex_RInt (fun x => f x - p x) a b) by (apply (ex_RInt_minus (V := R_NormedModule)); assumption).
    destruct (Rle_dec a b) as [O|O].
    - rewrite (Rabs_pos_eq (b - a)) by lra. apply abs_RInt_le_const; [exact O|exact EX|].
      intros x Hx. apply HE. unfold between. rewrite Rmin_left, Rmax_right by lra. exact Hx.
    - rewrite <- (opp_RInt_swap (V := R_CompleteNormedModule)) by (apply ex_RInt_swap; exact EX). change (opp ?x) with (- x). rewrite Rabs_Ropp.
      rewrite (Rabs_left (b - a)) by lra. replace (- (b - a)) with (a - b) by ring. apply abs_RInt_le_const; [lra|apply ex_RInt_swap; exact EX|].
      intros x Hx. apply HE. unfold between. rewrite Rmin_right, Rmax_left by lra. exact Hx. }
  replace (legendre_value r a b f - RInt f a b) with ((legendre_value r a b f - legendre_value r a b p) + (legendre_value r a b p - RInt p a b) - (RInt f a b - RInt p a b)) by ring.
  unfold Rminus at 1. eapply Rle_trans; [apply Rabs_triang|]. rewrite Rabs_Ropp. eapply Rle_trans; [apply Rplus_le_compat_r, Rabs_triang|].
  assert (HE2 : 0 <= h * E) by (apply Rmult_le_pos; assumption). lra.
Qed.
End N.
