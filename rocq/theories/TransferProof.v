(** Exactness on [-1,1] carries over to every interval. *)
From Coq Require Import Reals List ZArith Lra Lia FunctionalExtensionality.
From Coquelicot Require Import Coquelicot.
From Verif Require Import Arith RInst Rules Legendre Jacobi Chebyshev RSum PolySpec PolyProof TransferSpec RuleSpec GaussProof.
Local Open Scope R_scope.

Lemma comp_lin : forall (g : R -> R) u v x y I, u <> 0 -> is_RInt g (u * x + v) (u * y + v) I ->
  is_RInt (fun t => g (u * t + v)) x y (I / u).
Proof.
  intros g u v x y I Hu H. apply (is_RInt_comp_lin (V := R_NormedModule)) in H.
  apply (is_RInt_scal (V := R_NormedModule) _ x y (/ u)) in H.
  replace (I / u) with (scal (/ u) I) by (unfold scal; simpl; unfold mult; simpl; field; exact Hu).
  eapply is_RInt_ext; [|exact H]. intros t _. unfold scal; simpl; unfold mult; simpl. field. exact Hu.
Qed.
Lemma gen_lin : forall (g : R -> R) u v (Fa Fb Ga Gb : (R -> Prop) -> Prop) I, u <> 0 ->
  filterlim (fun x => u * x + v) Fa Ga -> filterlim (fun x => u * x + v) Fb Gb ->
  is_RInt_gen g Ga Gb I -> is_RInt_gen (fun t => g (u * t + v)) Fa Fb (I / u).
Proof.
  intros g u v Fa Fb Ga Gb I Hu Ha Hb H P HP.
  assert (HP' : locally I (fun y => P (y / u))).
  { destruct HP as [e He]. assert (E : 0 < e * Rabs u) by (apply Rmult_lt_0_compat; [apply cond_pos|apply Rabs_pos_lt; exact Hu]).
    exists (mkposreal _ E). intros y Hy. apply He. assert (Hy' : Rabs (y - I) < e * Rabs u) by exact Hy.
    change (Rabs (y / u - I / u) < e). replace (y / u - I / u) with ((y - I) / u) by (field; exact Hu).
    rewrite Rabs_div by exact Hu. apply (Rmult_lt_reg_r (Rabs u)); [apply Rabs_pos_lt; exact Hu|].
    unfold Rdiv. rewrite Rmult_assoc, Rinv_l, Rmult_1_r by (apply Rabs_no_R0; exact Hu). exact Hy'. }
  destruct (H _ HP') as [Q R HQ HR HQR].
  exists (fun x => Q (u * x + v)) (fun x => R (u * x + v)); [apply Ha, HQ|apply Hb, HR|].
  intros x y Hx Hy. destruct (HQR _ _ Hx Hy) as (z & Hz & Pz). exists (z / u). split; [|exact Pz].
  apply comp_lin; assumption.
Qed.
Lemma affine_right : forall u v a c, 0 < u -> u * a + v = c -> filterlim (fun x => u * x + v) (at_right a) (at_right c).
Proof.
  intros u v a c Hu Hc P [e He]. assert (E : 0 < e / u) by (apply Rdiv_lt_0_compat; [apply cond_pos|exact Hu]).
  exists (mkposreal _ E). intros x Hx Hlt. assert (Hx' : Rabs (x - a) < e / u) by exact Hx. apply He.
  - change (Rabs (u * x + v - c) < e). rewrite <- Hc. replace (u * x + v - (u * a + v)) with (u * (x - a)) by ring.
    rewrite Rabs_mult, (Rabs_pos_eq u) by lra. apply (Rmult_lt_reg_r (/ u)); [apply Rinv_0_lt_compat; exact Hu|].
    replace (u * Rabs (x - a) * / u) with (Rabs (x - a)) by (field; lra). exact Hx'.
  - rewrite <- Hc. nra.
Qed.
Lemma affine_left : forall u v a c, 0 < u -> u * a + v = c -> filterlim (fun x => u * x + v) (at_left a) (at_left c).
Proof.
  intros u v a c Hu Hc P [e He]. assert (E : 0 < e / u) by (apply Rdiv_lt_0_compat; [apply cond_pos|exact Hu]).
  exists (mkposreal _ E). intros x Hx Hlt. assert (Hx' : Rabs (x - a) < e / u) by exact Hx. apply He.
  - change (Rabs (u * x + v - c) < e). rewrite <- Hc. replace (u * x + v - (u * a + v)) with (u * (x - a)) by ring.
    rewrite Rabs_mult, (Rabs_pos_eq u) by lra. apply (Rmult_lt_reg_r (/ u)); [apply Rinv_0_lt_compat; exact Hu|].
    replace (u * Rabs (x - a) * / u) with (Rabs (x - a)) by (field; lra). exact Hx'.
  - rewrite <- Hc. nra.
Qed.
Lemma affine_flip_r : forall u v a c, u < 0 -> u * a + v = c -> filterlim (fun x => u * x + v) (at_left a) (at_right c).
Proof.
  intros u v a c Hu Hc P [e He]. assert (E : 0 < e / - u) by (apply Rdiv_lt_0_compat; [apply cond_pos|lra]).
  exists (mkposreal _ E). intros x Hx Hlt. assert (Hx' : Rabs (x - a) < e / - u) by exact Hx. apply He.
  - change (Rabs (u * x + v - c) < e). rewrite <- Hc. replace (u * x + v - (u * a + v)) with (u * (x - a)) by ring.
    rewrite Rabs_mult, (Rabs_left u) by lra. apply (Rmult_lt_reg_r (/ - u)); [apply Rinv_0_lt_compat; lra|].
    replace (- u * Rabs (x - a) * / - u) with (Rabs (x - a)) by (field; lra). exact Hx'.
  - rewrite <- Hc. nra.
Qed.
Lemma affine_flip_l : forall u v a c, u < 0 -> u * a + v = c -> filterlim (fun x => u * x + v) (at_right a) (at_left c).
Proof.
  intros u v a c Hu Hc P [e He]. assert (E : 0 < e / - u) by (apply Rdiv_lt_0_compat; [apply cond_pos|lra]).
  exists (mkposreal _ E). intros x Hx Hlt. assert (Hx' : Rabs (x - a) < e / - u) by exact Hx. apply He.
  - change (Rabs (u * x + v - c) < e). rewrite <- Hc. replace (u * x + v - (u * a + v)) with (u * (x - a)) by ring.
    rewrite Rabs_mult, (Rabs_left u) by lra. apply (Rmult_lt_reg_r (/ - u)); [apply Rinv_0_lt_compat; lra|].
    replace (- u * Rabs (x - a) * / - u) with (Rabs (x - a)) by (field; lra). exact Hx'.
  - rewrite <- Hc. nra.
Qed.

Section Unit.
Variables (a b : R) (f : R -> R).
Definition pulled (x : R) : R := f ((b - a) / 2 * x + (a + b) / 2).
Lemma pulled_poly : forall d, polynomial d f -> polynomial d pulled.
Proof. intros d Hf. unfold pulled. apply (poly_affine d f). exact Hf. Qed.
Lemma gauss_pulled : forall l, gauss_on l a b f = (b - a) / 2 * apply_rule l pulled.
Proof.
  intros l. reflexivity.
Qed.
Lemma pulled_back : forall x, a <> b -> pulled (to_unit a b x) = f x.
Proof. intros x H. unfold pulled, to_unit. f_equal. field. lra. Qed.
Lemma to_unit_lin : forall x, a <> b -> to_unit a b x = 2 / (b - a) * x + (- (2 * a) / (b - a) - 1).
Proof. intros x H. unfold to_unit. field. lra. Qed.

Lemma transfer_proper : forall w d l, properly_exact_against w d l -> polynomial d f ->
  is_RInt (fun x => w (to_unit a b x) * f x) a b (gauss_on l a b f).
Proof.
  intros w d l H Hf. rewrite gauss_pulled. destruct (Req_dec a b) as [E|E].
  - rewrite <- E. replace ((a - a) / 2 * apply_rule l pulled) with (@zero R_AbelianGroup) by (unfold zero; simpl; field). apply (is_RInt_point (V := R_NormedModule)).
  - specialize (H pulled (pulled_poly d Hf)).
    set (u := 2 / (b - a)). set (v := - (2 * a) / (b - a) - 1).
    assert (U : u <> 0). { unfold u. apply Rmult_integral_contrapositive. split; [lra|]. apply Rinv_neq_0_compat. lra. }
    replace (-1) with (u * a + v) in H by (unfold u, v; field; lra).
    replace 1 with (u * b + v) in H by (unfold u, v; field; lra).
    apply (comp_lin (fun x => w x * pulled x) u v a b) in H; [|exact U].
    replace ((b - a) / 2 * apply_rule l pulled) with (apply_rule l pulled / u) by (unfold u; field; lra).
    eapply is_RInt_ext; [|exact H]. intros x _. cbv beta. unfold u, v. rewrite <- to_unit_lin by exact E. rewrite pulled_back by exact E. reflexivity.
Qed.
Lemma transfer_improper : forall w d l, exact_against w d l -> a <> b -> polynomial d f ->
  weighted_integral w a b f (gauss_on l a b f).
Proof.
  intros w d l H E Hf. rewrite gauss_pulled. specialize (H pulled (pulled_poly d Hf)).
  set (u := 2 / (b - a)). set (v := - (2 * a) / (b - a) - 1).
  assert (U : u <> 0). { unfold u. apply Rmult_integral_contrapositive. split; [lra|]. apply Rinv_neq_0_compat. lra. }
  assert (A1 : u * a + v = -1) by (unfold u, v; field; lra).
  assert (B1 : u * b + v = 1) by (unfold u, v; field; lra).
  replace ((b - a) / 2 * apply_rule l pulled) with (apply_rule l pulled / u) by (unfold u; field; lra).
  replace (fun x => w (to_unit a b x) * f x) with (fun x => (fun y => w y * pulled y) (u * x + v)) in *.
  2:{ extensionality x. cbv beta. unfold u, v. rewrite <- to_unit_lin by exact E. rewrite pulled_back by exact E. reflexivity. }
  unfold weighted_integral.
  assert (G : (fun x => w (to_unit a b x) * f x) = (fun x => (fun y => w y * pulled y) (u * x + v))).
  { extensionality x. cbv beta. unfold u, v. rewrite <- to_unit_lin by exact E. rewrite pulled_back by exact E. reflexivity. }
  rewrite G. destruct (Rtotal_order a b) as [L|[L|L]]; [left|contradiction|right]; (split; [exact L|]).
  - assert (0 < u) by (unfold u; apply Rdiv_lt_0_compat; lra).
    apply (gen_lin (fun y => w y * pulled y) u v _ _ (at_right (-1)) (at_left 1)); [exact U|apply affine_right; assumption|apply affine_left; assumption|exact H].
  - assert (u < 0). { unfold u. apply Ropp_lt_cancel. rewrite Ropp_0. replace (- (2 / (b - a))) with (2 / (a - b)) by (field; lra). apply Rdiv_lt_0_compat; lra. }
    apply (gen_lin (fun y => w y * pulled y) u v _ _ (at_right (-1)) (at_left 1)); [exact U|apply affine_flip_r; assumption|apply affine_flip_l; assumption|exact H].
Qed.
End Unit.

Theorem transfer_values : forall (w : R -> R) d (a b : R) f, a <> b -> polynomial d f ->
  (forall r : GaussLegendre RA, exact_against w d (legendre_pairs r) -> weighted_integral w a b f (legendre_value r a b f)) /\
  (forall r : GaussJacobi RA, exact_against w d (jacobi_pairs r) -> weighted_integral w a b f (jacobi_value r a b f)) /\
  (forall r : GaussChebyshevFirstKind RA, exact_against w d (chebyshev1_pairs r) -> weighted_integral w a b f (chebyshev1_value r a b f)) /\
  (forall r : GaussChebyshevSecondKind RA, exact_against w d (chebyshev2_pairs r) -> weighted_integral w a b f (chebyshev2_value r a b f)).
Proof.
  intros w d a b f E Hf. split; [|split; [|split]]; intros r H.
  - unfold legendre_value. rewrite legendre_R. apply (transfer_improper a b f w d); assumption.
  - unfold jacobi_value. rewrite jacobi_R. apply (transfer_improper a b f w d); assumption.
  - unfold chebyshev1_value. rewrite chebyshev1_R. apply (transfer_improper a b f w d); assumption.
  - unfold chebyshev2_value. rewrite chebyshev2_R. apply (transfer_improper a b f w d); assumption.
Qed.
Theorem transfer_values_proper : forall (w : R -> R) d (a b : R) f, polynomial d f ->
  (forall r : GaussLegendre RA, properly_exact_against w d (legendre_pairs r) ->
     is_RInt (fun x => w (to_unit a b x) * f x) a b (legendre_value r a b f)) /\
  (forall r : GaussJacobi RA, properly_exact_against w d (jacobi_pairs r) ->
     is_RInt (fun x => w (to_unit a b x) * f x) a b (jacobi_value r a b f)) /\
  (forall r : GaussChebyshevFirstKind RA, properly_exact_against w d (chebyshev1_pairs r) ->
     is_RInt (fun x => w (to_unit a b x) * f x) a b (chebyshev1_value r a b f)) /\
  (forall r : GaussChebyshevSecondKind RA, properly_exact_against w d (chebyshev2_pairs r) ->
     is_RInt (fun x => w (to_unit a b x) * f x) a b (chebyshev2_value r a b f)).
Proof.
  intros w d a b f Hf. split; [|split; [|split]]; intros r H.
  - unfold legendre_value. rewrite legendre_R. apply (transfer_proper a b f w d); assumption.
  - unfold jacobi_value. rewrite jacobi_R. apply (transfer_proper a b f w d); assumption.
  - unfold chebyshev1_value. rewrite chebyshev1_R. apply (transfer_proper a b f w d); assumption.
  - unfold chebyshev2_value. rewrite chebyshev2_R. apply (transfer_proper a b f w d); assumption.
Qed.
