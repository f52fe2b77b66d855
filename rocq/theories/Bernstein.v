(** Approximation of continuous functions by polynomials (Bernstein). *)
From Coq Require Import Reals Lra Lia List Arith.
From Coquelicot Require Import Coquelicot.
From Verif Require Import RSum PolySpec PolyProof ErrorSpec.
Local Open Scope R_scope.

(** expectation of phi(K) for K binomial with parameters n and x *)
Fixpoint E (x : R) (n : nat) (phi : nat -> R) : R :=
  match n with O => phi O | S m => x * E x m (fun k => phi (S k)) + (1 - x) * E x m phi end.
Lemma E_ext : forall x n f g, (forall k, (k <= n)%nat -> f k = g k) -> E x n f = E x n g.
Proof.
  induction n; intros f g H; simpl; [apply H; lia|]. rewrite (IHn (fun k => f (S k)) (fun k => g (S k))), (IHn f g); [reflexivity|intros; apply H; lia..].
Qed.
Lemma E_lin : forall x n a b f g, E x n (fun k => a * f k + b * g k) = a * E x n f + b * E x n g.
Proof. induction n; intros; simpl; [reflexivity|]. rewrite !IHn. ring. Qed.
Lemma E_const : forall x n c, E x n (fun _ => c) = c.
Proof. induction n; intros; simpl; [reflexivity|]. rewrite !IHn. ring. Qed.
Lemma E_le : forall x n f g, 0 <= x <= 1 -> (forall k, (k <= n)%nat -> f k <= g k) -> E x n f <= E x n g.
Proof.
  intros x n. induction n; intros f g Hx H; simpl; [apply H; lia|].
  assert (A := IHn (fun k => f (S k)) (fun k => g (S k)) Hx ltac:(intros; apply H; lia)). assert (B := IHn f g Hx ltac:(intros; apply H; lia)).
  apply Rplus_le_compat; apply Rmult_le_compat_l; lra.
Qed.
Lemma E_abs : forall x n f, 0 <= x <= 1 -> Rabs (E x n f) <= E x n (fun k => Rabs (f k)).
Proof.
  intros x n f Hx. apply Rabs_le. split.
  - apply Rle_trans with (E x n (fun k => -1 * Rabs (f k) + 0 * 0)).
    + rewrite E_lin. lra.
    + apply E_le; [exact Hx|]. intros k _. assert (H := Rle_abs (- f k)). rewrite Rabs_Ropp in H. lra.
  - apply E_le; [exact Hx|]. intros k _. apply Rle_abs.
Qed.
Lemma E_square : forall x n c, E x n (fun k => (INR k + c) * (INR k + c)) = (INR n * x + c) * (INR n * x + c) + INR n * x * (1 - x).
Proof.
  intros x. induction n; intros c; [simpl; ring|].
  change (E x (S n) (fun k => (INR k + c) * (INR k + c))) with
    (x * E x n (fun k => (INR (S k) + c) * (INR (S k) + c)) + (1 - x) * E x n (fun k => (INR k + c) * (INR k + c))).
  rewrite (E_ext x n (fun k => (INR (S k) + c) * (INR (S k) + c)) (fun k => (INR k + (c + 1)) * (INR k + (c + 1)))) by (intros; rewrite S_INR; ring).
  rewrite !IHn, S_INR. ring.
Qed.
Lemma E_poly : forall n phi, polynomial n (fun x => E x n phi).
Proof.
  induction n; intros phi; simpl; [apply poly_const|].
  apply (poly_ext (S n) (fun x => x * E x n (fun k => phi (S k)) + (E x n phi - x * E x n phi))); [intros; ring|].
  apply poly_add; [apply poly_mulx, IHn|]. apply poly_sub; [apply (poly_weaken n); [lia|apply IHn]|apply poly_mulx, IHn].
Qed.

Section Modulus.
Variables (f : R -> R) (de om : R).
Hypothesis Hde : 0 < de.
Hypothesis Hom : forall x y, -1 <= x <= 1 -> -1 <= y <= 1 -> Rabs (x - y) <= de -> Rabs (f x - f y) <= om.

Lemma om_nonneg : 0 <= om.
Proof. assert (H := Hom 0 0 ltac:(lra) ltac:(lra) ltac:(rewrite Rminus_0_r, Rabs_R0; lra)). assert (A := Rabs_pos (f 0 - f 0)). lra. Qed.
Lemma chain : forall m x y, -1 <= x <= 1 -> -1 <= y <= 1 -> Rabs (x - y) <= INR (S m) * de -> Rabs (f x - f y) <= INR (S m) * om.
Proof.
  induction m; intros x y Hx Hy H; [simpl in *; rewrite Rmult_1_l in *; apply Hom; assumption|].
  set (n := INR (S m)) in *. assert (Hn : 1 <= n) by (unfold n; rewrite S_INR; pose proof (pos_INR m); lra).
  rewrite (S_INR (S m)) in H |- *. fold n in H |- *.
  set (z := x + (y - x) * (n / (n + 1))).
  assert (Q : 0 <= n / (n + 1) <= 1).
  { split; [apply Rlt_le, Rdiv_lt_0_compat; lra|]. apply (Rmult_le_reg_r (n + 1)); [lra|]. unfold Rdiv. rewrite Rmult_assoc, Rinv_l by lra. lra. }
  assert (Q1 : 1 - n / (n + 1) = / (n + 1)) by (field; lra).
  assert (Hz : -1 <= z <= 1) by (unfold z; nra).
  assert (D1 : x - z = (x - y) * (n / (n + 1))) by (unfold z; ring).
  assert (D2 : z - y = (x - y) * (/ (n + 1))) by (unfold z; field; lra).
  assert (A1 : Rabs (x - z) <= n * de).
  { rewrite D1, Rabs_mult, (Rabs_right (n / (n + 1))) by lra. apply Rle_trans with ((n + 1) * de * (n / (n + 1))).
    - apply Rmult_le_compat_r; lra.
    - right. field. lra. }
  assert (A2 : Rabs (z - y) <= de).
  { assert (0 < / (n + 1)) by (apply Rinv_0_lt_compat; lra). rewrite D2, Rabs_mult, (Rabs_right (/ (n + 1))) by lra. apply Rle_trans with ((n + 1) * de * (/ (n + 1))).
    - apply Rmult_le_compat_r; lra.
    - right. field. lra. }
  assert (B1 := IHm x z Hx Hz A1). assert (B2 := Hom z y Hz Hy A2).
  replace (f x - f y) with ((f x - f z) + (f z - f y)) by ring. eapply Rle_trans; [apply Rabs_triang|]. lra.
Qed.
Lemma modulus_square : forall x y, -1 <= x <= 1 -> -1 <= y <= 1 -> Rabs (f x - f y) <= (1 + (x - y) * (x - y) / (de * de)) * om.
Proof.
  intros x y Hx Hy. assert (O := om_nonneg). assert (Sq : 0 <= (x - y) * (x - y) / (de * de)) by (apply Rmult_le_pos; [apply Rle_0_sqr|apply Rlt_le, Rinv_0_lt_compat; nra]).
  destruct (Rle_dec (Rabs (x - y)) de) as [L|G].
  - assert (H := Hom x y Hx Hy L). nra.
  - apply Rnot_le_lt in G. set (q := Rabs (x - y) / de).
    assert (Hq : 1 < q) by (unfold q; apply (Rmult_lt_reg_r de); [lra|]; unfold Rdiv; rewrite Rmult_assoc, Rinv_l by lra; lra).
    destruct (nfloor_ex q ltac:(lra)) as [m [M1 M2]].
    assert (C := chain m x y Hx Hy). rewrite S_INR in C.
    assert (Rabs (x - y) <= (INR m + 1) * de).
    { replace (Rabs (x - y)) with (q * de) by (unfold q; field; lra). apply Rmult_le_compat_r; lra. }
    specialize (C H). eapply Rle_trans; [exact C|]. apply Rmult_le_compat_r; [exact O|].
    assert (Eq : (x - y) * (x - y) / (de * de) = q * q).
    { unfold q. replace ((x - y) * (x - y)) with (Rabs (x - y) * Rabs (x - y)) by (rewrite <- Rabs_mult; apply Rabs_right, Rle_ge, Rle_0_sqr). field. lra. }
    rewrite Eq. nra.
Qed.
Lemma bernstein : forall d, (1 <= d)%nat -> exists p, polynomial d p /\
  forall x, -1 <= x <= 1 -> Rabs (f x - p x) <= (1 + / (INR d * (de * de))) * om.
Proof.
  intros d Hd. assert (D : 0 < INR d) by (apply lt_0_INR; lia).
  exists (fun u => E ((u + 1) / 2) d (fun k => f (2 * INR k / INR d - 1))). split.
  - apply (poly_ext d (fun u => (fun x => E x d (fun k => f (2 * INR k / INR d - 1))) (/ 2 * u + / 2))); [intros u; cbv beta; f_equal; field|].
    apply (poly_affine d (fun x => E x d (fun k => f (2 * INR k / INR d - 1)))). apply E_poly.
  - intros u Hu. set (x := (u + 1) / 2). assert (Hx : 0 <= x <= 1) by (unfold x; lra).
    replace (f u) with (E x d (fun _ => f u)) by apply E_const.
    replace (E x d (fun _ => f u) - E x d (fun k => f (2 * INR k / INR d - 1))) with (E x d (fun k => 1 * f u + (-1) * f (2 * INR k / INR d - 1))) by (rewrite (E_lin x d 1 (-1) (fun _ => f u)); ring).
    eapply Rle_trans; [apply E_abs, Hx|].
    apply Rle_trans with (E x d (fun k => om * 1 + (om * 4 / (INR d * INR d * (de * de))) * ((INR k + - (INR d * x)) * (INR k + - (INR d * x))))).
    + apply E_le; [exact Hx|]. intros k Hk. apply le_INR in Hk. assert (Kp := pos_INR k).
      replace (1 * f u + -1 * f (2 * INR k / INR d - 1)) with (f u - f (2 * INR k / INR d - 1)) by ring.
      assert (Y : -1 <= 2 * INR k / INR d - 1 <= 1).
      { assert (0 <= INR k / INR d <= 1).
        { split; [apply Rmult_le_pos; [exact Kp|apply Rlt_le, Rinv_0_lt_compat, D]|]. apply (Rmult_le_reg_r (INR d)); [exact D|]. unfold Rdiv. rewrite Rmult_assoc, Rinv_l by lra. lra. }
        unfold Rdiv in *. lra. }
      eapply Rle_trans; [apply modulus_square; assumption|]. right. unfold x. field. lra.
    + rewrite (E_lin x d om (om * 4 / (INR d * INR d * (de * de))) (fun _ => 1)), E_const, E_square.
      assert (O := om_nonneg).
      replace (om * 1 + om * 4 / (INR d * INR d * (de * de)) * ((INR d * x + - (INR d * x)) * (INR d * x + - (INR d * x)) + INR d * x * (1 - x)))
        with ((1 + (4 * x * (1 - x)) / (INR d * (de * de))) * om) by (field; lra).
      apply Rmult_le_compat_r; [exact O|]. apply Rplus_le_compat_l. unfold Rdiv. rewrite <- (Rmult_1_l (/ (INR d * (de * de)))) at 2.
      apply Rmult_le_compat_r; [apply Rlt_le, Rinv_0_lt_compat; apply Rmult_lt_0_compat; [exact D|nra]|].
      clearbody x. assert (S0 := Rle_0_sqr (2 * x - 1)). unfold Rsqr in S0.
      replace (4 * x * (1 - x)) with (1 - (2 * x - 1) * (2 * x - 1)) by ring. lra.
Qed.
End Modulus.
