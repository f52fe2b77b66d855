(** Convergence of the Gauss rules of a weight with the moments of the Gamma function. *)
From Coq Require Import Reals Lra Lia ZArith List FunctionalExtensionality.
From Coquelicot Require Import Coquelicot.
From Verif Require Import RSum PolySpec PolyProof Improper ImproperExist ErrorSpec EigenProof GaussErr ErrConv ConvAbs.
Local Open Scope R_scope.

Section Gen.
Variables (D : R -> Prop) (Fa Fb : (R -> Prop) -> Prop).
Context {PA : ProperFilter Fa} {PB : ProperFilter Fb} {PA' : ProperFilter' Fa} {PB' : ProperFilter' Fb}.
Hypothesis convex : forall u v x, D u -> D v -> Rmin u v <= x <= Rmax u v -> D x.
Hypothesis convex' : forall u v x, D u -> D v -> u <= x <= v -> D x.
Hypothesis D_open : forall x, D x -> locally x D.
Hypothesis cof_a : forall y, D y -> Fa (fun x => D x /\ x < y).
Hypothesis cof_b : forall y, D y -> Fb (fun x => D x /\ y < x).
Hypothesis DA : Fa D.
Hypothesis DB : Fb D.
Hypothesis le : filter_prod Fa Fb (fun uv => fst uv <= snd uv).
Variables (w : R -> R) (x0 : R).
Hypothesis Dx0 : D x0.
Hypothesis w_nonneg : forall x, D x -> 0 <= w x.
Hypothesis w_cont : forall x, D x -> continuous w x.
Hypothesis w_mom : forall k, exists I, has_int D Fa Fb (fun x => w x * x ^ k) I.
Notation J f v := (is_RInt_gen (fun x => w x * f x) Fa Fb v).
Variables (e : nat) (y : R -> R) (c : R).
Hypothesis y_poly : polynomial e y.
Hypothesis y_pos : forall x, D x -> 0 <= y x.
Hypothesis c_pos : 0 < c.
Hypothesis rec : forall j, has_int D Fa Fb (fun x => w x * ((INR j + c) * y x ^ j - y x ^ S j)) 0.

Notation L := (wint Fa Fb w).
Lemma y_pow : forall j, polynomial (e * j) (fun x => y x ^ j).
Proof.
  induction j; [rewrite Nat.mul_0_r; apply (poly_ext 0 (fun _ => 1)); [intros; reflexivity|apply poly_const]|].
  rewrite Nat.mul_succ_r, Nat.add_comm. apply (poly_ext (e + e * j) (fun x => y x * y x ^ j)); [intros; reflexivity|]. apply poly_mul; [exact y_poly|exact IHj].
Qed.
Lemma J_pow : forall j, J (fun x => y x ^ j) (L (fun x => y x ^ j)).
Proof. intros j. apply (wint_gen D Fa Fb convex DA DB w w_cont w_mom (e * j)), y_pow. Qed.
Lemma L_rec : forall j, L (fun x => y x ^ S j) = (INR j + c) * L (fun x => y x ^ j).
Proof.
  intros j. set (d := (e * j + e * S j)%nat).
  assert (P1 : polynomial d (fun x => y x ^ j)) by (apply (poly_weaken (e * j)); [unfold d; lia|apply y_pow]).
  assert (P2 : polynomial d (fun x => y x ^ S j)) by (apply (poly_weaken (e * S j)); [unfold d; lia|apply y_pow]).
  assert (E := wint_linear D Fa Fb convex DA DB w w_cont w_mom d (INR j + c) (-1) _ _ P1 P2).
  rewrite (wint_val D Fa Fb convex DA DB w w_cont d _ 0) in E.
  - lra.
  - apply poly_lin; assumption.
  - refine (has_int_ext D Fa Fb _ _ 0 _ (rec j)). intros x _. ring.
Qed.
Lemma J_nonneg : forall (f : R -> R) (u : R), (forall x, D x -> 0 <= f x) -> J f u -> 0 <= u.
Proof.
  intros f u H Hu. eapply Rle_trans; [apply (Rabs_pos u)|].
  apply (gen_compare D Fa Fb convex' DA DB le w w_nonneg f f u u); [|exact Hu|exact Hu]. intros x Hx. rewrite Rabs_pos_eq; [lra|apply H, Hx].
Qed.
Lemma J_le : forall (f g : R -> R) (u v : R), J f u -> J g v -> (forall x, D x -> f x <= g x) -> u <= v.
Proof.
  intros f g u v Hu Hv H. assert (G := J_nonneg (fun x => g x - f x) (v - u) ltac:(intros x Hx; specialize (H x Hx); lra) (gen_minus Fa Fb w g f v u Hv Hu)). lra.
Qed.
Lemma J_lin : forall a b (f g : R -> R) (u v : R), J f u -> J g v -> J (fun x => a * f x + b * g x) (a * u + b * v).
Proof.
  intros a b f g u v Hu Hv.
  assert (G := gen_minus Fa Fb w _ _ _ _ (gen_scal Fa Fb w a f u Hu) (gen_scal Fa Fb w (- b) g v Hv)).
  replace (a * u + b * v) with (a * u - - b * v) by ring.
  refine (eq_ind _ (fun h => is_RInt_gen h Fa Fb (a * u - - b * v)) G _ _). extensionality x. ring.
Qed.
(** existence of the integral of a continuous function of polynomial growth in y *)
Lemma growth_int : forall (f : R -> R) C d, (forall x, D x -> continuous f x) -> (forall x, D x -> Rabs (f x) <= C * (1 + y x ^ d)) -> exists v, J f v.
Proof.
  intros f C d Hc Hb.
  assert (Yc : forall x, continuous y x) by (intros x; apply (poly_cont e), y_poly).
  assert (Dp : forall x, D x -> 0 < 1 + y x ^ d) by (intros x Hx; apply den_pos, y_pos, Hx).
  assert (Dc : forall x, continuous (fun x => 1 + y x ^ d) x).
  { intros x. apply (poly_cont (e * d)). apply poly_add; [apply poly_const|apply y_pow]. }
  destruct (continuous_int D Fa Fb convex D_open cof_a cof_b (fun x => w x * (1 + y x ^ d)) (fun x => f x / (1 + y x ^ d)) (L (fun x => 1 + y x ^ d)) C x0) as [v Hv].
  - intros x Hx. apply Rmult_le_pos; [apply w_nonneg, Hx|left; apply Dp, Hx].
  - intros x Hx. apply cont_mult; [apply w_cont, Hx|apply Dc].
  - apply (wint_correct D Fa Fb convex DA DB w w_cont w_mom (e * d)). apply poly_add; [apply poly_const|apply y_pow].
  - intros x Hx. unfold Rdiv. apply cont_mult; [apply Hc, Hx|]. apply continuous_comp; [apply Dc|].
    apply (ex_derive_continuous (V := R_NormedModule) (fun y => / y)). auto_derive. specialize (Dp x Hx). lra.
  - intros x Hx. specialize (Dp x Hx). unfold Rdiv. rewrite Rabs_mult, (Rabs_pos_eq (/ _)) by (left; apply Rinv_0_lt_compat, Dp).
    apply (Rmult_le_reg_r (1 + y x ^ d)); [exact Dp|]. rewrite Rmult_assoc, Rinv_l, Rmult_1_r by lra. apply Hb, Hx.
  - exact Dx0.
  - exists v. apply (has_int_gen D Fa Fb convex DA DB (fun x => w x * f x)).
    + intros x Hx. apply cont_mult; [apply w_cont, Hx|apply Hc, Hx].
    + refine (has_int_ext D Fa Fb _ _ v _ Hv). intros x Hx. specialize (Dp x Hx). cbv beta. field. lra.
Qed.

Variable c0 : R.
Hypothesis c0_pos : 0 < c0.
Definition good (mp : nat * list (R * R)) : Prop :=
  (forall x, In x (map fst (snd mp)) -> D x) /\ (forall xw, In xw (snd mp) -> 0 <= snd xw) /\
  (forall p, polynomial (2 * fst mp - 1) p -> exists v : R, J p v /\ apply_rule (snd mp) p = c0 * v).
Let K := { mp : nat * list (R * R) | good mp }.
Let size (k : K) : nat := fst (proj1_sig k).
Let Q (k : K) (f : R -> R) : R := apply_rule (snd (proj1_sig k)) f / c0.

Lemma rule_lin : forall l a b f g, apply_rule l (fun x => a * f x + b * g x) = a * apply_rule l f + b * apply_rule l g.
Proof. intros l a b f g. unfold apply_rule. induction l as [|p l IH]; simpl; [ring|]. rewrite IH. ring. Qed.
Lemma rule_le : forall (l : list (R * R)) f g, (forall x, In x (map fst l) -> D x) -> (forall xw, In xw l -> 0 <= snd xw) -> (forall x, D x -> f x <= g x) -> apply_rule l f <= apply_rule l g.
Proof.
  intros l f g. unfold apply_rule. induction l as [|p l IH]; intros Hd Hw H; simpl; [lra|].
  apply Rplus_le_compat; [|apply IH; [intros; apply Hd; right; assumption|intros; apply Hw; right; assumption|exact H]].
  apply Rmult_le_compat_r; [apply Hw; left; reflexivity|apply H, Hd; left; reflexivity].
Qed.
Lemma gen_unique : forall (f : R -> R) (u v : R), J f u -> J f v -> u = v.
Proof. intros f u v Hu Hv. rewrite <- (is_RInt_gen_unique _ _ Hu). apply is_RInt_gen_unique. exact Hv. Qed.

Variables (F : R -> R) (C : R) (d : nat).
Hypothesis F_cont : forall t, 0 <= t -> forall eps, 0 < eps -> exists delta, 0 < delta /\ forall s, 0 <= s -> Rabs (s - t) < delta -> Rabs (F s - F t) < eps.
Hypothesis F_grow : forall t, 0 <= t -> Rabs (F t) <= C * (1 + t ^ d).

Lemma gen_converges : forall v, J (fun x => F (y x)) v -> forall eps, 0 < eps -> exists N, forall m ps, (N <= m)%nat -> good (m, ps) ->
  Rabs (apply_rule ps (fun x => F (y x)) - c0 * v) <= eps.
Proof.
  intros v Hv eps He.
  assert (A := conv_cont K size D Q (fun f v => J f v)).
  assert (CC : conv K size Q (fun f v => J f v) (fun x => F (y x)) v).
  { apply (A ltac:(intros k a b f g; unfold Q; rewrite rule_lin; field; lra)) with (M := fun j => L (fun x => y x ^ j)) (c := c) (C := C) (d := d).
    - intros [[m ps] (G1 & G2 & G3)] f g H. unfold Q. simpl. apply Rmult_le_compat_r; [left; apply Rinv_0_lt_compat, c0_pos|]. apply rule_le; assumption.
    - exact J_lin.
    - exact J_le.
    - exact y_pos.
    - exact c_pos.
    - intros j. split; [apply J_pow|]. intros ep Hep. exists (S (e * j)). intros [[m ps] (G1 & G2 & G3)] Hm. unfold size in Hm. simpl in Hm.
      unfold Q. simpl. cbn [fst snd] in G3. destruct (G3 (fun x => y x ^ j)) as (u & Hu & E); [apply (poly_weaken (e * j)); [lia|apply y_pow]|].
      rewrite E, (gen_unique _ _ _ Hu (J_pow j)). replace (c0 * L (fun x => y x ^ j) / c0 - L (fun x => y x ^ j)) with 0 by (field; lra). rewrite Rabs_R0. lra.
    - exact L_rec.
    - apply (J_nonneg (fun x => y x ^ 0)); [intros; simpl; lra|apply J_pow].
    - intros j n. apply (growth_int _ 1 j).
      + intros x Hx. apply cont_mult; [apply (poly_cont (e * j)), y_pow|].
        apply (continuous_comp (fun x => exp (- (y x / 2))) (fun z => z ^ n)).
        * apply (continuous_comp y (fun z => exp (- (z / 2)))); [apply (poly_cont e), y_poly|].
          apply (ex_derive_continuous (V := R_NormedModule)). auto_derive. trivial.
        * apply (ex_derive_continuous (V := R_NormedModule)). auto_derive. trivial.
      + intros x Hx. assert (Y := y_pos x Hx). assert (Yj := pow_le _ j Y).
        assert (q1 : 0 <= exp (- (y x / 2)) <= 1). { split; [left; apply exp_pos|]. rewrite <- exp_0. apply Raux.exp_le. lra. }
        assert (q2 : 0 <= exp (- (y x / 2)) ^ n <= 1). { split; [apply pow_le; lra|]. rewrite <- (pow1 n). apply pow_incr. lra. }
        rewrite Rabs_pos_eq by (apply Rmult_le_pos; lra). nra.
    - exact F_cont.
    - exact F_grow.
    - exact Hv. }
  destruct CC as [_ CC]. destruct (CC (eps / c0) ltac:(apply Rdiv_lt_0_compat; assumption)) as [N HN].
  exists N. intros m ps Hm G. specialize (HN (exist _ (m, ps) G) Hm). unfold Q in HN. simpl in HN.
  apply (Rmult_le_compat_l c0) in HN; [|lra]. rewrite <- (Rabs_pos_eq c0) in HN at 1 by lra. rewrite <- Rabs_mult in HN.
  replace (c0 * (apply_rule ps (fun x => F (y x)) / c0 - v)) with (apply_rule ps (fun x => F (y x)) - c0 * v) in HN by (field; lra).
  replace (c0 * (eps / c0)) with eps in HN by (field; lra). exact HN.
Qed.
End Gen.
