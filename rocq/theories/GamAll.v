(** Accuracy of the library's gamma for all arguments, and of the scale factors of the
    Laguerre and Jacobi rules. *)
From Coq Require Import Reals Lra Lia List ZArith.
From Coquelicot Require Import Coquelicot.
From Verif Require Import Arith RInst RInstProof Gamma GammaProof PolySpec PolyProof WeightSpec MassSpec Improper ImproperExist
  OrthoProof Gaussian LaguerreWeight JacobiWeight GaussExact GammaTrue GamRatio GamAcc GamNum GamReflect.
Local Open Scope R_scope.

Lemma frac_not_int : forall x n, IZR n < x < IZR n + 1 -> forall k : Z, x <> IZR k.
Proof.
  intros x n [H1 H2] k E. subst x. apply lt_IZR in H1. rewrite <- plus_IZR in H2. apply lt_IZR in H2. lia.
Qed.
Lemma log_small : forall x, 0 < x < / 2 -> Rabs (ln (@gamma RA x) - ln (Gam x)) <= 1195 / 10 ^ 16.
Proof.
  intros x Hx. assert (R1 := gamma_reflect x (frac_not_int x 0 ltac:(lra)) ltac:(lra)). assert (R2 := Gam_reflect x ltac:(lra)).
  assert (P1 := gamma_pos x ltac:(lra)). assert (P2 := gamma_pos (1 - x) ltac:(lra)). assert (P3 := Gam_pos x ltac:(lra)). assert (P4 := Gam_pos (1 - x) ltac:(lra)).
  rewrite <- R2 in R1. apply (f_equal ln) in R1. rewrite !ln_mult in R1 by assumption.
  assert (L := log_bound (1 - x) ltac:(lra)). rewrite Rabs_minus_sym in L.
  replace (ln (@gamma RA x) - ln (Gam x)) with (ln (Gam (1 - x)) - ln (@gamma RA (1 - x))) by lra. exact L.
Qed.
Lemma log_all : forall x, 0 < x -> Rabs (ln (@gamma RA x) - ln (Gam x)) <= 1195 / 10 ^ 16.
Proof. intros x Hx. destruct (Rlt_or_le x (/ 2)) as [H|H]; [apply log_small; lra|apply log_bound, H]. Qed.
Lemma acc_of_log : forall a b, 0 < a -> 0 < b -> Rabs (ln a - ln b) <= 1195 / 10 ^ 16 -> Rabs (a - b) <= 12 / 10 ^ 14 * b.
Proof.
  intros a b Ha Hb H. assert (R := ratio_of_log a b (1195 / 10 ^ 16) Ha Hb ltac:(lra) H). eapply Rle_trans; [exact R|].
  apply Rmult_le_compat_r; lra.
Qed.
Lemma acc_of_log3 : forall a b, 0 < a -> 0 < b -> Rabs (ln a - ln b) <= 3585 / 10 ^ 16 -> Rabs (a - b) <= 36 / 10 ^ 14 * b.
Proof.
  intros a b Ha Hb H. assert (R := ratio_of_log a b (3585 / 10 ^ 16) Ha Hb ltac:(lra) H). eapply Rle_trans; [exact R|].
  apply Rmult_le_compat_r; lra.
Qed.
Lemma gamma_accurate : forall x G, 0 < x -> is_Gamma x G -> Rabs (@gamma RA x - G) <= 12 / 10 ^ 14 * G.
Proof.
  intros x G Hx HG. rewrite (Gam_eq x G Hx HG). apply acc_of_log; [apply gamma_pos, Hx|apply Gam_pos, Hx|apply log_all, Hx].
Qed.
Lemma true_reflection : forall x G H, 0 < x < 1 -> is_Gamma x G -> is_Gamma (1 - x) H -> G * H = PI / sin (PI * x).
Proof. intros x G H Hx HG HH. rewrite (Gam_eq x G ltac:(lra) HG), (Gam_eq (1 - x) H ltac:(lra) HH). apply Gam_reflect, Hx. Qed.

(** arguments below 1/2, in particular negative ones *)
Lemma gamma_accurate_below : forall x G, (forall k : Z, x <> IZR k) -> x < / 2 -> is_Gamma (1 - x) G ->
  Rabs (@gamma RA x - PI / (sin (PI * x) * G)) <= 12 / 10 ^ 14 * Rabs (PI / (sin (PI * x) * G)).
Proof.
  intros x G Hk Hx HG. assert (Sn := gamma_sin_nz x Hk). assert (R1 := gamma_reflect x Hk ltac:(lra)).
  assert (P2 := gamma_pos (1 - x) ltac:(lra)). assert (EG := Gam_eq (1 - x) G ltac:(lra) HG). assert (P4 := Gam_pos (1 - x) ltac:(lra)). rewrite <- EG in P4.
  assert (L := log_all (1 - x) ltac:(lra)). rewrite <- EG in L. assert (P := PI_RGT_0).
  set (s := sin (PI * x)) in *. set (g := @gamma RA (1 - x)) in *.
  assert (Ex : @gamma RA x = PI / (s * g)).
  { apply (Rmult_eq_reg_r g); [|lra]. transitivity (PI / s); [exact R1|]. field. split; lra. }
  rewrite Ex. replace (PI / (s * g) - PI / (s * G)) with (PI / (s * G) * (G / g - 1)) by (field; repeat split; lra).
  rewrite Rabs_mult, Rmult_comm. apply Rmult_le_compat_r; [apply Rabs_pos|].
  assert (Q : 0 < G / g) by (apply Rdiv_lt_0_compat; assumption).
  assert (A := acc_of_log (G / g) 1 Q ltac:(lra)). rewrite Rmult_1_r in A. apply A.
  rewrite ln_1, ln_div by assumption. rewrite Rminus_0_r, Rabs_minus_sym. exact L.
Qed.

(** ** The Laguerre rule *)
Lemma scale_acc : forall e a b v, 0 < b -> Rabs (a - b) <= e * b -> Rabs (a / b * v - v) <= e * Rabs v.
Proof.
  intros e a b v Hb H. replace (a / b * v - v) with ((a - b) / b * v) by (field; lra). rewrite Rabs_mult. apply Rmult_le_compat_r; [apply Rabs_pos|].
  unfold Rdiv. rewrite Rabs_mult, Rabs_inv, (Rabs_pos_eq b) by lra. apply (Rmult_le_reg_r b); [exact Hb|]. rewrite Rmult_assoc, Rinv_l by lra. lra.
Qed.

(** ** The Beta integral *)
Definition Bet (a b : R) : R := jacobi_L (a - 1) (b - 1) (fun _ => 1).
Lemma Bet_val : forall a b I, 0 < a -> 0 < b -> jacobi_has (jacw (a - 1) (b - 1)) I -> I = Bet a b.
Proof.
  intros a b I Ha Hb HI. symmetry. unfold Bet, jacobi_L.
  apply (wint_val unit_open _ _ unit_convex unit_a unit_b (jacw (a - 1) (b - 1)) (jacw_cont (a - 1) (b - 1)) 0 (fun _ => 1)); [apply poly_const|].
  apply (has_int_ext _ _ _ (jacw (a - 1) (b - 1))); [intros; ring|exact HI].
Qed.
Lemma Bet_has : forall a b, 0 < a -> 0 < b -> jacobi_has (jacw (a - 1) (b - 1)) (Bet a b).
Proof.
  intros a b Ha Hb. destruct (jacw_mass (a - 1) (b - 1) ltac:(lra) ltac:(lra)) as [I HI]. rewrite <- (Bet_val a b I Ha Hb HI). exact HI.
Qed.
Lemma Bet_pos : forall a b, 0 < a -> 0 < b -> 0 < Bet a b.
Proof. intros a b Ha Hb. apply (jacw_mass_pos (a - 1) (b - 1)), Bet_has; assumption. Qed.
Lemma jacw_S : forall a b x, unit_open x -> jacw (a + 1 - 1) (b - 1) x = (1 - x) * jacw (a - 1) (b - 1) x.
Proof.
  intros a b x [H1 H2]. unfold jacw. replace (a + 1 - 1) with (a - 1 + 1) by ring. rewrite Rpower_step by lra. ring.
Qed.
Lemma Bet_S : forall a b, 0 < a -> 0 < b -> Bet (a + 1) b = 2 * a / (a + b) * Bet a b.
Proof.
  intros a b Ha Hb. symmetry. apply Bet_val; [lra|exact Hb|].
  assert (H := jac_step (a - 1) (b - 1) ltac:(lra) ltac:(lra) 0). assert (H0 := Bet_has a b Ha Hb).
  set (c := a + b). assert (Hc : 0 < c) by (unfold c; lra).
  assert (K := has_int_lin _ _ _ (2 * a / c) (/ c) _ _ _ _ H0 H). fold jacobi_has in K.
  replace (2 * a / c * Bet a b) with (2 * a / c * Bet a b + / c * (0 - 0)) by ring.
  revert K. apply has_int_ext. intros x Hx. rewrite jacw_S by exact Hx. simpl. unfold c. field. lra.
Qed.
Lemma Bet_1 : forall b, 0 < b -> Bet 1 b = Rpower 2 b / b.
Proof.
  intros b Hb. symmetry. apply Bet_val; [lra|exact Hb|].
  assert (H : jacobi_has (fun x => Rpower (1 + x) (b - 1)) (Rpower 2 b / b - 0)).
  { apply (has_int_derive _ _ _ (fun x => / b * Rpower (1 + x) b)).
    - intros x [H1 H2]. apply (is_derive_val _ _ (/ b * (1 * (b * Rpower (1 + x) (b - 1))))); [field; lra|].
      apply (is_derive_scal (fun y => Rpower (1 + y) b)).
      apply (is_derive_comp (K := R_AbsRing) (V := R_NormedModule) (fun y => Rpower y b) (fun y => 1 + y) x (b * Rpower (1 + x) (b - 1)) 1).
      + apply Rpower_der. lra.
      + auto_derive; [trivial|ring].
    - replace 0 with (/ b * 0) by ring. apply lim_scal; [apply filter_filter|].
      apply (filterlim_comp R R R (fun x => 1 + x) (fun y => Rpower y b) (at_right (-1)) (at_right 0)); [exact lim_one_plus|]. apply Rpower_lim0. lra.
    - replace (Rpower 2 b / b) with (/ b * Rpower (1 + 1) b) by (replace (1 + 1) with 2 by ring; unfold Rdiv; ring).
      apply (cont_left (fun x => / b * Rpower (1 + x) b) 1). apply (ex_derive_continuous (V := R_NormedModule)). unfold Rpower. auto_derive. lra. }
  rewrite Rminus_0_r in H. revert H. apply has_int_ext. intros x [H1 H2]. unfold jacw. replace (1 - 1) with 0 by ring. rewrite Rpower_O by lra. ring.
Qed.
Lemma unit_nonneg : forall f I, (forall t, unit_open t -> 0 <= f t) -> (forall t, unit_open t -> continuous f t) -> jacobi_has f I -> 0 <= I.
Proof.
  intros f I Hf Cf HI. apply Rnot_lt_le. intros N.
  assert (B1 := Bet_pos 1 1 ltac:(lra) ltac:(lra)).
  assert (P : forall d, 0 < d -> 0 < 1 * I + d * Bet 1 1).
  { intros d Hd.
    assert (J : forall t, 0 < d * jacw (1 - 1) (1 - 1) t) by (intros t; apply Rmult_lt_0_compat; [exact Hd|apply jacw_pos]).
    apply (int_pos unit_open _ _ unit_convex unit_is_open unit_cof_a unit_cof_b (fun t => 1 * f t + d * jacw (1 - 1) (1 - 1) t) _ 0).
    - unfold unit_open; lra.
    - intros t Ht. specialize (J t). specialize (Hf t Ht). lra.
    - intros t Ht. apply (continuous_plus (V := R_NormedModule) (fun t => 1 * f t) (fun t => d * jacw (1 - 1) (1 - 1) t)).
      + apply (continuous_ext f); [intros; rewrite Rmult_1_l; reflexivity|apply Cf, Ht].
      + apply (continuous_scal_r (V := R_NormedModule) d (jacw (1 - 1) (1 - 1))). apply jacw_cont, Ht.
    - specialize (J 0). assert (Z := Hf 0 ltac:(unfold unit_open; lra)). lra.
    - apply (has_int_lin _ _ _ 1 d); [exact HI|apply Bet_has; lra]. }
  specialize (P (- I / (2 * Bet 1 1)) ltac:(apply Rdiv_lt_0_compat; lra)).
  replace (- I / (2 * Bet 1 1) * Bet 1 1) with (- I / 2) in P by (field; lra). lra.
Qed.
Lemma Bet_young : forall a b s, 0 < a -> 0 < b -> 0 <= s <= 1 -> Bet (a + s) b <= Rpower (2 * a / (a + b)) s * Bet a b.
Proof.
  intros a b s Ha Hb Hs. set (m := 2 * a / (a + b)). assert (Hm : 0 < m) by (unfold m; apply Rdiv_lt_0_compat; lra). set (c := Rpower m s).
  assert (H := has_int_lin _ _ _ (c * (1 - s)) (c * s / m) _ _ _ _ (Bet_has a b Ha Hb) (Bet_has (a + 1) b ltac:(lra) Hb)).
  assert (H2 := has_int_lin _ _ _ 1 (-1) _ _ _ _ H (Bet_has (a + s) b ltac:(lra) Hb)). cbv beta in H2.
  apply unit_nonneg in H2.
  - rewrite Bet_S in H2 by assumption. fold m in H2.
    assert (E : c * (1 - s) * Bet a b + c * s / m * (m * Bet a b) = c * Bet a b) by (field; lra). rewrite E in H2. lra.
  - intros t Ht. rewrite jacw_S by exact Ht. destruct Ht as [H1 H3].
    assert (Y := young (1 - t) m s ltac:(lra) Hm Hs). fold c in Y.
    assert (W : jacw (a + s - 1) (b - 1) t = Rpower (1 - t) s * jacw (a - 1) (b - 1) t).
    { unfold jacw. replace (a + s - 1) with (s + (a - 1)) by ring. rewrite Rpower_plus. ring. }
    rewrite W. assert (J := jacw_pos (a - 1) (b - 1) t). set (w := jacw (a - 1) (b - 1) t) in *.
    replace (1 * (c * (1 - s) * w + c * s / m * ((1 - t) * w)) + -1 * (Rpower (1 - t) s * w)) with (w * (c * (1 - s + s * ((1 - t) / m)) - Rpower (1 - t) s)) by (field; lra).
    apply Rmult_le_pos; lra.
  - intros t [H1 H3]. apply (ex_derive_continuous (V := R_NormedModule)). unfold jacw, Rpower. auto_derive. repeat split; lra.
Qed.
Definition lB (a b : R) : R := ln (Bet a b).
Lemma lB_growth : forall a b s, 0 < a -> 0 < b -> 0 <= s <= 1 -> - (b / a) <= lB (a + s) b - lB a b - s * ln 2 <= 0.
Proof.
  intros a b s Ha Hb Hs. unfold lB.
  assert (P1 := Bet_pos a b Ha Hb). assert (P2 := Bet_pos (a + s) b ltac:(lra) Hb).
  assert (Lm : forall u, 0 < u -> ln (2 * u / (u + b)) = ln 2 + ln u - ln (u + b)) by (intros u Hu; rewrite ln_div, ln_mult by lra; reflexivity).
  assert (E : forall u p, ln (Rpower u p) = p * ln u) by (intros; unfold Rpower; apply ln_exp).
  assert (Y1 := Bet_young a b s Ha Hb Hs). apply ln_le in Y1; [|exact P2]. rewrite ln_mult, E, Lm in Y1 by (try assumption; apply exp_pos).
  assert (Y2 := Bet_young (a + s) b (1 - s) ltac:(lra) Hb ltac:(lra)). replace (a + s + (1 - s)) with (a + 1) in Y2 by ring.
  rewrite Bet_S in Y2 by assumption. apply ln_le in Y2; [|apply Rmult_lt_0_compat; [apply Rdiv_lt_0_compat; lra|exact P1]].
  rewrite !ln_mult, E, !Lm in Y2 by (try assumption; try apply exp_pos; try (apply Rdiv_lt_0_compat); lra).
  assert (A := ln_sub_bound a (a + b) Ha ltac:(lra)). replace (a + b - a) with b in A by ring.
  assert (B := ln_sub_bound (a + s) (a + s + b) ltac:(lra) ltac:(lra)).
  set (p := ln (a + b) - ln a) in *. set (q := ln (a + s + b) - ln (a + s)) in *.
  assert (Hq : 0 <= (1 - s) * q) by (apply Rmult_le_pos; lra). assert (Hp : 0 <= s * p) by (apply Rmult_le_pos; lra).
  replace (ln (a + s) + ln 2 - ln (a + s + b)) with (ln 2 - q) in * by (unfold q; ring).
  assert (Y1' : ln (Bet (a + s) b) <= s * (ln 2 - p) + ln (Bet a b)) by (unfold p; lra).
  assert (Y2' : ln 2 - p + ln (Bet a b) <= (1 - s) * (ln 2 - q) + ln (Bet (a + s) b)) by (unfold p, q; lra).
  lra.
Qed.
Theorem Bet_Gam : forall a b, 0 < a -> 0 < b -> lB a b = lg a + lg b - lg (a + b) + (a + b - 1) * ln 2.
Proof.
  intros a b Ha Hb.
  set (f := fun a => lB a b + lg (a + b) - lg a - a * ln 2).
  assert (Cst : forall x x', 0 < x -> 0 < x' -> f x = f x').
  { apply (const_of_slow f (2 * b + 2)).
    - intros x Hx. unfold f, lB. rewrite Bet_S by assumption. replace (x + 1 + b) with (x + b + 1) by ring. rewrite !lg_S by lra.
      rewrite ln_mult, ln_div, ln_mult by (try (apply Rdiv_lt_0_compat); try apply Bet_pos; lra). ring.
    - intros u s Hu Hs. assert (G1 := lg_growth (u + b) s ltac:(lra) Hs). assert (G2 := lg_growth u s ltac:(lra) Hs). assert (G3 := lB_growth u b s ltac:(lra) Hb Hs).
      assert (I1 : / (u + b) <= / u) by (apply Rinv_le_contravar; lra).
      assert (A := ln_sub_bound u (u + b) ltac:(lra) ltac:(lra)). replace (u + b - u) with b in A by ring.
      assert (H : 0 <= s * (ln (u + b) - ln u) <= b / u).
      { split; [apply Rmult_le_pos; lra|]. apply Rle_trans with (1 * (b / u)); [apply Rmult_le_compat; lra|lra]. }
      apply abs_bet in G1, G2. unfold f. replace (u + s + b) with (u + b + s) by ring. unfold Rdiv in *. apply Rabs_le. lra. }
  assert (E := Cst a 1 Ha ltac:(lra)). unfold f in E.
  assert (L1 : lB 1 b = b * ln 2 - ln b).
  { unfold lB. rewrite Bet_1 by exact Hb. rewrite ln_div by (try apply exp_pos; lra). unfold Rpower. rewrite ln_exp. reflexivity. }
  assert (L2 : lg 1 = 0) by (unfold lg; rewrite Gam_1; apply ln_1).
  rewrite L1, L2 in E. replace (1 + b) with (b + 1) in E by ring. rewrite lg_S in E by exact Hb. lra.
Qed.
Lemma jacobi_mass_true : forall al be M A B C, -1 < al -> -1 < be -> jacobi_integral al be (fun _ => 1) M ->
  is_Gamma (al + 1) A -> is_Gamma (be + 1) B -> is_Gamma (al + be + 2) C -> M = Rpower 2 (al + be + 1) * A * B / C.
Proof.
  intros al be M A B C Hal Hbe HM HA HB HC.
  assert (EM : M = Bet (al + 1) (be + 1)).
  { unfold Bet. symmetry. apply is_RInt_gen_unique. replace (al + 1 - 1) with al by ring. replace (be + 1 - 1) with be by ring. exact HM. }
  rewrite (Gam_eq (al + 1) A ltac:(lra) HA), (Gam_eq (be + 1) B ltac:(lra) HB), (Gam_eq (al + be + 2) C ltac:(lra) HC).
  assert (P1 := Gam_pos (al + 1) ltac:(lra)). assert (P2 := Gam_pos (be + 1) ltac:(lra)). assert (P3 := Gam_pos (al + be + 2) ltac:(lra)).
  assert (P0 : 0 < Rpower 2 (al + be + 1)) by apply exp_pos.
  rewrite EM. apply ln_inv; [apply Bet_pos; lra|apply Rdiv_lt_0_compat; [apply Rmult_lt_0_compat; [apply Rmult_lt_0_compat|]|]; assumption|].
  assert (K := Bet_Gam (al + 1) (be + 1) ltac:(lra) ltac:(lra)). unfold lB, lg in K.
  replace (al + 1 + (be + 1)) with (al + be + 2) in K by ring. replace (al + be + 2 - 1) with (al + be + 1) in K by ring.
  rewrite ln_div, !ln_mult by (repeat apply Rmult_lt_0_compat; assumption). unfold Rpower at 1. rewrite ln_exp. lra.
Qed.

(** ** The scale factors of the Jacobi rules *)
Lemma log_shift : forall s, -1 < s -> s <> 0 -> 0 < @gamma RA s * s /\ Rabs (ln (@gamma RA s * s) - ln (Gam (s + 1))) <= 1195 / 10 ^ 16.
Proof.
  intros s H1 H0. destruct (Rlt_or_le 0 s) as [P|P].
  - assert (G := gamma_pos s P). split; [apply Rmult_lt_0_compat; assumption|].
    rewrite Gam_S, !ln_mult by (try apply Gam_pos; assumption).
    replace (ln (@gamma RA s) + ln s - (ln s + ln (Gam s))) with (ln (@gamma RA s) - ln (Gam s)) by ring. apply log_all, P.
  - assert (Hs : -1 < s < 0) by lra. assert (G := gamma_neg s Hs). assert (Q : 0 < @gamma RA s * s) by (assert (0 < (- @gamma RA s) * (- s)) by (apply Rmult_lt_0_compat; lra); lra).
    split; [exact Q|].
    assert (R1 := gamma_reflect s (frac_not_int s (-1) ltac:(lra)) ltac:(lra)). assert (R2 := Gam_reflect (s + 1) ltac:(lra)).
    replace (1 - (s + 1)) with (- s) in R2 by ring.
    replace (PI * (s + 1)) with (PI * s + PI) in R2 by ring. rewrite neg_sin in R2.
    assert (Sn : sin (PI * s) <> 0) by (apply gamma_sin_nz, (frac_not_int s (-1)); lra).
    assert (P2 := gamma_pos (1 - s) ltac:(lra)). assert (P3 := Gam_pos (s + 1) ltac:(lra)). assert (P4 := Gam_pos (1 - s) ltac:(lra)).
    assert (E1 : Gam (1 - s) = - s * Gam (- s)) by (replace (1 - s) with (- s + 1) by ring; apply Gam_S; lra).
    assert (E : @gamma RA s * s * @gamma RA (1 - s) = Gam (s + 1) * Gam (1 - s)).
    { rewrite E1. replace (Gam (s + 1) * (- s * Gam (- s))) with (- s * (Gam (s + 1) * Gam (- s))) by ring. rewrite R2.
      replace (@gamma RA s * s * @gamma RA (1 - s)) with (s * (@gamma RA s * @gamma RA (1 - s))) by ring. rewrite R1. field. exact Sn. }
    assert (P6 := ln_mult (@gamma RA s * s) (@gamma RA (1 - s)) Q P2). assert (P7 := ln_mult (Gam (s + 1)) (Gam (1 - s)) P3 P4).
    rewrite E, P7 in P6.
    assert (Ll : ln (@gamma RA s * s) - ln (Gam (s + 1)) = - (ln (@gamma RA (1 - s)) - ln (Gam (1 - s)))) by lra.
    rewrite Ll, Rabs_Ropp. apply log_all. lra.
Qed.
Lemma true_mass_ln : forall al be M, -1 < al -> -1 < be -> jacobi_integral al be (fun _ => 1) M ->
  0 < M /\ ln M = (al + be + 1) * ln 2 + ln (Gam (al + 1)) + ln (Gam (be + 1)) - ln (Gam (al + be + 2)).
Proof.
  intros al be M Hal Hbe HM.
  assert (EM : M = Bet (al + 1) (be + 1)).
  { unfold Bet. symmetry. apply is_RInt_gen_unique. replace (al + 1 - 1) with al by ring. replace (be + 1 - 1) with be by ring. exact HM. }
  rewrite EM. split; [apply Bet_pos; lra|]. assert (K := Bet_Gam (al + 1) (be + 1) ltac:(lra) ltac:(lra)). unfold lB, lg in K.
  replace (al + 1 + (be + 1)) with (al + be + 2) in K by ring. replace (al + be + 2 - 1) with (al + be + 1) in K by ring. lra.
Qed.
Lemma jacobi_mass_accurate : forall al be M, -1 < al -> -1 < be -> al + be <> -1 -> jacobi_integral al be (fun _ => 1) M ->
  0 < M /\ Rabs (jacobi_mass al be - M) <= 36 / 10 ^ 14 * M.
Proof.
  intros al be M Hal Hbe Hs HM. destruct (true_mass_ln al be M Hal Hbe HM) as [PM EM]. split; [exact PM|].
  assert (L1 := log_all (al + 1) ltac:(lra)). assert (L2 := log_all (be + 1) ltac:(lra)). destruct (log_shift (al + be + 1) ltac:(lra) ltac:(lra)) as [P3 L3].
  assert (P1 := gamma_pos (al + 1) ltac:(lra)). assert (P2 := gamma_pos (be + 1) ltac:(lra)).
  replace (al + be + 1 + 1) with (al + be + 2) in L3 by ring.
  assert (P0 : 0 < Rpower 2 (al + be + 1)) by apply exp_pos.
  assert (E : jacobi_mass al be = Rpower 2 (al + be + 1) * @gamma RA (al + 1) * @gamma RA (be + 1) / (@gamma RA (al + be + 1) * (al + be + 1))).
  { unfold jacobi_mass. field. split; [lra|]. intros Z. rewrite Z in P3. lra. }
  assert (PJ : 0 < jacobi_mass al be) by (rewrite E; apply Rdiv_lt_0_compat; [apply Rmult_lt_0_compat; [apply Rmult_lt_0_compat|]|]; assumption).
  apply acc_of_log3; [exact PJ|exact PM|].
  rewrite E, EM. clear E. set (p := @gamma RA (al + be + 1) * (al + be + 1)) in *. clearbody p.
  set (q := @gamma RA (al + 1)) in *. set (r := @gamma RA (be + 1)) in *. clearbody q r.
  rewrite ln_div, !ln_mult by (try assumption; repeat apply Rmult_lt_0_compat; assumption). unfold Rpower at 1. rewrite ln_exp.
  apply abs_bet in L1, L2, L3. apply Rabs_le. split; lra.
Qed.
Lemma jacobi_mass1_accurate : forall al be M, -1 < al -> -1 < be -> jacobi_integral al be (fun _ => 1) M ->
  0 < M /\ Rabs (jacobi_mass1 al be - M) <= 36 / 10 ^ 14 * M.
Proof.
  intros al be M Hal Hbe HM. destruct (true_mass_ln al be M Hal Hbe HM) as [PM EM]. split; [exact PM|].
  assert (L1 := log_all (al + 1) ltac:(lra)). assert (L2 := log_all (be + 1) ltac:(lra)). assert (L3 := log_all (al + be + 2) ltac:(lra)).
  assert (P1 := gamma_pos (al + 1) ltac:(lra)). assert (P2 := gamma_pos (be + 1) ltac:(lra)). assert (P3 := gamma_pos (al + be + 2) ltac:(lra)).
  assert (P0 : 0 < Rpower 2 (al + be + 1)) by apply exp_pos.
  assert (PJ : 0 < jacobi_mass1 al be) by (unfold jacobi_mass1; apply Rdiv_lt_0_compat; [apply Rmult_lt_0_compat; [apply Rmult_lt_0_compat|]|]; assumption).
  apply acc_of_log3; [exact PJ|exact PM|].
  unfold jacobi_mass1. set (q := @gamma RA (al + 1)) in *. set (r := @gamma RA (be + 1)) in *. set (p := @gamma RA (al + be + 2)) in *. clearbody p q r.
  rewrite EM, ln_div, !ln_mult by (try assumption; repeat apply Rmult_lt_0_compat; assumption). unfold Rpower at 1. rewrite ln_exp.
  apply abs_bet in L1, L2, L3. apply Rabs_le. split; lra.
Qed.
