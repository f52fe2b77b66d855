(** Convergence of the Gauss rules on bounded intervals for integrands with singular end points. *)
From Coq Require Import Reals Lra Lia List Arith ZArith FunctionalExtensionality.
From Coquelicot Require Import Coquelicot.
From Verif Require Import Arith RInst Machine Param Rules GolubWelsch Jacobi Chebyshev RSum PolySpec PolyProof Improper ImproperExist Gaussian JacobiWeight
  WeightSpec MassSpec EigenSpec GWSpec EigenProof RuleSpec ErrorSpec GaussErr ErrRules GaussProof GaussExact JacobiMore GammaProof TransferSpec TransferProof ChebSpec ChebExact ChebRule ErrCheb ErrConv ErrLimit
  ConvAbs ConvGen GaussSide Delegate ExpConv SingularSpec.
Import ListNotations.
Local Open Scope R_scope.

(** ** the majorant (1-x)^-k + (1+x)^-l and its derivatives *)
Fixpoint climb (k : R) (j : nat) : R := match j with O => 1 | S i => climb k i * (k + INR i) end.
Lemma climb_pos : forall k j, 0 <= k -> 0 <= climb k j.
Proof. intros k j Hk. induction j as [|j IH]; simpl; [lra|]. apply Rmult_le_pos; [exact IH|]. assert (A := pos_INR j). lra. Qed.
Definition ends (k l : R) (j : nat) (x : R) : R :=
  climb k j * Rpower (1 - x) (- (k + INR j)) + (-1) ^ j * climb l j * Rpower (1 + x) (- (l + INR j)).
Lemma power_step : forall y p j, 0 < y -> Rpower y (- (p + INR (S j))) = Rpower y (- (p + INR j)) / y.
Proof.
  intros y p j Hy. rewrite S_INR. replace (- (p + (INR j + 1))) with (- (p + INR j) + Ropp 1) by ring.
  rewrite Rpower_plus, (Rpower_Ropp y 1), Rpower_1 by exact Hy. reflexivity.
Qed.
Lemma ends_der : forall k l m, has_derivatives unit_open m (ends k l).
Proof.
  intros k l m j x _ [H1 H2].
  assert (E : ends k l (S j) x = climb k j * (k + INR j) * (Rpower (1 - x) (- (k + INR j)) / (1 - x)) + - ((-1) ^ j * climb l j * (l + INR j)) * (Rpower (1 + x) (- (l + INR j)) / (1 + x))).
  { unfold ends. rewrite !power_step by lra. cbn [climb pow]. field. lra. }
  rewrite E. unfold ends, Rpower. generalize (INR j) (climb k j) (climb l j) ((-1) ^ j). intros i u v s. auto_derive; [repeat split; lra|].
  replace (1 + - x) with (1 - x) by ring. generalize (exp (- (k + i) * ln (1 - x))) (exp (- (l + i) * ln (1 + x))). intros X Y. field. lra.
Qed.
Lemma even_sign : forall m, (-1) ^ (2 * m) = 1.
Proof. intros m. rewrite pow_mult. replace ((-1) ^ 2) with 1 by ring. apply pow1. Qed.
Lemma ends_even : forall k l m x, 0 <= k -> 0 <= l -> 0 <= ends k l (2 * m) x.
Proof.
  intros k l m x Hk Hl. unfold ends. rewrite even_sign, Rmult_1_l.
  apply Rplus_le_le_0_compat; (apply Rmult_le_pos; [apply climb_pos; assumption|left; apply exp_pos]).
Qed.
Lemma ends_0 : forall k l x, ends k l 0 x = Rpower (1 - x) (- k) + Rpower (1 + x) (- l).
Proof. intros k l x. unfold ends. cbn [climb pow INR]. rewrite !Rplus_0_r. ring. Qed.

(** ** the core on (-1,1) *)
Section Core.
Variables (w : R -> R) (al be : R).
Hypothesis w_jac : forall x, unit_open x -> w x = jacw al be x.
Hypothesis w_cont : forall x, unit_open x -> continuous w x.
Definition J (f : R -> R) (v : R) : Prop := is_RInt_gen (fun x => w x * f x) (at_right (-1)) (at_left 1) v.
Lemma w_nonneg : forall x, unit_open x -> 0 <= w x.
Proof. intros x Hx. rewrite w_jac by exact Hx. left. apply Rmult_lt_0_compat; apply exp_pos. Qed.

Lemma singular_int : forall c d g C, c < al + 1 -> d < be + 1 -> 0 <= c -> 0 <= d -> (forall x, unit_open x -> continuous g x) ->
  (forall x, unit_open x -> Rabs (g x) <= C * (Rpower (1 - x) (- c) + Rpower (1 + x) (- d))) -> exists v, J g v.
Proof.
  intros c d g C Hc Hd Hc0 Hd0 Hg Hb. destruct (jacw_moments (al - c) (be - d) ltac:(lra) ltac:(lra) 0) as [W HW].
  assert (HW' : has_int unit_open (at_right (-1)) (at_left 1) (jacw (al - c) (be - d)) W) by (refine (has_int_ext _ _ _ _ _ W _ HW); intros; simpl; ring).
  assert (C0 : 0 <= C).
  { assert (A := Hb 0 ltac:(unfold unit_open; lra)). assert (B := Rabs_pos (g 0)). assert (P1 := exp_pos (- c * ln (1 - 0))). assert (P2 := exp_pos (- d * ln (1 + 0))).
    unfold Rpower in A. apply Rnot_lt_le. intros N. nra. }
  assert (UP : forall y p, 0 < y <= 2 -> 0 <= p -> Rpower y p <= Rpower 2 p) by (intros y p Hy Hp; apply Rle_Rpower_l; lra).
  destruct (continuous_int unit_open (at_right (-1)) (at_left 1) unit_convex unit_is_open unit_cof_a unit_cof_b
    (jacw (al - c) (be - d)) (fun x => jacw c d x * g x) W (C * (Rpower 2 d + Rpower 2 c)) 0) as [v Hv].
  - intros x _. left. apply Rmult_lt_0_compat; apply exp_pos.
  - apply jacw_cont.
  - exact HW'.
  - intros x Hx. apply cont_mult; [apply jacw_cont, Hx|apply Hg, Hx].
  - intros x Hx. assert (B := Hb x Hx). destruct Hx as [H1 H2].
    assert (E1 : Rpower (1 - x) c * Rpower (1 - x) (- c) = 1) by (rewrite <- Rpower_plus, Rplus_opp_r; apply Rpower_O; lra).
    assert (E2 : Rpower (1 + x) d * Rpower (1 + x) (- d) = 1) by (rewrite <- Rpower_plus, Rplus_opp_r; apply Rpower_O; lra).
    assert (U1 := UP (1 - x) c ltac:(lra) Hc0). assert (U2 := UP (1 + x) d ltac:(lra) Hd0).
    assert (P1 : 0 < Rpower (1 - x) c) by apply exp_pos. assert (P2 : 0 < Rpower (1 + x) d) by apply exp_pos.
    unfold jacw. rewrite Rabs_mult, Rabs_pos_eq by (apply Rmult_le_pos; lra).
    eapply Rle_trans; [apply Rmult_le_compat_l; [apply Rmult_le_pos; lra|exact B]|].
    replace (Rpower (1 - x) c * Rpower (1 + x) d * (C * (Rpower (1 - x) (- c) + Rpower (1 + x) (- d)))) with
      (C * (Rpower (1 + x) d * (Rpower (1 - x) c * Rpower (1 - x) (- c)) + Rpower (1 - x) c * (Rpower (1 + x) d * Rpower (1 + x) (- d)))) by ring.
    rewrite E1, E2, !Rmult_1_r. apply Rmult_le_compat_l; lra.
  - unfold unit_open. lra.
  - exists v. apply (has_int_gen unit_open _ _ unit_convex unit_a unit_b (fun x => w x * g x)).
    + intros x Hx. apply cont_mult; [apply w_cont, Hx|apply Hg, Hx].
    + refine (has_int_ext _ _ _ _ _ v _ Hv). intros x Hx. cbv beta. rewrite w_jac by exact Hx. destruct Hx as [H1 H2]. unfold jacw.
      replace (Rpower (1 - x) al) with (Rpower (1 - x) (al - c) * Rpower (1 - x) c) by (rewrite <- Rpower_plus; f_equal; ring).
      replace (Rpower (1 + x) be) with (Rpower (1 + x) (be - d) * Rpower (1 + x) d) by (rewrite <- Rpower_plus; f_equal; ring). ring.
Qed.

Lemma edge : forall c k e Y L, e <= k - c -> 0 <= e -> 0 <= Y -> L <= - Y -> exp (- c * L) <= exp (- (e * Y)) * exp (- k * L).
Proof. intros c k e Y L H1 H2 H3 H4. rewrite <- exp_plus. apply exp_le. assert ((k - c) * L <= (k - c) * - Y) by (apply Rmult_le_compat_l; lra). assert (e * Y <= (k - c) * Y) by (apply Rmult_le_compat_r; lra). lra. Qed.
Lemma power_small : forall p y, 0 <= p -> 1 <= y -> Rpower y (- p) <= 1.
Proof. intros p y Hp Hy. unfold Rpower. rewrite <- exp_0. apply exp_le. assert (A : 0 <= ln y) by (rewrite <- ln_1; destruct Hy as [Hy| <-]; [left; apply ln_increasing; lra|lra]). nra. Qed.
Lemma ln_le : forall x y, 0 < x -> x <= y -> ln x <= ln y.
Proof. intros x y Hx [H| ->]; [left; apply ln_increasing; assumption|lra]. Qed.

(** one end: y is the distance from the end, h the distance of the truncation point *)
Lemma edge_bound : forall (u v C c d k e Y y z z' : R), 0 <= C -> 0 <= c -> 0 <= d -> e <= k - c -> 0 <= e -> 0 <= Y -> 0 < y -> y <= exp (- Y) -> 1 <= z -> 1 <= z' ->
  Rabs u <= C * (Rpower y (- c) + Rpower z (- d)) -> Rabs v <= C * (Rpower (exp (- Y)) (- c) + Rpower z' (- d)) ->
  Rabs (u - v) <= 4 * C * exp (- (e * Y)) * Rpower y (- k).
Proof.
  intros u v C c d k e Y y z z' HC Hc Hd He He0 HY Hy Hyh Hz Hz' Hu Hv.
  assert (Ly : ln y <= - Y) by (rewrite <- (ln_exp (- Y)); apply ln_le; assumption).
  assert (Z1 := power_small d z Hd Hz). assert (Z2 := power_small d z' Hd Hz').
  assert (O : 1 <= Rpower y (- c)) by (unfold Rpower; rewrite <- exp_0 at 1; apply exp_le; nra).
  assert (M : Rpower (exp (- Y)) (- c) <= Rpower y (- c)) by (unfold Rpower; rewrite ln_exp; apply exp_le; nra).
  assert (E := edge c k e Y (ln y) He He0 HY Ly). fold (Rpower y (- c)) in E. fold (Rpower y (- k)) in E.
  unfold Rminus. eapply Rle_trans; [apply Rabs_triang|]. rewrite Rabs_Ropp.
  apply Rle_trans with (4 * C * Rpower y (- c)).
  - assert (A : C * (Rpower y (- c) + Rpower z (- d)) <= C * (2 * Rpower y (- c))) by (apply Rmult_le_compat_l; lra).
    assert (B : C * (Rpower (exp (- Y)) (- c) + Rpower z' (- d)) <= C * (2 * Rpower y (- c))) by (apply Rmult_le_compat_l; lra). lra.
  - rewrite (Rmult_assoc (4 * C)). apply Rmult_le_compat_l; [lra|exact E].
Qed.

Variables (rule : Z -> list (R * R) -> Prop) (q : R).
Hypothesis q_pos : 0 <= q.
Hypothesis rule_in : forall n l, rule n l -> List.Forall (fun xw : R * R => -1 < fst xw < 1 /\ 0 < snd xw) l.
Hypothesis rule_side : forall n l, rule n l -> forall F V, has_derivatives unit_open (2 * Z.to_nat n) F -> J (F O) V ->
  (forall x, unit_open x -> 0 <= F (2 * Z.to_nat n)%nat x) -> apply_rule l (F O) <= q * V.
Hypothesis rule_conv : forall h, continuous_on (-1) 1 h -> exists v, J h v /\
  forall eps, 0 < eps -> exists N, forall n l, (N <= n)%Z -> rule n l -> Rabs (apply_rule l h - q * v) <= eps.

Theorem singular_core : forall c d g C, c < al + 1 -> d < be + 1 -> 0 <= c -> 0 <= d -> (forall x, unit_open x -> continuous g x) ->
  (forall x, unit_open x -> Rabs (g x) <= C * (Rpower (1 - x) (- c) + Rpower (1 + x) (- d))) ->
  exists v, J g v /\ forall eps, 0 < eps -> exists N, forall n l, (N <= n)%Z -> rule n l -> Rabs (apply_rule l g - q * v) <= eps.
Proof.
  intros c d g C Hc Hd Hc0 Hd0 Hg Hb. destruct (singular_int c d g C Hc Hd Hc0 Hd0 Hg Hb) as [v Hv]. exists v. split; [exact Hv|]. intros eps He.
  assert (C0 : 0 <= C).
  { assert (A := Hb 0 ltac:(unfold unit_open; lra)). assert (B := Rabs_pos (g 0)). assert (P1 := exp_pos (- c * ln (1 - 0))). assert (P2 := exp_pos (- d * ln (1 + 0))).
    unfold Rpower in A. apply Rnot_lt_le. intros N. nra. }
  set (k := (c + al + 1) / 2). set (l := (d + be + 1) / 2). assert (Hk : c < k < al + 1) by (unfold k; lra). assert (Hl : d < l < be + 1) by (unfold l; lra).
  set (e := Rmin (k - c) (l - d)). assert (E0 : 0 < e) by (apply Rmin_pos; lra). assert (E1 : e <= k - c) by apply Rmin_l. assert (E2 : e <= l - d) by apply Rmin_r.
  set (Phi := ends k l 0).
  assert (Ph : forall x, Phi x = Rpower (1 - x) (- k) + Rpower (1 + x) (- l)) by apply ends_0.
  assert (Pp : forall x, 0 <= Phi x) by (intros x; apply (ends_even k l 0); lra).
  destruct (singular_int k l Phi 1) as [V HV]; [lra|lra|lra|lra| | |].
  { intros x Hx. apply (ex_derive_continuous (V := R_NormedModule)). eexists. apply (ends_der k l 1 0%nat x); [lia|exact Hx]. }
  { intros x _. rewrite Rabs_pos_eq by apply Pp. rewrite Ph. lra. }
  assert (JL := J_lin (at_right (-1)) (at_left 1) w).
  assert (JE := J_le unit_open (at_right (-1)) (at_left 1) (conv_of _ unit_convex) unit_a unit_b le_unit w w_nonneg).
  assert (V0 : 0 <= V).
  { apply (J_nonneg unit_open (at_right (-1)) (at_left 1) (conv_of _ unit_convex) unit_a unit_b le_unit w w_nonneg Phi V); [intros x _; apply Pp|exact HV]. }
  assert (QV : 0 <= q * V) by (apply Rmult_le_pos; assumption).
  destruct (exp_decay (4 * C * (q * V)) (eps / 3) e) as (Y & Y0 & HY); [apply Rmult_le_pos; lra|lra|exact E0|].
  set (h := exp (- Y)). assert (h0 : 0 < h) by apply exp_pos. assert (h1 : h <= 1) by (unfold h; rewrite <- exp_0; apply exp_le; lra).
  set (lo := -1 + h). set (hi := 1 - h). assert (LH : lo <= hi) by (unfold lo, hi; lra).
  set (gX := fun x => g (clamp lo hi x)).
  assert (Cin : forall x, unit_open (clamp lo hi x)) by (intros x; assert (A := proj1 (clamp_cases lo hi x LH)); unfold unit_open, lo, hi in *; lra).
  assert (XC : continuous_on (-1) 1 gX).
  { intros x _ ep Hep. assert (Cc : continuity_pt gX x) by (apply continuity_pt_filterlim, (continuous_comp (clamp lo hi) g); [apply clamp_cont, LH|apply Hg, Cin]).
    destruct (Cc ep Hep) as (dl & Hdl & G). exists dl. split; [exact Hdl|]. intros y _ L. destruct (Req_dec x y) as [<-|N].
    - rewrite Rminus_diag_eq, Rabs_R0 by reflexivity. exact Hep.
    - apply G. split; [split; [exact I|exact N]|exact L]. }
  set (de := 4 * C * exp (- (e * Y))). assert (D0 : 0 <= de) by (apply Rmult_le_pos; [lra|left; apply exp_pos]).
  assert (DV : de * (q * V) <= eps / 3) by (unfold de; lra).
  assert (DD : forall x, unit_open x -> Rabs (g x - gX x) <= de * Phi x).
  { intros x Hx. assert (Bx := Hb x Hx). destruct Hx as [H1 H2]. rewrite Ph.
    assert (P1 : 0 < Rpower (1 - x) (- k)) by apply exp_pos. assert (P2 : 0 < Rpower (1 + x) (- l)) by apply exp_pos.
    destruct (clamp_cases lo hi x LH) as (_ & [[_ Ex]|[[O Ex]|[O Ex]]]).
    - unfold gX. rewrite Ex, Rminus_diag_eq, Rabs_R0 by reflexivity. apply Rmult_le_pos; lra.
    - apply Rle_trans with (de * Rpower (1 + x) (- l)); [|apply Rmult_le_compat_l; lra]. unfold lo in O.
      assert (By := Hb lo ltac:(rewrite <- Ex; apply Cin)). unfold gX. rewrite Ex.
      apply (edge_bound (g x) (g lo) C d c l e Y (1 + x) (1 - x) (1 - lo)); try assumption; try lra.
      + fold h. lra.
      + unfold lo. lra.
      + fold h. replace h with (1 + lo) by (unfold lo; ring). lra.
    - apply Rle_trans with (de * Rpower (1 - x) (- k)); [|apply Rmult_le_compat_l; lra]. unfold hi in O.
      assert (By := Hb hi ltac:(rewrite <- Ex; apply Cin)). unfold gX. rewrite Ex.
      apply (edge_bound (g x) (g hi) C c d k e Y (1 - x) (1 + x) (1 + hi)); try assumption; try lra.
      + fold h. lra.
      + unfold hi. lra.
      + fold h. replace h with (1 - hi) by (unfold hi; ring). lra. }
  assert (D1 : forall x, unit_open x -> 1 * g x + -1 * gX x <= de * Phi x + 0 * Phi x) by (intros x Hx; assert (A := DD x Hx); apply Rabs_le_between in A; lra).
  assert (D2 : forall x, unit_open x -> -1 * g x + 1 * gX x <= de * Phi x + 0 * Phi x) by (intros x Hx; assert (A := DD x Hx); apply Rabs_le_between in A; lra).
  destruct (rule_conv gX XC) as (vX & HvX & Conv).
  assert (I1 : Rabs (q * v - q * vX) <= eps / 3).
  { assert (K2 := JE _ _ _ _ (JL 1 (-1) g gX v vX Hv HvX) (JL de 0 Phi Phi V V HV HV) D1).
    assert (K3 := JE _ _ _ _ (JL (-1) 1 g gX v vX Hv HvX) (JL de 0 Phi Phi V V HV HV) D2).
    apply (Rmult_le_compat_l q) in K2; [|lra]. apply (Rmult_le_compat_l q) in K3; [|lra]. apply Rabs_le. lra. }
  destruct (Conv (eps / 3) ltac:(lra)) as [N HN]. exists N. intros n ps Hn Hr.
  assert (I2 := HN n ps Hn Hr).
  assert (QP : apply_rule ps Phi <= q * V) by (apply (rule_side n ps Hr (ends k l) V (ends_der k l _) HV); intros x _; apply ends_even; lra).
  assert (I3 : Rabs (apply_rule ps g - apply_rule ps gX) <= eps / 3).
  { assert (PW := rule_in n ps Hr). rewrite Forall_forall in PW.
    assert (N1 : forall x, In x (map fst ps) -> unit_open x) by (intros x Hx; apply in_map_iff in Hx; destruct Hx as (p & <- & Ip); apply (PW p Ip)).
    assert (N2 : forall xw, In xw ps -> 0 <= snd xw) by (intros xw Hx; left; apply (PW xw Hx)).
    assert (K2 := rule_le unit_open ps _ _ N1 N2 D1). assert (K3 := rule_le unit_open ps _ _ N1 N2 D2). rewrite !rule_lin in K2, K3.
    assert (de * apply_rule ps Phi <= de * (q * V)) by (apply Rmult_le_compat_l; assumption). apply Rabs_le. lra. }
  apply Rabs_le_between in I1. apply Rabs_le_between in I2. apply Rabs_le_between in I3. apply Rabs_le. lra.
Qed.

(** ** any interval *)
Theorem singular_interval : forall a b c d f, a < b -> 0 <= c < al + 1 -> 0 <= d < be + 1 -> singular_ends a b c d f ->
  exists v, weighted_integral w a b f v /\
  forall eps, 0 < eps -> exists N, forall n l, (N <= n)%Z -> rule n l -> Rabs (gauss_on l a b f - q * v) <= eps.
Proof.
  intros a b c d f E Hc Hd [Hf [C HC]]. set (s := (b - a) / 2). assert (s0 : 0 < s) by (unfold s; lra).
  assert (C0 : 0 <= C).
  { assert (A := HC ((a + b) / 2) ltac:(lra)). assert (B := Rabs_pos (f ((a + b) / 2))). unfold Rpower in A.
    assert (P1 := exp_pos (- c * ln (b - (a + b) / 2))). assert (P2 := exp_pos (- d * ln ((a + b) / 2 - a))). apply Rnot_lt_le. intros N. nra. }
  assert (S1 : 0 < Rpower s (- c)) by apply exp_pos. assert (S2 : 0 < Rpower s (- d)) by apply exp_pos.
  destruct (singular_core c d (pulled a b f) (C * (Rpower s (- c) + Rpower s (- d)))) as (v & Hv & Conv); try lra.
  - intros x [H1 H2]. apply (continuous_comp (fun x => (b - a) / 2 * x + (a + b) / 2) f).
    + apply (ex_derive_continuous (V := R_NormedModule)). auto_derive. trivial.
    + apply Hf. split; nra.
  - intros x [H1 H2]. unfold pulled. eapply Rle_trans; [apply HC; split; nra|].
    replace (b - ((b - a) / 2 * x + (a + b) / 2)) with (s * (1 - x)) by (unfold s; field).
    replace ((b - a) / 2 * x + (a + b) / 2 - a) with (s * (1 + x)) by (unfold s; field).
    rewrite <- !Rpower_mult_distr by lra. rewrite Rmult_assoc. apply Rmult_le_compat_l; [exact C0|].
    assert (P1 : 0 < Rpower (1 - x) (- c)) by apply exp_pos. assert (P2 : 0 < Rpower (1 + x) (- d)) by apply exp_pos.
    assert (0 < Rpower s (- d) * Rpower (1 - x) (- c)) by (apply Rmult_lt_0_compat; assumption).
    assert (0 < Rpower s (- c) * Rpower (1 + x) (- d)) by (apply Rmult_lt_0_compat; assumption). lra.
  - exists ((b - a) / 2 * v). split; [apply ErrConv.weighted_push; [lra|exact Hv]|]. intros eps He.
    destruct (Conv (eps / s) ltac:(apply Rdiv_lt_0_compat; assumption)) as [N HN]. exists N. intros n l Hn Hr.
    rewrite gauss_pulled. fold s. replace (s * apply_rule l (pulled a b f) - q * (s * v)) with (s * (apply_rule l (pulled a b f) - q * v)) by ring.
    rewrite Rabs_mult, Rabs_pos_eq by lra. replace eps with (s * (eps / s)) by (field; lra). apply Rmult_le_compat_l; [lra|]. apply (HN n l Hn Hr).
Qed.
End Core.

(** ** the rules *)
Lemma unit_J : forall w f v, weighted_integral w (-1) 1 f v <-> J w f v.
Proof.
  intros w f v.
  assert (E : (fun x => w (to_unit (-1) 1 x) * f x) = (fun x => w x * f x)) by (extensionality x; f_equal; f_equal; unfold to_unit; field).
  unfold weighted_integral, J. rewrite E. split; [intros [[_ H]|[H _]]; [exact H|lra]|intros H; left; split; [lra|exact H]].
Qed.
Lemma open_unit : forall x, open_between (-1) 1 x <-> unit_open x.
Proof. intros x. unfold open_between, unit_open. rewrite Rmin_left, Rmax_right by lra. reflexivity. Qed.
Lemma half_power : forall x, unit_open x -> w1 x = jacw (- / 2) (- / 2) x.
Proof.
  intros x Hx. assert (H := half_weight x Hx). unfold w2 in H. unfold w1. rewrite <- H. unfold jacw. destruct Hx as [H1 H2].
  rewrite !Rpower_Ropp. rewrite Rinv_mult. reflexivity.
Qed.

Lemma chebyshev1_singular : forall a b c d f, a < b -> 0 <= c < / 2 -> 0 <= d < / 2 -> singular_ends a b c d f ->
  exists v, weighted_integral (fun x => / sqrt (1 - x * x)) a b f v /\
  forall eps, 0 < eps -> exists N, forall t n (r : GaussChebyshevFirstKind RA), (N <= n < usize_max t)%Z -> chebyshev1_new t n = Ok r ->
    Rabs (chebyshev1_value r a b f - v) <= eps.
Proof.
  intros a b c d f E Hc Hd Hf.
  set (rule := fun n l => exists t (r : GaussChebyshevFirstKind RA), (1 <= n < usize_max t)%Z /\ chebyshev1_new t n = Ok r /\ l = chebyshev1_pairs r).
  assert (Val : forall r g, chebyshev1_value r (-1) 1 g = apply_rule (chebyshev1_pairs r) g) by (intros r g; unfold chebyshev1_value; rewrite chebyshev1_R; apply gauss_on_unit).
  destruct (singular_interval w1 (- / 2) (- / 2) half_power w1_cont rule 1 ltac:(lra)) with (a := a) (b := b) (c := c) (d := d) (f := f) as (v & Hv & Conv); try assumption; try lra.
  - intros n l (t & r & Hn & Hr & ->). apply (cheb1_shape t n r Hn Hr).
  - intros n l (t & r & Hn & Hr & ->) F V HF HV HP. rewrite <- Val.
    assert (A := proj1 (chebyshev1_side t n r Hn Hr (-1) 1 F V ltac:(lra) (fun i x Hi Hx => HF i x Hi (proj1 (open_unit x) Hx)) (proj2 (unit_J w1 (F O) V) HV)) 0 (fun x Hx => HP x (proj1 (open_unit x) Hx))).
    unfold Rdiv in A. rewrite !Rmult_0_l in A. lra.
  - intros h Hh. destruct (chebyshev1_converges (-1) 1 h ltac:(lra) Hh) as (v & Hv & Cv). exists v. split; [apply unit_J, Hv|].
    intros eps He. destruct (Cv eps He) as [N HN]. exists N. intros n l Hn (t & r & Hn' & Hr & ->). rewrite <- Val, Rmult_1_l. apply (HN t n r); [lia|exact Hr].
  - exists v. split; [exact Hv|]. intros eps He. destruct (Conv eps He) as [N HN]. exists (Z.max N 1). intros t n r Hn Hr.
    unfold chebyshev1_value. rewrite chebyshev1_R. rewrite <- (Rmult_1_l v). apply (HN n); [lia|]. exists t, r. split; [lia|]. split; [exact Hr|reflexivity].
Qed.
Lemma chebyshev2_singular : forall a b c d f, a < b -> 0 <= c < 3 / 2 -> 0 <= d < 3 / 2 -> singular_ends a b c d f ->
  exists v, weighted_integral (fun x => sqrt (1 - x * x)) a b f v /\
  forall eps, 0 < eps -> exists N, forall t n (r : GaussChebyshevSecondKind RA), (N <= n < usize_max t)%Z -> chebyshev2_new t n = Ok r ->
    Rabs (chebyshev2_value r a b f - v) <= eps.
Proof.
  intros a b c d f E Hc Hd Hf.
  set (rule := fun n l => exists t (r : GaussChebyshevSecondKind RA), (1 <= n < usize_max t)%Z /\ chebyshev2_new t n = Ok r /\ l = chebyshev2_pairs r).
  assert (Val : forall r g, chebyshev2_value r (-1) 1 g = apply_rule (chebyshev2_pairs r) g) by (intros r g; unfold chebyshev2_value; rewrite chebyshev2_R; apply gauss_on_unit).
  destruct (singular_interval w2 (/ 2) (/ 2) (fun x Hx => eq_sym (half_weight x Hx)) (fun x _ => sq_cont x) rule 1 ltac:(lra)) with (a := a) (b := b) (c := c) (d := d) (f := f) as (v & Hv & Conv); try assumption; try lra.
  - intros n l (t & r & Hn & Hr & ->). apply (cheb2_shape t n r Hn Hr).
  - intros n l (t & r & Hn & Hr & ->) F V HF HV HP. rewrite <- Val.
    assert (A := proj1 (chebyshev2_side t n r Hn Hr (-1) 1 F V ltac:(lra) (fun i x Hi Hx => HF i x Hi (proj1 (open_unit x) Hx)) (proj2 (unit_J w2 (F O) V) HV)) 0 (fun x Hx => HP x (proj1 (open_unit x) Hx))).
    unfold Rdiv in A. rewrite !Rmult_0_l in A. lra.
  - intros h Hh. destruct (chebyshev2_converges (-1) 1 h ltac:(lra) Hh) as (v & Hv & Cv). exists v. split; [apply unit_J, Hv|].
    intros eps He. destruct (Cv eps He) as [N HN]. exists N. intros n l Hn (t & r & Hn' & Hr & ->). rewrite <- Val, Rmult_1_l. apply (HN t n r); [lia|exact Hr].
  - exists v. split; [exact Hv|]. intros eps He. destruct (Conv eps He) as [N HN]. exists (Z.max N 1). intros t n r Hn Hr.
    unfold chebyshev2_value. rewrite chebyshev2_R. rewrite <- (Rmult_1_l v). apply (HN n); [lia|]. exists t, r. split; [lia|]. split; [exact Hr|reflexivity].
Qed.
Lemma jacobi_singular : forall pa pb : Param RA, -1 < param_get pa -> -1 < param_get pb -> param_get pa + param_get pb <> -1 ->
  ~ delegated (param_get pa) (param_get pb) ->
  forall T, jacobi_integral (param_get pa) (param_get pb) (fun _ => 1) T ->
  forall a b c d f, a < b -> 0 <= c < param_get pa + 1 -> 0 <= d < param_get pb + 1 -> singular_ends a b c d f ->
  exists v, weighted_integral (fun x => Rpower (1 - x) (param_get pa) * Rpower (1 + x) (param_get pb)) a b f v /\
  forall eps, 0 < eps -> exists N, forall t (ext : Linalg RA) n (r : GaussJacobi RA), (N <= n)%Z -> sorts ext ->
    exact_on ext (Z.to_nat n) (@jacobi_diag RA (param_get pa) (param_get pb)) (@jacobi_off_diag RA (param_get pa) (param_get pb)) ->
    jacobi_new t ext n pa pb = Ok r -> (n mod 2 = 0)%Z \/ param_get pa = param_get pb ->
    Rabs (jacobi_value r a b f - jacobi_mass (param_get pa) (param_get pb) / T * v) <= eps.
Proof.
  intros pa pb Hal Hbe Hab Nd T HT a b c d f E Hc Hd Hf.
  set (rule := fun n l => exists t (ext : Linalg RA) (r : GaussJacobi RA), (2 <= n)%Z /\ sorts ext /\
    exact_on ext (Z.to_nat n) (@jacobi_diag RA (param_get pa) (param_get pb)) (@jacobi_off_diag RA (param_get pa) (param_get pb)) /\
    jacobi_new t ext n pa pb = Ok r /\ ((n mod 2 = 0)%Z \/ param_get pa = param_get pb) /\ l = jacobi_pairs r).
  assert (Val : forall r g, jacobi_value r (-1) 1 g = apply_rule (jacobi_pairs r) g) by (intros r g; unfold jacobi_value; rewrite jacobi_R; apply gauss_on_unit).
  assert (ET : jacobi_L (param_get pa) (param_get pb) (fun _ => 1) = T) by (apply is_RInt_gen_unique; exact HT).
  assert (Tp := jacobi_one_pos (param_get pa) (param_get pb) Hal Hbe). rewrite ET in Tp.
  assert (Jp := jacobi_mass_pos (param_get pa) (param_get pb) Hal Hbe Hab).
  set (q := jacobi_mass (param_get pa) (param_get pb) / T). assert (q0 : 0 < q) by (apply Rdiv_lt_0_compat; assumption).
  destruct (singular_interval (jacw (param_get pa) (param_get pb)) (param_get pa) (param_get pb) (fun x _ => eq_refl) (jacw_cont (param_get pa) (param_get pb)) rule q ltac:(lra)) with (a := a) (b := b) (c := c) (d := d) (f := f) as (v & Hv & Conv); try assumption; try lra.
  - intros n l (t & ext & r & Hn & So & Ex & Hr & Par & ->). apply (jacobi_interior t ext n pa pb r Hn Hal Hbe Hab Nd So Ex Hr).
  - intros n l (t & ext & r & Hn & So & Ex & Hr & Par & ->) F V HF HV HP. rewrite <- Val.
    assert (A := proj1 (jacobi_side t ext n pa pb r Hn Hal Hbe Hab Nd So Ex Hr Par T HT (-1) 1 F V ltac:(lra) (fun i x Hi Hx => HF i x Hi (proj1 (open_unit x) Hx)) (proj2 (unit_J (jacw (param_get pa) (param_get pb)) (F O) V) HV)) 0 (fun x Hx => HP x (proj1 (open_unit x) Hx))).
    fold q in A. unfold Rdiv in A. rewrite !Rmult_0_l in A. lra.
  - intros h Hh. destruct (jacobi_converges pa pb Hal Hbe Hab Nd T HT (-1) 1 h ltac:(lra) Hh) as (v & Hv & Cv). exists v. split; [apply (proj1 (unit_J (jacw (param_get pa) (param_get pb)) h v)), Hv|].
    intros eps He. destruct (Cv eps He) as [N HN]. exists N. intros n l Hn (t & ext & r & Hn' & So & Ex & Hr & Par & ->). rewrite <- Val. apply (HN t ext n r Hn So Ex Hr Par).
  - exists v. split; [exact Hv|]. intros eps He. destruct (Conv eps He) as [N HN]. exists (Z.max N 2). intros t ext n r Hn So Ex Hr Par.
    unfold jacobi_value. rewrite jacobi_R. apply (HN n); [lia|]. exists t, ext, r. split; [lia|]. exact (conj So (conj Ex (conj Hr (conj Par eq_refl)))).
Qed.
