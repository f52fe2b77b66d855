(** Gauss-Legendre and Newton-Cotes rules on integrands with bounded slope. *)
From Coq Require Import Reals ZArith List Lra Lia FunctionalExtensionality.
From Coquelicot Require Import Coquelicot.
From Verif Require Import Arith RInst Machine Rules Legendre RSum PolySpec PolyProof MassSpec RuleSpec ErrorSpec GaussProof Interp GaussErr TransferSpec TransferProof
  Improper LegInt LegConv ErrRules ErrConv GaussRuleSpec BogGauss BogRule BogUse GaussSide LegZeroRule LegZeroUse LegSide MonoSpec StepPoly MonoRule MonoLeg LegWeight
  NCSpec NCReal NCExact NCMore NCShape LipSpec LipRule.
Import ListNotations.
Local Open Scope R_scope.

Lemma gauss_lip : forall n l k, (1 <= n)%nat -> gauss_rule n l -> List.Forall (fun p : R * R => unit_closed (fst p) /\ 0 <= snd p <= k) l ->
  forall g K (v : R), lipschitz_on (-1) 1 K g -> int g (-1) 1 v -> Rabs (apply_rule l g - v) <= k * (K * 2).
Proof.
  intros n l k Hn (Ln & S & Ex) Al g K v Hg Hv. replace v with (1 * v) by ring. replace 2 with (1 - -1) by ring.
  apply (gen_lip unit_closed (at_point (-1)) (at_point 1)) with (w := fun _ : R => 1) (n := n); try assumption.
  - intros u y x Hu' Hy Hx. unfold unit_closed in *. lra.
  - unfold at_point, unit_closed. lra.
  - unfold at_point, unit_closed. lra.
  - exists (fun x => x = -1) (fun x => x = 1); [reflexivity|reflexivity|]. intros x y -> ->. simpl. lra.
  - intros; lra.
  - lra.
  - intros p Hp. exists (RInt p (-1) 1). split; [|rewrite Ex by exact Hp; symmetry; apply Rmult_1_l]. apply is_RInt_gen_at_point.
    apply (is_RInt_ext (V := R_NormedModule) p); [intros x _; match goal with |- ?a = ?b => change (@eq R a b) end; ring|].
    apply (RInt_correct (V := R_CompleteNormedModule)). apply (ex_RInt_continuous (V := R_CompleteNormedModule)). intros x _. apply (poly_cont _ _ x Hp).
  - lra.
  - intros x Hx. exact Hx.
  - apply is_RInt_gen_at_point. apply (is_RInt_ext (V := R_NormedModule) g); [|exact Hv]. intros x _. match goal with |- ?a = ?b => change (@eq R a b) end. ring.
Qed.

Lemma near_lip : forall n lp l k d e, (1 <= n)%nat -> gauss_rule n l -> 0 <= d -> 0 <= e -> List.Forall (fun p : R * R => unit_closed (fst p) /\ 0 <= snd p <= k) l ->
  Forall2 (fun p q : R * R => (unit_closed (fst p) /\ unit_closed (fst q) /\ 0 <= snd q) /\ Rabs (fst p - fst q) <= d /\ Rabs (snd p - snd q) <= e * snd q) lp l ->
  forall g K M (v : R), 0 <= K -> lipschitz_on (-1) 1 K g -> (forall x, unit_closed x -> Rabs (g x) <= M) -> int g (-1) 1 v ->
  Rabs (apply_rule lp g - v) <= k * (K * 2) + 2 * (K * d) + 2 * e * M.
Proof.
  intros n lp l k d e Hn G Hd He Al F g K M v HK Hg HM Hv.
  assert (B1 := gauss_lip n l k Hn G Al g K v Hg Hv).
  assert (B2 : Rabs (apply_rule lp g - apply_rule l g) <= (K * d + e * M) * apply_rule l (fun _ => 1)).
  { clear G Al B1. unfold apply_rule. induction F as [|[x w] [y u] lp l ((D1 & D2 & U) & A1 & A2) _ IH]; [simpl; rewrite Rminus_0_r, Rabs_R0; lra|].
    cbn [map lsum fst snd] in *. unfold unit_closed in D1, D2.
    assert (L1 : Rabs (g x - g y) <= K * d). { eapply Rle_trans; [apply (Hg x y D1 D2)|apply Rmult_le_compat_l; assumption]. }
    assert (P1 : Rabs ((w - u) * g x) <= e * u * M).
    { rewrite Rabs_mult. apply Rmult_le_compat; [apply Rabs_pos|apply Rabs_pos|exact A2|apply HM; exact D1]. }
    assert (P2 : Rabs (u * (g x - g y)) <= u * (K * d)).
    { rewrite Rabs_mult, (Rabs_pos_eq u) by exact U. apply Rmult_le_compat_l; assumption. }
    match goal with |- Rabs (_ + ?s - (_ + ?s')) <= _ => replace (g x * w + s - (g y * u + s')) with ((w - u) * g x + (u * (g x - g y) + (s - s'))) by ring end.
    eapply Rle_trans; [apply Rabs_triang|]. eapply Rle_trans; [apply Rplus_le_compat_l, Rabs_triang|]. lra. }
  rewrite (rule_mass n l G) in B2.
  replace (apply_rule lp g - v) with ((apply_rule l g - v) + (apply_rule lp g - apply_rule l g)) by ring.
  eapply Rle_trans; [apply Rabs_triang|]. lra.
Qed.

Lemma lip_nonneg : forall a b K f, a < b -> lipschitz_on a b K f -> 0 <= K.
Proof.
  intros a b K f E Lf. specialize (Lf a b ltac:(lra) ltac:(lra)). rewrite (Rabs_left (a - b)) in Lf by lra.
  assert (P := Rabs_pos (f a - f b)). apply Rnot_lt_le. intros N. nra.
Qed.

Lemma legendre_lip : forall (t : Target) (n : nat) (r : GaussLegendre RA),
  (100 <= usize_max t)%Z -> (2 * Z.of_nat n <= usize_max t)%Z -> legendre_new t (Z.of_nat n) = Ok r -> (1 <= n)%nat ->
  forall a b f K M, a < b -> lipschitz_on a b K f -> (forall x, a <= x <= b -> Rabs (f x) <= M) -> ex_RInt f a b ->
  Rabs (legendre_value r a b f - RInt f a b) <= (b - a) ^ 2 / 2 * ((4 + / 10 ^ 11) / INR n) * K + (b - a) * (24 / 10 ^ 14) * M.
Proof.
  intros t n r Hu H2n Hr Hn a b f K M E Lf HM Hi. assert (Hk := legendre_weight_le t n r Hu H2n Hr Hn). set (k := 4 / INR n) in *.
  assert (HK := lip_nonneg a b K f E Lf). set (h := (b - a) / 2). assert (Hh : 0 < h) by (unfold h; lra).
  destruct (gauss_rule_exists n Hn) as (l & G & _).
  assert (In1 := inside_all t n r Hu H2n Hr Hn). assert (In2 := exact_nodes_inside t n Hu H2n Hn l G).
  assert (C := every_close t n r Hu H2n Hr Hn l G). destruct (rule_roots n l Hn G) as [RR _]. assert (P := rule_pos n l Hn RR).
  set (d := 71 / 10 ^ 15 / (INR n + / 2)) in *. assert (N1 : 1 <= INR n) by (apply (le_INR 1); exact Hn).
  assert (Hd : 0 <= d /\ d <= / 10 ^ 13 / INR n).
  { assert (D1 : 0 < / (INR n + / 2) <= / INR n) by (split; [apply Rinv_0_lt_compat; lra|apply Rinv_le_contravar; lra]).
    assert (D2 : / INR n <= 1) by (rewrite <- Rinv_1; apply Rinv_le_contravar; lra). unfold d, Rdiv. lra. }
  destruct Hd as [Hd Hd'].
  unfold legendre_value. rewrite legendre_R, gauss_pulled. fold h.
  assert (HP : int (pulled a b f) (-1) 1 (RInt f a b / h)).
  { assert (X : int f a b (RInt f a b)) by (apply (RInt_correct (V := R_CompleteNormedModule)); exact Hi).
    replace a with (h * (-1) + (a + b) / 2) in X at 1 by (unfold h; field). replace b with (h * 1 + (a + b) / 2) in X at 2 by (unfold h; field).
    apply (is_RInt_comp_lin (V := R_NormedModule) f h ((a + b) / 2) (-1) 1) in X.
    apply (is_RInt_scal (V := R_NormedModule) _ _ _ (/ h)) in X.
    replace (RInt f a b / h) with (scal (/ h) (RInt f a b)) by (change (/ h * RInt f a b = RInt f a b / h); unfold Rdiv; ring).
    refine (is_RInt_ext (V := R_NormedModule) _ _ _ _ _ _ X). intros x _. change (/ h * (h * f (h * x + (a + b) / 2)) = pulled a b f x).
    unfold pulled. fold h. field. lra. }
  assert (Vh : h * (RInt f a b / h) = RInt f a b) by (field; lra). set (v := RInt f a b) in *. rewrite <- Vh, <- Rmult_minus_distr_l, Rabs_mult, (Rabs_pos_eq h) by lra.
  assert (Kl : List.Forall (fun p : R * R => unit_closed (fst p) /\ 0 <= snd p <= k * (1 + / 10 ^ 12)) l /\
    Forall2 (fun p q : R * R => (unit_closed (fst p) /\ unit_closed (fst q) /\ 0 <= snd q) /\ Rabs (fst p - fst q) <= d /\ Rabs (snd p - snd q) <= 24 / 10 ^ 14 * snd q) (legendre_pairs r) l).
  { clear G RR. induction C as [|p q lp l (A1 & A2 & A3) _ IH]; [split; constructor|].
    apply Forall_inv in P as P1. apply Forall_inv_tail in P. apply Forall_inv in In1 as I1. apply Forall_inv_tail in In1. apply Forall_inv in In2 as I2. apply Forall_inv_tail in In2.
    apply Forall_inv in Hk as K1. apply Forall_inv_tail in Hk. cbv beta in P1, I1, I2, K1. destruct (IH Hk In1 In2 P) as [J1 J2].
    assert (Z := Rle_abs (- (snd p - snd q))). rewrite Rabs_Ropp in Z.
    split; constructor; try assumption; unfold unit_closed; repeat split; lra. }
  destruct Kl as [Kl Cl].
  assert (B := near_lip n (legendre_pairs r) l (k * (1 + / 10 ^ 12)) d (24 / 10 ^ 14) Hn G Hd ltac:(lra) Kl Cl (pulled a b f) (K * h) M (v / h) ltac:(apply Rmult_le_pos; lra)
    (pulled_lip a b K f E Lf)).
  assert (HM' : forall x, unit_closed x -> Rabs (pulled a b f x) <= M).
  { intros z Hz. unfold unit_closed in Hz. unfold pulled. fold h. apply HM.
    assert (h * -1 <= h * z) by (apply Rmult_le_compat_l; lra). assert (h * z <= h * 1) by (apply Rmult_le_compat_l; lra). unfold h in *. lra. }
  assert (B' := B HM' HP).
  apply (Rmult_le_compat_l h) in B'; [|lra]. eapply Rle_trans; [exact B'|]. clear B B'.
  replace ((b - a) ^ 2 / 2) with (h * h * 2) by (unfold h; field). replace (b - a) with (2 * h) by (unfold h; field).
  assert (Q : 2 * (k * (1 + / 10 ^ 12)) + 2 * d <= 2 * ((4 + / 10 ^ 11) / INR n)).
  { unfold k, Rdiv in *. assert (I : 0 < / INR n) by (apply Rinv_0_lt_compat; lra). lra. }
  assert (h * h * K * (2 * (k * (1 + / 10 ^ 12)) + 2 * d) <= h * h * K * (2 * ((4 + / 10 ^ 11) / INR n))) by (apply Rmult_le_compat_l; [repeat apply Rmult_le_pos; lra|exact Q]).
  lra.
Qed.

(** ** Newton-Cotes *)
Lemma int_lin : forall c m p q, int (fun x => c + m * x) p q (c * (q - p) + m * (q * q - p * p) / 2).
Proof.
  intros c m p q. replace (c * (q - p) + m * (q * q - p * p) / 2) with ((c * q + m * (q * q) / 2) - (c * p + m * (p * p) / 2)) by field.
  apply (is_RInt_derive (V := R_CompleteNormedModule) (fun x => c * x + m * (x * x) / 2)).
  - intros x _. auto_derive; [trivial|field].
  - intros x _. apply (ex_derive_continuous (V := R_NormedModule)). auto_derive. trivial.
Qed.
(** one end of a piece decides *)
Lemma half_piece : forall f p q e K, p <= q -> e = p \/ e = q -> (forall x, p <= x <= q -> Rabs (f x - f e) <= K * Rabs (x - e)) -> ex_RInt f p q ->
  Rabs ((q - p) * f e - RInt f p q) <= K * (q - p) ^ 2 / 2.
Proof.
  intros f p q e K L He Hf Hi. assert (X := RInt_correct (V := R_CompleteNormedModule) f p q Hi). set (v := RInt f p q) in *.
  destruct He; subst e.
  - assert (U := is_RInt_le f (fun x => (f p - K * p) + K * x) p q v _ L X (int_lin _ _ p q)).
    assert (W := is_RInt_le (fun x => (f p + K * p) + (- K) * x) f p q _ v L (int_lin _ _ p q) X).
    assert (A : forall x, p < x < q -> f p + K * p + - K * x <= f x <= f p - K * p + K * x).
    { intros x Hx. specialize (Hf x ltac:(lra)). rewrite (Rabs_pos_eq (x - p)) in Hf by lra. assert (A1 := Rle_abs (f x - f p)). assert (A2 := Rle_abs (- (f x - f p))). rewrite Rabs_Ropp in A2. lra. }
    specialize (U ltac:(intros x Hx; apply A, Hx)). specialize (W ltac:(intros x Hx; apply A, Hx)). apply Rabs_le. nra.
  - assert (U := is_RInt_le f (fun x => (f q + K * q) + (- K) * x) p q v _ L X (int_lin _ _ p q)).
    assert (W := is_RInt_le (fun x => (f q - K * q) + K * x) f p q _ v L (int_lin _ _ p q) X).
    assert (A : forall x, p < x < q -> f q - K * q + K * x <= f x <= f q + K * q + - K * x).
    { intros x Hx. specialize (Hf x ltac:(lra)). rewrite (Rabs_left1 (x - q)) in Hf by lra. assert (A1 := Rle_abs (f x - f q)). assert (A2 := Rle_abs (- (f x - f q))). rewrite Rabs_Ropp in A2. lra. }
    specialize (U ltac:(intros x Hx; apply A, Hx)). specialize (W ltac:(intros x Hx; apply A, Hx)). apply Rabs_le. nra.
Qed.
Section Panels.
Variables (f : R -> R) (a b : R) (n : nat) (K : R).
Hypothesis Hab : a <= b.
Hypothesis Hn : (1 <= n)%nat.
Hypothesis Hex : ex_RInt f a b.
Hypothesis Lf : lipschitz_on a b K f.
Let h := (b - a) / INR n.
Let x (i : nat) := a + h * INR i.
Lemma panel_sum : forall g : nat -> R, (forall i, (i < n)%nat -> Rabs (g i - RInt f (x i) (x (S i))) <= K * h ^ 2 / 4) ->
  Rabs (rsum n g - RInt f a b) <= (b - a) ^ 2 / (4 * INR n) * K.
Proof.
  intros g Hg. rewrite (int_panels f a b n Hab Hn Hex). fold h. 
  assert (N1 : 1 <= INR n) by (apply (le_INR 1); exact Hn).
  assert (G : forall m, (m <= n)%nat -> Rabs (rsum m g - rsum m (fun i => RInt f (x i) (x (S i)))) <= INR m * (K * h ^ 2 / 4)).
  { induction m as [|m IH]; intros Hm; [simpl; rewrite Rminus_0_r, Rabs_R0; lra|]. cbn [rsum]. rewrite S_INR.
    replace (rsum m g + g m - (rsum m (fun i => RInt f (x i) (x (S i))) + RInt f (x m) (x (S m)))) with
      ((rsum m g - rsum m (fun i => RInt f (x i) (x (S i)))) + (g m - RInt f (x m) (x (S m)))) by ring.
    eapply Rle_trans; [apply Rabs_triang|]. specialize (IH ltac:(lia)). specialize (Hg m ltac:(lia)). lra. }
  eapply Rle_trans; [apply (G n (Nat.le_refl n))|]. right. unfold h. field. lra.
Qed.
Lemma panel_geom : forall i, (i < n)%nat -> a <= x i /\ x i <= x i + h / 2 /\ x i + h / 2 <= x (S i) /\ x (S i) <= b /\ x (S i) = x i + h /\ 0 <= h.
Proof.
  intros i Hi. assert (N1 : 1 <= INR n) by (apply (le_INR 1); exact Hn).
  assert (h0 : 0 <= h) by (apply Rdiv_le_0_compat; lra). assert (I0 := pos_INR i).
  assert (I1 : INR (S i) <= INR n) by (apply le_INR; lia).
  assert (h * INR (S i) <= h * INR n) by (apply Rmult_le_compat_l; assumption).
  assert (E : h * INR n = b - a) by (unfold h; field; lra).
  assert (0 <= h * INR i) by (apply Rmult_le_pos; assumption). unfold x. rewrite S_INR in *. repeat split; lra.
Qed.
Lemma panel_int : forall i, (i < n)%nat -> ex_RInt f (x i) (x i + h / 2) /\ ex_RInt f (x i + h / 2) (x (S i)).
Proof.
  intros i Hi. destruct (panel_geom i Hi) as (P1 & P2 & P3 & P4 & P5 & P6).
  assert (E1 : ex_RInt f (x i) b) by (apply (ex_RInt_Chasles_2 (V := R_CompleteNormedModule) f a); [lra|exact Hex]).
  assert (E2 : ex_RInt f (x i) (x (S i))) by (apply (ex_RInt_Chasles_1 (V := R_CompleteNormedModule) f (x i) (x (S i)) b); [lra|exact E1]).
  split; [apply (ex_RInt_Chasles_1 (V := R_CompleteNormedModule) f _ _ (x (S i)))|apply (ex_RInt_Chasles_2 (V := R_CompleteNormedModule) f (x i))]; try exact E2; lra.
Qed.
Lemma halves : forall i e1 e2, (i < n)%nat -> e1 = x i \/ e1 = x i + h / 2 -> e2 = x i + h / 2 \/ e2 = x (S i) ->
  Rabs (h / 2 * f e1 + h / 2 * f e2 - RInt f (x i) (x (S i))) <= K * h ^ 2 / 4.
Proof.
  intros i e1 e2 Hi H1 H2. destruct (panel_geom i Hi) as (P1 & P2 & P3 & P4 & P5 & P6). destruct (panel_int i Hi) as [X1 X2].
  assert (B1 := half_piece f (x i) (x i + h / 2) e1 K P2 H1 ltac:(intros y Hy; apply Lf; destruct H1; subst e1; lra) X1).
  assert (B2 := half_piece f (x i + h / 2) (x (S i)) e2 K P3 H2 ltac:(intros y Hy; apply Lf; destruct H2; subst e2; lra) X2).
  assert (C := RInt_Chasles (V := R_CompleteNormedModule) f _ _ _ X1 X2). change (RInt f (x i) (x i + h / 2) + RInt f (x i + h / 2) (x (S i)) = RInt f (x i) (x (S i))) in C.
  rewrite <- C. replace (x i + h / 2 - x i) with (h / 2) in B1 by ring. replace (x (S i) - (x i + h / 2)) with (h / 2) in B2 by lra.
  match goal with |- Rabs ?z <= _ => replace z with ((h / 2 * f e1 - RInt f (x i) (x i + h / 2)) + (h / 2 * f e2 - RInt f (x i + h / 2) (x (S i)))) by ring end.
  eapply Rle_trans; [apply Rabs_triang|]. lra.
Qed.
Lemma newton_cotes_lip :
  Rabs (midpoint_value n a b f - RInt f a b) <= (b - a) ^ 2 / (4 * INR n) * K /\
  Rabs (trapezoid_value n a b f - RInt f a b) <= (b - a) ^ 2 / (4 * INR n) * K /\
  Rabs (simpson_value n a b f - RInt f a b) <= (b - a) ^ 2 / (4 * INR n) * K.
Proof.
  assert (G1 : Rabs (midpoint_value n a b f - RInt f a b) <= (b - a) ^ 2 / (4 * INR n) * K).
  { rewrite midpoint_panels by exact Hn. cbv zeta. fold h. apply panel_sum. intros i Hi.
    replace (a + h * (INR i + / 2)) with (x i + h / 2) by (unfold x; field).
    replace (h * f (x i + h / 2)) with (h / 2 * f (x i + h / 2) + h / 2 * f (x i + h / 2)) by field. apply halves; [exact Hi|right; reflexivity|left; reflexivity]. }
  assert (G2 : Rabs (trapezoid_value n a b f - RInt f a b) <= (b - a) ^ 2 / (4 * INR n) * K).
  { rewrite trapezoid_panels by exact Hn. cbv zeta. fold h. apply panel_sum. intros i Hi.
    change (a + h * INR i) with (x i). change (a + h * INR (S i)) with (x (S i)).
    rewrite Rmult_plus_distr_l. apply halves; [exact Hi|left; reflexivity|right; reflexivity]. }
  split; [exact G1|]. split; [exact G2|]. rewrite simpson_combination by exact Hn.
  apply Rabs_le_between in G1. apply Rabs_le_between in G2. apply Rabs_le. split; lra.
Qed.
End Panels.
