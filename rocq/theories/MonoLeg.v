(** Gauss-Legendre rules on monotone integrands. *)
From Coq Require Import Reals ZArith List Lra Lia FunctionalExtensionality.
From Coquelicot Require Import Coquelicot.
From Verif Require Import Arith RInst Machine Rules Legendre RSum PolySpec PolyProof MassSpec RuleSpec ErrorSpec GaussProof Interp GaussErr TransferSpec TransferProof
  Improper LegInt LegConv ErrRules ErrConv GaussRuleSpec BogGauss BogRule BogUse GaussSide LegZeroRule LegZeroUse LegSide MonoSpec StepPoly MonoRule.
Import ListNotations.
Local Open Scope R_scope.
Notation int f a b v := (is_RInt (V := R_NormedModule) f a b v).

(** the exact Gauss rule *)
Lemma gauss_mono : forall n l k, (1 <= n)%nat -> gauss_rule n l -> List.Forall (fun p : R * R => unit_closed (fst p) /\ 0 <= snd p <= k) l ->
  forall g bot top (v : R), rises_between unit_closed g bot top -> int g (-1) 1 v ->
  sum_left bot g l <= v <= sum_right top g l /\ Rabs (apply_rule l g - v) <= k * (top - bot).
Proof.
  intros n l k Hn (Ln & S & Ex) Al g bot top v Hg Hv. replace v with (1 * v) by ring.
  apply (gen_mono unit_closed (at_point (-1)) (at_point 1)) with (w := fun _ : R => 1) (n := n); try assumption.
  - intros u y x Hu' Hy Hx. unfold unit_closed in *. lra.
  - unfold at_point, unit_closed. lra.
  - unfold at_point, unit_closed. lra.
  - exists (fun x => x = -1) (fun x => x = 1); [reflexivity|reflexivity|]. intros x y -> ->. simpl. lra.
  - intros; lra.
  - lra.
  - intros p Hp. exists (RInt p (-1) 1). split; [|rewrite Ex by exact Hp; symmetry; apply Rmult_1_l]. apply is_RInt_gen_at_point.
    apply (is_RInt_ext (V := R_NormedModule) p); [intros x _; match goal with |- ?a = ?b => change (@eq R a b) end; ring|].
    apply (RInt_correct (V := R_CompleteNormedModule)). apply (ex_RInt_continuous (V := R_CompleteNormedModule)). intros x _. apply (poly_cont _ _ x Hp).
  - apply is_RInt_gen_at_point. apply (is_RInt_ext (V := R_NormedModule) g); [|exact Hv]. intros x _. match goal with |- ?a = ?b => change (@eq R a b) end. ring.
Qed.

(** ** integrands moved by d *)
Section Shift.
Variables (g : R -> R) (bot top v d : R).
Hypothesis Hg : rises_between unit_closed g bot top.
Hypothesis Hv : int g (-1) 1 v.
Hypothesis Hd : 0 <= d <= 2.
Definition right_of (x : R) : R := if Rle_dec (x + d) 1 then g (x + d) else top.
Definition left_of (x : R) : R := if Rle_dec (-1) (x - d) then g (x - d) else bot.

Lemma right_rises : rises_between unit_closed right_of bot top.
Proof.
  destruct Hg as [Mo Bo]. unfold unit_closed in *. assert (B1 := Bo 1 ltac:(lra)). split.
  - intros x y Hx Hy L. unfold right_of. destruct (Rle_dec (x + d) 1), (Rle_dec (y + d) 1); try lra; [apply Mo; lra|apply Bo; lra].
  - intros x Hx. unfold right_of. destruct (Rle_dec (x + d) 1); [apply Bo; lra|lra].
Qed.
Lemma left_rises : rises_between unit_closed left_of bot top.
Proof.
  destruct Hg as [Mo Bo]. unfold unit_closed in *. assert (B1 := Bo 1 ltac:(lra)). split.
  - intros x y Hx Hy L. unfold left_of. destruct (Rle_dec (-1) (x - d)), (Rle_dec (-1) (y - d)); try lra; [apply Mo; lra|apply Bo; lra].
  - intros x Hx. unfold left_of. destruct (Rle_dec (-1) (x - d)); [apply Bo; lra|lra].
Qed.
Lemma int_bounds : forall a b (w : R), -1 <= a -> a <= b -> b <= 1 -> int g a b w -> bot * (b - a) <= w <= top * (b - a).
Proof.
  intros a b w Ha L Hb H. assert (C : forall c, int (fun _ => c) a b (c * (b - a))).
  { intros c. replace (c * (b - a)) with (scal (b - a) c) by (unfold scal; simpl; unfold mult; simpl; ring). apply (is_RInt_const (V := R_NormedModule)). }
  split; [apply (is_RInt_le (fun _ => bot) g a b)|apply (is_RInt_le g (fun _ => top) a b)]; try assumption; try apply C;
    intros x Hx; apply (proj2 Hg); unfold unit_closed; lra.
Qed.
Lemma pieces : exists u w : R, int g (-1) (-1 + d) u /\ int g (-1 + d) 1 w /\ u + w = v.
Proof.
  assert (X : ex_RInt g (-1) 1) by (exists v; exact Hv).
  destruct (ex_RInt_Chasles_1 (V := R_CompleteNormedModule) g (-1) (-1 + d) 1 ltac:(lra) X) as (u & Hu').
  destruct (ex_RInt_Chasles_2 (V := R_CompleteNormedModule) g (-1) (-1 + d) 1 ltac:(lra) X) as (w & Hw).
  exists u, w. split; [exact Hu'|]. split; [exact Hw|].
  assert (Y := is_RInt_Chasles (V := R_NormedModule) g _ _ _ _ _ Hu' Hw).
  assert (E1 := is_RInt_unique (V := R_CompleteNormedModule) _ _ _ _ Y). assert (E2 := is_RInt_unique (V := R_CompleteNormedModule) _ _ _ _ Hv).
  rewrite E1 in E2. exact E2.
Qed.
Lemma pieces' : exists u w : R, int g (-1) (1 - d) u /\ int g (1 - d) 1 w /\ u + w = v.
Proof.
  assert (X : ex_RInt g (-1) 1) by (exists v; exact Hv).
  destruct (ex_RInt_Chasles_1 (V := R_CompleteNormedModule) g (-1) (1 - d) 1 ltac:(lra) X) as (u & Hu').
  destruct (ex_RInt_Chasles_2 (V := R_CompleteNormedModule) g (-1) (1 - d) 1 ltac:(lra) X) as (w & Hw).
  exists u, w. split; [exact Hu'|]. split; [exact Hw|].
  assert (Y := is_RInt_Chasles (V := R_NormedModule) g _ _ _ _ _ Hu' Hw).
  assert (E1 := is_RInt_unique (V := R_CompleteNormedModule) _ _ _ _ Y). assert (E2 := is_RInt_unique (V := R_CompleteNormedModule) _ _ _ _ Hv).
  rewrite E1 in E2. exact E2.
Qed.
Lemma int_const : forall c a b, int (fun _ => c) a b (c * (b - a)).
Proof. intros c a b. replace (c * (b - a)) with (scal (b - a) c) by (unfold scal; simpl; unfold mult; simpl; ring). apply (is_RInt_const (V := R_NormedModule)). Qed.
Lemma int_move : forall c a b w, int g (a + c) (b + c) w -> int (fun x => g (x + c)) a b w.
Proof.
  intros c a b w H. replace (a + c) with (1 * a + c) in H by ring. replace (b + c) with (1 * b + c) in H by ring.
  apply (is_RInt_comp_lin (V := R_NormedModule) g 1 c a b w) in H.
  refine (is_RInt_ext (V := R_NormedModule) _ _ _ _ _ _ H). intros x _. change (1 * g (1 * x + c) = g (x + c)). rewrite !Rmult_1_l. reflexivity.
Qed.
Lemma right_int : exists w : R, int right_of (-1) 1 w /\ w <= v + d * (top - bot).
Proof.
  destruct pieces as (u & w & Hu' & Hw & E). exists (w + top * (1 - (1 - d))). split.
  - apply (is_RInt_Chasles (V := R_NormedModule) right_of (-1) (1 - d) 1).
    + apply (is_RInt_ext (V := R_NormedModule) (fun x => g (x + d))).
      * intros x Hx. rewrite Rmin_left, Rmax_right in Hx by lra. unfold right_of. destruct (Rle_dec (x + d) 1); [reflexivity|lra].
      * apply int_move. replace (1 - d + d) with 1 by ring. exact Hw.
    + apply (is_RInt_ext (V := R_NormedModule) (fun x => top)).
      * intros x Hx. rewrite Rmin_left, Rmax_right in Hx by lra. unfold right_of. destruct (Rle_dec (x + d) 1); [lra|reflexivity].
      * apply int_const.
  - assert (B := int_bounds (-1) (-1 + d) u ltac:(lra) ltac:(lra) ltac:(lra) Hu'). lra.
Qed.
Lemma left_int : exists w : R, int left_of (-1) 1 w /\ v - d * (top - bot) <= w.
Proof.
  destruct pieces' as (u & w & Hu' & Hw & E). exists (bot * (-1 + d - -1) + u). split.
  - apply (is_RInt_Chasles (V := R_NormedModule) left_of (-1) (-1 + d) 1).
    + apply (is_RInt_ext (V := R_NormedModule) (fun x => bot)).
      * intros x Hx. rewrite Rmin_left, Rmax_right in Hx by lra. unfold left_of. destruct (Rle_dec (-1) (x - d)); [lra|reflexivity].
      * apply int_const.
    + apply (is_RInt_ext (V := R_NormedModule) (fun x => g (x + - d))).
      * intros x Hx. rewrite Rmin_left, Rmax_right in Hx by lra. unfold left_of. destruct (Rle_dec (-1) (x - d)); [reflexivity|lra].
      * apply int_move. replace (-1 + d + - d) with (-1) by ring. exact Hu'.
  - assert (B := int_bounds (1 - d) 1 w ltac:(lra) ltac:(lra) ltac:(lra) Hw). lra.
Qed.
Lemma moved_rule : forall e M lp l, - M <= bot -> top <= M -> 0 <= e ->
  Forall2 (fun p q : R * R => (unit_closed (fst p) /\ unit_closed (fst q) /\ 0 <= snd q) /\ Rabs (fst p - fst q) <= d /\ Rabs (snd p - snd q) <= e * snd q) lp l ->
  apply_rule l left_of - e * M * apply_rule l (fun _ => 1) <= apply_rule lp g <= apply_rule l right_of + e * M * apply_rule l (fun _ => 1).
Proof.
  intros e M lp l Hb Ht He F. unfold apply_rule. induction F as [|[x w] [y u] lp l ((D1 & D2 & U) & A1 & A2) _ IH]; [simpl; lra|].
  cbn [map lsum fst snd] in *. destruct Hg as [Mo Bo].
  assert (K1 : left_of y <= g x).
  { unfold left_of. destruct (Rle_dec (-1) (y - d)); [|apply Bo, D1]. apply Mo; [unfold unit_closed in *; lra|exact D1|]. assert (Z := Rle_abs (- (x - y))). rewrite Rabs_Ropp in Z. lra. }
  assert (K2 : g x <= right_of y).
  { unfold right_of. destruct (Rle_dec (y + d) 1); [|apply Bo, D1]. apply Mo; [exact D1|unfold unit_closed in *; lra|]. assert (Z := Rle_abs (x - y)). lra. }
  assert (Bx := Bo x D1). assert (P : Rabs ((w - u) * g x) <= e * u * M).
  { rewrite Rabs_mult. apply Rmult_le_compat; [apply Rabs_pos|apply Rabs_pos|exact A2|]. apply Rabs_le. lra. }
  assert (P1 := Rle_abs ((w - u) * g x)). assert (P2 := Rle_abs (- ((w - u) * g x))). rewrite Rabs_Ropp in P2.
  assert (u * left_of y <= u * g x) by (apply Rmult_le_compat_l; assumption). assert (u * g x <= u * right_of y) by (apply Rmult_le_compat_l; assumption). lra.
Qed.
End Shift.

Lemma near_mono : forall n lp l k d e, (1 <= n)%nat -> gauss_rule n l -> 0 <= d <= 2 -> 0 <= e -> List.Forall (fun p : R * R => unit_closed (fst p) /\ 0 <= snd p <= k) l ->
  Forall2 (fun p q : R * R => (unit_closed (fst p) /\ unit_closed (fst q) /\ 0 <= snd q) /\ Rabs (fst p - fst q) <= d /\ Rabs (snd p - snd q) <= e * snd q) lp l ->
  forall g bot top M (v : R), rises_between unit_closed g bot top -> - M <= bot -> top <= M -> int g (-1) 1 v ->
  Rabs (apply_rule lp g - v) <= (k + d) * (top - bot) + 2 * e * M.
Proof.
  intros n lp l k d e Hn G Hd He Al F g bot top M v Hg Hb Ht Hv.
  destruct (right_int g bot top v d Hg Hv Hd) as (u & Hu' & U). destruct (left_int g bot top v d Hg Hv Hd) as (w & Hw & W).
  destruct (gauss_mono n l k Hn G Al _ bot top u (right_rises g bot top d Hg Hd) Hu') as [_ B1].
  destruct (gauss_mono n l k Hn G Al _ bot top w (left_rises g bot top d Hg Hd) Hw) as [_ B2].
  assert (R1 := moved_rule g bot top d Hg Hd e M lp l Hb Ht He F).
  rewrite (rule_mass n l G) in R1.
  assert (P1 := Rle_abs (apply_rule l (right_of g top d) - u)). assert (P2 := Rle_abs (- (apply_rule l (left_of g bot d) - w))). rewrite Rabs_Ropp in P2.
  apply Rabs_le. lra.
Qed.

Section N.
Variables (t : Target) (n : nat) (r : GaussLegendre RA).
Hypothesis Hu : (100 <= usize_max t)%Z.
Hypothesis H2n : (2 * Z.of_nat n <= usize_max t)%Z.
Hypothesis Hr : legendre_new t (Z.of_nat n) = Ok r.
Hypothesis Hn : (1 <= n)%nat.
Lemma legendre_mono : forall a b f bot top M k, a < b -> rises_between (closed_between a b) f bot top -> - M <= bot -> top <= M -> ex_RInt f a b ->
  List.Forall (fun p : R * R => snd p <= k) (legendre_pairs r) ->
  Rabs (legendre_value r a b f - RInt f a b) <= (b - a) / 2 * ((k * (1 + / 10 ^ 12) + / 10 ^ 13 / INR n) * (top - bot) + 48 / 10 ^ 14 * M).
Proof.
  intros a b f bot top M k E [Mo Bo] Hb Ht Hi Hk. set (h := (b - a) / 2). assert (Hh : 0 < h) by (unfold h; lra).
  destruct (gauss_rule_exists n Hn) as (l & G & _).
  assert (In1 := inside_all t n r Hu H2n Hr Hn). assert (In2 := exact_nodes_inside t n Hu H2n Hn l G).
  assert (C := every_close t n r Hu H2n Hr Hn l G). destruct (rule_roots n l Hn G) as [RR _]. assert (P := rule_pos n l Hn RR).
  set (d := 71 / 10 ^ 15 / (INR n + / 2)) in *. assert (N1 : 1 <= INR n) by (apply (le_INR 1); exact Hn).
  assert (Hd : 0 <= d <= 2 /\ d <= / 10 ^ 13 / INR n).
  { assert (D1 : 0 < / (INR n + / 2) <= / INR n) by (split; [apply Rinv_0_lt_compat; lra|apply Rinv_le_contravar; lra]).
    assert (D2 : / INR n <= 1) by (rewrite <- Rinv_1; apply Rinv_le_contravar; lra). unfold d, Rdiv. lra. }
  destruct Hd as [Hd Hd']. assert (TB : 0 <= top - bot) by (assert (B := Bo a ltac:(unfold closed_between; rewrite Rmin_left, Rmax_right by lra; lra)); lra).
  unfold legendre_value. rewrite legendre_R, gauss_pulled. fold h.
  assert (HP : int (pulled a b f) (-1) 1 (RInt f a b / h)).
  { assert (X : int f a b (RInt f a b)) by (apply (RInt_correct (V := R_CompleteNormedModule)); exact Hi).
    replace a with (h * (-1) + (a + b) / 2) in X at 1 by (unfold h; field). replace b with (h * 1 + (a + b) / 2) in X at 2 by (unfold h; field).
    apply (is_RInt_comp_lin (V := R_NormedModule) f h ((a + b) / 2) (-1) 1) in X.
    apply (is_RInt_scal (V := R_NormedModule) _ _ _ (/ h)) in X.
    replace (RInt f a b / h) with (scal (/ h) (RInt f a b)) by (change (/ h * RInt f a b = RInt f a b / h); unfold Rdiv; ring).
    refine (is_RInt_ext (V := R_NormedModule) _ _ _ _ _ _ X). intros x _. change (/ h * (h * f (h * x + (a + b) / 2)) = pulled a b f x).
    unfold pulled. fold h. field. lra. }
  assert (Vh : h * (RInt f a b / h) = RInt f a b) by (field; lra). set (v := RInt f a b) in *. rewrite <- Vh, <- Rmult_minus_distr_l, Rabs_mult, (Rabs_pos_eq h) by lra.
  apply Rmult_le_compat_l; [lra|].
  assert (Kl : List.Forall (fun p : R * R => unit_closed (fst p) /\ 0 <= snd p <= k * (1 + / 10 ^ 12)) l /\
    Forall2 (fun p q : R * R => (unit_closed (fst p) /\ unit_closed (fst q) /\ 0 <= snd q) /\ Rabs (fst p - fst q) <= d /\ Rabs (snd p - snd q) <= 24 / 10 ^ 14 * snd q) (legendre_pairs r) l).
  { clear G RR. induction C as [|p q lp l (A1 & A2 & A3) _ IH]; [split; constructor|].
    apply Forall_inv in P as P1. apply Forall_inv_tail in P. apply Forall_inv in In1 as I1. apply Forall_inv_tail in In1. apply Forall_inv in In2 as I2. apply Forall_inv_tail in In2.
    apply Forall_inv in Hk as K1. apply Forall_inv_tail in Hk. cbv beta in P1, I1, I2, K1. destruct (IH Hk In1 In2 P) as [J1 J2].
    assert (Z := Rle_abs (- (snd p - snd q))). rewrite Rabs_Ropp in Z.
    split; constructor; try assumption; unfold unit_closed; repeat split; lra. }
  destruct Kl as [Kl Cl].
  eapply Rle_trans; [apply (near_mono n (legendre_pairs r) l (k * (1 + / 10 ^ 12)) d (24 / 10 ^ 14) Hn G Hd ltac:(lra) Kl Cl (pulled a b f) bot top M (v / h))|].
  - split.
    + intros x y Dx Dy L. unfold pulled. apply Mo; [apply pull_between; assumption..|].
      assert ((b - a) / 2 * x <= (b - a) / 2 * y) by (apply Rmult_le_compat_l; unfold h in Hh; lra). lra.
    + intros x Dx. apply Bo. apply pull_between. exact Dx.
  - exact Hb.
  - exact Ht.
  - exact HP.
  - assert (d * (top - bot) <= / 10 ^ 13 / INR n * (top - bot)) by (apply Rmult_le_compat_r; assumption). lra.
Qed.
End N.
