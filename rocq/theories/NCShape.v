(** Convex and monotone integrands. *)
From Coq Require Import Reals Lra Lia Psatz.
From Coquelicot Require Import Coquelicot.
From Verif Require Import Arith RInst NewtonCotes RSum NCSpec NCReal NCExact NCMoreSpec NCMore.
Local Open Scope R_scope.

(** One panel. *)
Section Panel.
Variables (f : R -> R) (u v : R).
Hypothesis Huv : u <= v.
Hypothesis Hex : ex_RInt f u v.
Let m := (u + v) / 2.
Lemma ex_l : ex_RInt f u m.
Proof. apply (ex_RInt_Chasles_1 f u m v); [unfold m; lra | exact Hex]. Qed.
Lemma ex_r : ex_RInt f m v.
Proof. apply (ex_RInt_Chasles_2 f u m v); [unfold m; lra | exact Hex]. Qed.
Lemma split : RInt f u v = RInt f u m + RInt f m v.
Proof. symmetry. exact (RInt_Chasles f u m v ex_l ex_r). Qed.

Lemma int_le_const c x y : x <= y -> ex_RInt f x y -> (forall z, x < z < y -> f z <= c) ->
  RInt f x y <= (y - x) * c.
Proof.
  intros Hxy H Hc. replace ((y - x) * c) with (RInt (fun _ => c) x y).
  - apply RInt_le; [exact Hxy | exact H | apply ex_RInt_const | exact Hc].
  - rewrite RInt_const. reflexivity.
Qed.
Lemma int_ge_const c x y : x <= y -> ex_RInt f x y -> (forall z, x < z < y -> c <= f z) ->
  (y - x) * c <= RInt f x y.
Proof.
  intros Hxy H Hc. replace ((y - x) * c) with (RInt (fun _ => c) x y).
  - apply RInt_le; [exact Hxy | apply ex_RInt_const | exact H | exact Hc].
  - rewrite RInt_const. reflexivity.
Qed.

Lemma panel_increasing : increasing_on u v f ->
  (v - u) / 2 * (f u + f m) <= RInt f u v <= (v - u) / 2 * (f m + f v).
Proof.
  intros Hf. rewrite split. assert (Em : u <= m <= v) by (unfold m; lra).
  assert (A1 := int_ge_const (f u) u m ltac:(lra) ex_l ltac:(intros; apply Hf; lra)).
  assert (A2 := int_ge_const (f m) m v ltac:(lra) ex_r ltac:(intros; apply Hf; lra)).
  assert (B1 := int_le_const (f m) u m ltac:(lra) ex_l ltac:(intros; apply Hf; lra)).
  assert (B2 := int_le_const (f v) m v ltac:(lra) ex_r ltac:(intros; apply Hf; lra)).
  replace (m - u) with ((v - u) / 2) in * by (unfold m; field).
  replace (v - m) with ((v - u) / 2) in * by (unfold m; field).
  split; lra.
Qed.

Lemma panel_convex : convex_on u v f ->
  (v - u) * f m <= RInt f u v <= (v - u) / 2 * (f u + f v).
Proof.
  intros Hf. destruct (Req_dec u v) as [E|N].
  { subst v. rewrite RInt_point. change zero with 0. split; lra. }
  assert (Luv : u < v) by lra. split.
  - assert (R1 : is_RInt (fun x => f (u + v - x)) u v (RInt f u v)).
    { assert (Q := is_RInt_comp_lin f (-1) (u + v) v u (RInt f u v)).
      replace (-1 * v + (u + v)) with u in Q by ring. replace (-1 * u + (u + v)) with v in Q by ring.
      specialize (Q (RInt_correct f u v Hex)). apply is_RInt_swap in Q. apply is_RInt_opp in Q.
      rewrite opp_opp in Q. apply is_RInt_ext with (2 := Q). intros x _.
      change (opp (scal (-1) (f (-1 * x + (u + v)))) = f (u + v - x)).
      replace (-1 * x + (u + v)) with (u + v - x) by ring.
      change (- (-1 * f (u + v - x)) = f (u + v - x)). ring. }
    assert (S2 := is_RInt_plus _ _ _ _ _ _ R1 (RInt_correct f u v Hex)).
    assert (L : (v - u) * (2 * f m) <= plus (RInt f u v) (RInt f u v)).
    { apply (is_RInt_le (fun _ => 2 * f m) (fun x => plus (f (u + v - x)) (f x)) u v); [exact Huv| |exact S2|].
      - apply (is_RInt_const u v (2 * f m)).
      - intros x Hx. change (2 * f m <= f (u + v - x) + f x).
        assert (C := Hf (u + v - x) x (/ 2) ltac:(lra) ltac:(lra) ltac:(lra)).
        replace (/ 2 * (u + v - x) + (1 - / 2) * x) with m in C by (unfold m; field). lra. }
    change (plus ?x ?y) with (x + y) in L. lra.
  - pose (c := (f v - f u) / (v - u)).
    assert (Ic : is_RInt (fun x => f u - c * u + c * x) u v ((v - u) / 2 * (f u + f v))).
    { assert (Q := trapezoid_exact 1 u v (f u - c * u) c ltac:(lia)).
      replace ((v - u) / 2 * (f u + f v)) with (trapezoid_value 1 u v (fun x => f u - c * u + c * x)); [exact Q|].
      rewrite trapezoid_value_eq by lia. simpl. unfold c. field. lra. }
    apply (is_RInt_le f (fun x => f u - c * u + c * x) u v); [exact Huv | exact (RInt_correct f u v Hex) | exact Ic |].
    intros x Hx. pose (t := (v - x) / (v - u)).
    assert (Ht : 0 <= t <= 1).
    { unfold t. split.
      - apply Rmult_le_pos; [lra | left; apply Rinv_0_lt_compat; lra].
      - apply Rmult_le_reg_r with (v - u); [lra|]. unfold Rdiv. rewrite Rmult_assoc, Rinv_l by lra. lra. }
    assert (C := Hf u v t ltac:(lra) ltac:(lra) Ht).
    replace (t * u + (1 - t) * v) with x in C by (unfold t; field; lra).
    replace (f u - c * u + c * x) with (t * f u + (1 - t) * f v) by (unfold t, c; field; lra). exact C.
Qed.
End Panel.

(** The integral panel by panel. *)
Section Panels.
Variables (f : R -> R) (a b : R) (n : nat).
Hypothesis Hab : a <= b.
Hypothesis Hn : (1 <= n)%nat.
Hypothesis Hex : ex_RInt f a b.
Let h := (b - a) / INR n.
Let x i := a + h * INR i.
Lemma n_pos : 0 < INR n. Proof. apply lt_0_INR. lia. Qed.
Lemma h_nonneg : 0 <= h.
Proof. unfold h. apply Rmult_le_pos; [lra|]. left. apply Rinv_0_lt_compat, n_pos. Qed.
Lemma x_n : x n = b.
Proof. unfold x, h. field. pose proof n_pos. lra. Qed.
Lemma x_mono i j : (i <= j)%nat -> x i <= x j.
Proof. intros Hij. unfold x. apply le_INR in Hij. pose proof h_nonneg. nra. Qed.
Lemma x_0 : x 0 = a.
Proof. unfold x. simpl. ring. Qed.
Lemma x_range i : (i <= n)%nat -> a <= x i <= b.
Proof.
  intros Hi. assert (A := x_mono 0 i ltac:(lia)). assert (B := x_mono i n Hi).
  rewrite x_0 in A. rewrite x_n in B. split; assumption.
Qed.
Lemma ex_panel i j : (i <= j <= n)%nat -> ex_RInt f (x i) (x j).
Proof.
  intros Hij. destruct (x_range i) as [A1 A2]; [lia|]. destruct (x_range j) as [B1 B2]; [lia|].
  assert (M := x_mono i j ltac:(lia)).
  apply (ex_RInt_Chasles_2 f a (x i) (x j)); [lra|].
  apply (ex_RInt_Chasles_1 f a (x j) b); [lra | exact Hex].
Qed.
Lemma int_panels : RInt f a b = rsum n (fun i => RInt f (x i) (x (S i))).
Proof.
  assert (G : forall k, (k <= n)%nat -> RInt f a (x k) = rsum k (fun i => RInt f (x i) (x (S i)))).
  { induction k; intros Hk.
    - rewrite x_0. rewrite RInt_point. reflexivity.
    - cbn [rsum]. rewrite <- IHk by lia. symmetry. rewrite <- x_0.
      apply (RInt_Chasles f (x 0) (x k) (x (S k))); apply ex_panel; lia. }
  rewrite <- (G n (Nat.le_refl n)). rewrite x_n. reflexivity.
Qed.
Lemma mid_eq i : (x i + x (S i)) / 2 = a + h * (INR i + / 2).
Proof. unfold x. rewrite S_INR. field. Qed.
Lemma width i : x (S i) - x i = h.
Proof. unfold x. rewrite S_INR. ring. Qed.

Lemma convex_bracket : convex_on a b f ->
  midpoint_value n a b f <= RInt f a b <= trapezoid_value n a b f.
Proof.
  intros Hf. rewrite midpoint_panels, trapezoid_panels by assumption. fold h. cbv zeta.
  rewrite int_panels.
  assert (P : forall i, (i < n)%nat -> h * f (a + h * (INR i + / 2)) <= RInt f (x i) (x (S i))
                  <= h / 2 * (f (a + h * INR i) + f (a + h * INR (S i)))).
  { intros i Hi. assert (Q := panel_convex f (x i) (x (S i)) (x_mono i (S i) ltac:(lia)) (ex_panel i (S i) ltac:(lia))).
    rewrite width, mid_eq in Q. apply Q. intros p q t Hp Hq Ht.
    destruct (x_range i) as [A1 A2]; [lia|]. destruct (x_range (S i)) as [B1 B2]; [lia|].
    apply Hf; lra. }
  split; apply rsum_le; intros i Hi; apply (P i Hi).
Qed.

Lemma increasing_bound : increasing_on a b f ->
  Rabs (midpoint_value n a b f - RInt f a b) <= (b - a) * (f b - f a) / (2 * INR n) /\
  Rabs (trapezoid_value n a b f - RInt f a b) <= (b - a) * (f b - f a) / (2 * INR n).
Proof.
  intros Hf. rewrite midpoint_panels, trapezoid_panels by assumption. fold h. cbv zeta.
  rewrite int_panels.
  assert (E : (b - a) * (f b - f a) / (2 * INR n) = rsum n (fun i => h / 2 * (f (x (S i)) - f (x i)))).
  { rewrite rsum_scal, (rsum_telescope n (fun i => f (x i))). rewrite x_0, x_n.
    unfold h. field. pose proof n_pos. lra. }
  rewrite E. clear E. pose proof h_nonneg as Hh.
  assert (P : forall i, (i < n)%nat ->
     let m := a + h * (INR i + / 2) in
     h / 2 * (f (x i) + f m) <= RInt f (x i) (x (S i)) <= h / 2 * (f m + f (x (S i))) /\
     f (x i) <= f m <= f (x (S i))).
  { intros i Hi m. destruct (x_range i) as [A1 A2]; [lia|]. destruct (x_range (S i)) as [B1 B2]; [lia|].
    assert (Em : m = (x i + x (S i)) / 2) by (symmetry; apply mid_eq).
    assert (M := x_mono i (S i) ltac:(lia)).
    split.
    - assert (Q := panel_increasing f (x i) (x (S i)) M (ex_panel i (S i) ltac:(lia))).
      rewrite width, <- Em in Q. apply Q. intros p q Hp Hpq Hq. apply Hf; lra.
    - split; apply Hf; lra. }
  split; rewrite <- rsum_minus; eapply Rle_trans; [apply rsum_abs | apply rsum_le | apply rsum_abs | apply rsum_le];
    intros i Hi; destruct (P i Hi) as [[P1 P2] [P3 P4]]; cbv zeta in *; fold (x i) (x (S i));
    apply Rabs_le; split; nra.
Qed.
End Panels.

Lemma monotone_bound (f : R -> R) a b n : a <= b -> (1 <= n)%nat -> ex_RInt f a b ->
  increasing_on a b f \/ decreasing_on a b f ->
  Rabs (midpoint_value n a b f - RInt f a b) <= (b - a) * Rabs (f b - f a) / (2 * INR n) /\
  Rabs (trapezoid_value n a b f - RInt f a b) <= (b - a) * Rabs (f b - f a) / (2 * INR n) /\
  Rabs (simpson_value n a b f - RInt f a b) <= (b - a) * Rabs (f b - f a) / (2 * INR n).
Proof.
  intros Hab Hn Hex Hm.
  assert (G : Rabs (midpoint_value n a b f - RInt f a b) <= (b - a) * Rabs (f b - f a) / (2 * INR n) /\
    Rabs (trapezoid_value n a b f - RInt f a b) <= (b - a) * Rabs (f b - f a) / (2 * INR n)).
  { destruct Hm as [Hf|Hf].
    - assert (f a <= f b) by (apply Hf; lra). rewrite (Rabs_pos_eq (f b - f a)) by lra.
      apply increasing_bound; assumption.
    - assert (f b <= f a) by (apply Hf; lra).
      assert (Q := increasing_bound (fun x => - f x) a b n Hab Hn (ex_RInt_opp f a b Hex)).
      assert (I : increasing_on a b (fun x => - f x)).
      { intros p q Hp Hpq Hq. assert (f q <= f p) by (apply Hf; assumption). lra. }
      specialize (Q I).
      assert (EI : RInt (fun x => - f x) a b = - RInt f a b) by (apply (RInt_opp f a b Hex)).
      assert (EM := midpoint_linear n a b (-1) 0 f f Hn).
      assert (ET := trapezoid_linear n a b (-1) 0 f f Hn).
      rewrite (midpoint_ext n a b (fun x => -1 * f x + 0 * f x) (fun x => - f x) Hn) in EM by (intros; ring).
      rewrite (trapezoid_ext n a b (fun x => -1 * f x + 0 * f x) (fun x => - f x) Hn) in ET by (intros; ring).
      rewrite EI, EM, ET in Q. rewrite (Rabs_left1 (f b - f a)) by lra.
      replace (- f b - - f a) with (- (f b - f a)) in Q by ring.
      rewrite <- (Rabs_Ropp (midpoint_value n a b f - RInt f a b)), <- (Rabs_Ropp (trapezoid_value n a b f - RInt f a b)).
      replace (- (midpoint_value n a b f - RInt f a b)) with (-1 * midpoint_value n a b f + 0 * midpoint_value n a b f - - RInt f a b) by ring.
      replace (- (trapezoid_value n a b f - RInt f a b)) with (-1 * trapezoid_value n a b f + 0 * trapezoid_value n a b f - - RInt f a b) by ring.
      exact Q. }
  destruct G as [G1 G2]. split; [exact G1|]. split; [exact G2|].
  rewrite simpson_combination by assumption.
  apply Rabs_le_between in G1. apply Rabs_le_between in G2. apply Rabs_le. split; lra.
Qed.

Lemma convex_refine (f : R -> R) a b n : a <= b -> (1 <= n)%nat -> ex_RInt f a b -> convex_on a b f ->
  midpoint_value n a b f <= RInt f a b <= trapezoid_value n a b f /\
  trapezoid_value (2 * n) a b f <= trapezoid_value n a b f /\
  Rabs (simpson_value n a b f - RInt f a b) <= 2 / 3 * (trapezoid_value n a b f - midpoint_value n a b f).
Proof.
  intros Hab Hn Hex Hf. destruct (convex_bracket f a b n Hab Hn Hex Hf) as [H1 H2].
  split; [split; assumption|]. split.
  - rewrite trapezoid_double by assumption. lra.
  - rewrite simpson_combination by assumption. apply Rabs_le. split; lra.
Qed.

(** The rules' errors on the first power that is not integrated exactly. *)
Lemma square_int a b : is_RInt (fun x => x ^ 2) a b (b ^ 3 / 3 - a ^ 3 / 3).
Proof.
  apply (is_RInt_derive (fun x => x ^ 3 / 3) (fun x => x ^ 2)).
  - intros x _. auto_derive; [exact I|]. field.
  - intros x _. apply (ex_derive_continuous (fun x : R => x ^ 2)). auto_derive. exact I.
Qed.
Lemma fourth_int a b : is_RInt (fun x => x ^ 4) a b (b ^ 5 / 5 - a ^ 5 / 5).
Proof.
  apply (is_RInt_derive (fun x => x ^ 5 / 5) (fun x => x ^ 4)).
  - intros x _. auto_derive; [exact I|]. field.
  - intros x _. apply (ex_derive_continuous (fun x : R => x ^ 4)). auto_derive. exact I.
Qed.
Lemma midpoint_sharp n a b : (1 <= n)%nat ->
  midpoint_value n a b (fun x => x ^ 2) - RInt (fun x => x ^ 2) a b = - (2 * (b - a) ^ 3 / (24 * INR n ^ 2)).
Proof.
  intros Hn. rewrite midpoint_square by assumption. rewrite (is_RInt_unique _ _ _ _ (square_int a b)).
 field. apply not_0_INR; lia.
Qed.
Lemma trapezoid_sharp n a b : (1 <= n)%nat ->
  trapezoid_value n a b (fun x => x ^ 2) - RInt (fun x => x ^ 2) a b = 2 * (b - a) ^ 3 / (12 * INR n ^ 2).
Proof.
  intros Hn. rewrite trapezoid_square by assumption. rewrite (is_RInt_unique _ _ _ _ (square_int a b)).
 field. apply not_0_INR; lia.
Qed.
Lemma simpson_sharp n a b : (1 <= n)%nat ->
  simpson_value n a b (fun x => x ^ 4) - RInt (fun x => x ^ 4) a b = 24 * (b - a) ^ 5 / (2880 * INR n ^ 4).
Proof.
  intros Hn. rewrite simpson_fourth by assumption. rewrite (is_RInt_unique _ _ _ _ (fourth_int a b)).
 field. apply not_0_INR; lia.
Qed.
