(** Two-sided error bounds of the Gauss-Legendre rules, with the classical constant. *)
From Coq Require Import Reals ZArith List Lra Lia FunctionalExtensionality.
From Coquelicot Require Import Coquelicot.
From Verif Require Import Arith RInst Machine Rules Legendre RSum PolySpec PolyProof MassSpec RuleSpec ErrorSpec GaussProof EigenSpec EigenProof Interp GaussErr TransferSpec TransferProof
  Improper LegInt Spectral OrthoProof LegOde LegConv Gaussian ErrRules ErrCheb ErrConv GaussRuleSpec BogGauss BogRule BogUse SideSpec GaussSide LegZeroRule LegZeroUse.
Import ListNotations.
Local Open Scope R_scope.

Lemma bprod_leg : forall n, bprod lb n * bprod lb n * 2 = leg_const n.
Proof.
  induction n; [unfold leg_const; simpl; field|]. cbn [bprod].
  set (b := lb n : R) in *. set (q := bprod lb n : R) in *.
  transitivity ((b * b) * (q * q * 2)); [ring|]. rewrite IHn. unfold b. rewrite lb_sq. unfold leg_const.
  replace (2 * S n)%nat with (S (S (2 * n))) by lia. change (fact (S (S (2 * n)))) with (S (S (2 * n)) * (S (2 * n) * fact (2 * n)))%nat.
  change (fact (S n)) with (S n * fact n)%nat. rewrite !mult_INR.
  replace (S (S (2 * n)) + 1)%nat with (S (S (2 * n + 1))) by lia. cbn [pow].
  assert (F0 := INR_fact_neq_0 (2 * n)). assert (F1 := INR_fact_neq_0 n). assert (P := inv_pow_neq (2 * n + 1)).
  set (g := INR (fact (2 * n))) in *. set (f := INR (fact n)) in *. set (w := 2 ^ (2 * n + 1)) in *. clearbody g f w.
  rewrite !S_INR, plus_INR, mult_INR. simpl (INR 2). simpl (INR 1). assert (X := pos_INR n). set (x := INR n) in *. clearbody x.
  field. repeat split; try lra; nra.
Qed.
Lemma int_one : RInt (fun _ => 1) (-1) 1 = 2.
Proof. rewrite RInt_const. match goal with |- ?a = ?b => change (@eq R a b) end. change scal with Rmult. simpl. unfold scal, mult. simpl. ring. Qed.
Lemma leg_norm : forall n l, (1 <= n)%nat -> gauss_rule n l -> (forall x, rprod n (node l) x = monic la lb n x) /\
  is_RInt (fun x => 1 * (rprod n (node l) x * rprod n (node l) x)) (-1) 1 (leg_const n).
Proof.
  intros n l Hn G. destruct (rule_roots n l Hn G) as [RR _]. destruct G as (L & S & _).
  assert (E : forall x, rprod n (node l) x = monic la lb n x).
  { apply monic_nodes; [exact Hn|apply ascending_nodup, S|exact L|]. eapply List.Forall_impl; [|exact RR]. intros p [H _]. exact H. }
  split; [exact E|].
  assert (P := monic_square_poly la lb n).
  assert (V : RInt (fun x => monic la lb n x * monic la lb n x) (-1) 1 = leg_const n).
  { rewrite (norms la lb (Datatypes.S n) (fun f => RInt f (-1) 1) int_linear (leg_orth _) n) by lia. rewrite int_one. apply bprod_leg. }
  rewrite <- V. apply (is_RInt_ext (V := R_NormedModule) (fun x => monic la lb n x * monic la lb n x)).
  - intros x _. rewrite E. match goal with |- ?a = ?b => change (@eq R a b) end. ring.
  - apply (RInt_correct (V := R_CompleteNormedModule)). apply (ex_RInt_continuous (V := R_CompleteNormedModule)). intros x _. apply (poly_cont _ _ x P).
Qed.
Definition unit_closed (x : R) : Prop := -1 <= x <= 1.
Lemma pulled_derivatives_closed : forall a b m F, a < b -> has_derivatives (closed_between a b) m F ->
  has_derivatives unit_closed m (fun i x => ((b - a) / 2) ^ i * pulled a b (F i) x).
Proof.
  intros a b m F E HF i x Hi Hx. unfold pulled.
  apply (is_derive_val _ _ (((b - a) / 2) ^ i * ((b - a) / 2 * F (S i) ((b - a) / 2 * x + (a + b) / 2)))); [simpl; ring|].
  apply (is_derive_scal (fun x => F i ((b - a) / 2 * x + (a + b) / 2))).
  apply (is_derive_comp (F i) (fun x => (b - a) / 2 * x + (a + b) / 2) x).
  - apply HF; [exact Hi|]. apply pull_between. exact Hx.
  - auto_derive; [exact I|]. ring.
Qed.
Lemma pulled_int : forall a b f, a < b -> (forall x, closed_between a b x -> continuous f x) ->
  is_RInt (fun x => 1 * pulled a b f x) (-1) 1 (RInt f a b / ((b - a) / 2)).
Proof.
  intros a b f L C. set (h := (b - a) / 2). assert (Hh : 0 < h) by (unfold h; lra).
  assert (X : is_RInt f a b (RInt f a b)).
  { apply (RInt_correct (V := R_CompleteNormedModule)). apply (ex_RInt_continuous (V := R_CompleteNormedModule)). intros x Hx. apply C. exact Hx. }
  replace a with (h * (-1) + (a + b) / 2) in X at 1 by (unfold h; field). replace b with (h * 1 + (a + b) / 2) in X at 2 by (unfold h; field).
  apply (is_RInt_comp_lin (V := R_NormedModule) f h ((a + b) / 2) (-1) 1) in X.
  apply (is_RInt_scal (V := R_NormedModule) _ _ _ (/ h)) in X.
  replace (RInt f a b / h) with (scal (/ h) (RInt f a b)) by (change (/ h * RInt f a b = RInt f a b / h); unfold Rdiv; ring).
  refine (is_RInt_ext (V := R_NormedModule) _ _ _ _ _ _ X). intros x _. change (/ h * (h * f (h * x + (a + b) / 2)) = 1 * pulled a b f x).
  unfold pulled. fold h. field. lra.
Qed.
Lemma leg_exact_side : forall n l, (1 <= n)%nat -> gauss_rule n l -> List.Forall (fun p : R * R => -1 <= fst p <= 1) l ->
  forall a b (F : nat -> R -> R), a < b -> has_derivatives (closed_between a b) (2 * n) F ->
  (forall L, (forall x, closed_between a b x -> L <= F (2 * n)%nat x) ->
    (b - a) / 2 * apply_rule l (pulled a b (F O)) <= RInt (F O) a b - L * ((b - a) / 2) ^ (2 * n + 1) / INR (fact (2 * n)) * leg_const n) /\
  (forall U, (forall x, closed_between a b x -> F (2 * n)%nat x <= U) ->
    RInt (F O) a b - U * ((b - a) / 2) ^ (2 * n + 1) / INR (fact (2 * n)) * leg_const n <= (b - a) / 2 * apply_rule l (pulled a b (F O))).
Proof.
  intros n l Hn G In_ a b F E HF. set (h := (b - a) / 2). assert (Hh : 0 < h) by (unfold h; lra).
  destruct (leg_norm n l Hn G) as [_ HN]. assert (G' := G). destruct G' as (Ln & S & Ex).
  assert (C : forall x, closed_between a b x -> continuous (F O) x) by (intros x Hx; apply (ex_derive_continuous (V := R_NormedModule)); eexists; apply HF; [lia|exact Hx]).
  assert (HP := pulled_int a b (F O) E C). fold h in HP. set (v := RInt (F O) a b) in *.
  destruct (gen_side unit_closed (at_point (-1)) (at_point 1)) with (w := fun _ : R => 1) (ps := l) (c := 1) (n := n)
    (F := fun i x => h ^ i * pulled a b (F i) x) (N := leg_const n) (v := v / h) as [B1 B2].
  - intros u y x Hu' Hy Hx. unfold unit_closed in *. lra.
  - unfold at_point, unit_closed. lra.
  - unfold at_point, unit_closed. lra.
  - exists (fun x => x = -1) (fun x => x = 1); [reflexivity|reflexivity|]. intros x y -> ->. simpl. lra.
  - intros; lra.
  - lra.
  - intros x Hx. rewrite List.Forall_forall in In_. apply in_map_iff in Hx. destruct Hx as (p & <- & Ip). apply (In_ p Ip).
  - intros p Hp. exists (RInt p (-1) 1). split; [|rewrite Ex by exact Hp; symmetry; apply Rmult_1_l]. apply is_RInt_gen_at_point.
    apply (is_RInt_ext (V := R_NormedModule) p); [intros x _; match goal with |- ?a = ?b => change (@eq R a b) end; ring|].
    apply (RInt_correct (V := R_CompleteNormedModule)). apply (ex_RInt_continuous (V := R_CompleteNormedModule)). intros x _. apply (poly_cont _ _ x Hp).
  - exact Hn.
  - apply ascending_nodup, S.
  - exact Ln.
  - apply pulled_derivatives_closed; assumption.
  - apply is_RInt_gen_at_point. apply (is_RInt_ext (V := R_NormedModule) (fun x => 1 * pulled a b (F O) x)); [|exact HP].
    intros x _. match goal with |- ?a = ?b => change (@eq R a b) end. simpl pow. ring.
  - apply is_RInt_gen_at_point. exact HN.
  - assert (Q : apply_rule l (fun x => h ^ 0 * pulled a b (F O) x) = apply_rule l (pulled a b (F O))) by (apply apply_rule_nodes; intros; simpl pow; ring).
    rewrite Nat.add_1_r, <- tech_pow_Rmult. assert (P : 0 < h ^ (2 * n)) by (apply pow_lt, Hh).
    set (T := apply_rule l (pulled a b (F O))) in *. assert (Vh : h * (v / h) = v) by (field; lra).
    split; intros L HL.
    + assert (K : T <= v / h - L * h ^ (2 * n) / INR (fact (2 * n)) * leg_const n).
      { rewrite <- Q. rewrite <- (Rmult_1_l (v / h)), <- (Rmult_1_l (leg_const n)). apply B1. intros x Hx. rewrite Rmult_comm. apply Rmult_le_compat_l; [lra|]. apply HL. apply pull_between. exact Hx. }
      apply (Rmult_le_compat_l h) in K; [|lra]. rewrite Rmult_minus_distr_l, Vh in K. eapply Rle_trans; [exact K|]. apply Req_le. unfold Rdiv. ring.
    + assert (K : v / h - L * h ^ (2 * n) / INR (fact (2 * n)) * leg_const n <= T).
      { rewrite <- Q. rewrite <- (Rmult_1_l (v / h)), <- (Rmult_1_l (leg_const n)). apply B2. intros x Hx. rewrite (Rmult_comm L). apply Rmult_le_compat_l; [lra|]. apply HL. apply pull_between. exact Hx. }
      apply (Rmult_le_compat_l h) in K; [|lra]. rewrite Rmult_minus_distr_l, Vh in K. eapply Rle_trans; [|exact K]. apply Req_le. unfold Rdiv. ring.
Qed.
Section N.
Variables (t : Target) (n : nat) (r : GaussLegendre RA).
Hypothesis Hu : (100 <= usize_max t)%Z.
Hypothesis H2n : (2 * Z.of_nat n <= usize_max t)%Z.
Hypothesis Hr : legendre_new t (Z.of_nat n) = Ok r.
Lemma exact_nodes_inside : (1 <= n)%nat -> forall l, gauss_rule n l -> List.Forall (fun p : R * R => -1 <= fst p <= 1) l.
Proof.
  intros Hn l G. assert (X : exists us, l = rev (map (pair_at n) us)).
  { destruct (le_lt_dec n 100) as [L|L].
    - destruct (table_angles t n Hu ltac:(lia) H2n l G) as (us & _ & E). exists us. exact E.
    - destruct (rule_angles t n Hu L H2n l G) as (us & _ & E). exists us. exact E. }
  destruct X as (us & ->). apply List.Forall_forall. intros q Hq. apply in_rev in Hq. apply in_map_iff in Hq. destruct Hq as (v & <- & _). apply COS_bound.
Qed.
Lemma side_near : forall x y e v K, Rabs (x - y) <= e -> (y <= v - K -> x <= v - K + e) /\ (v - K <= y -> v - K - e <= x).
Proof. intros x y e v K H. assert (A := Rle_abs (x - y)). assert (B := Rle_abs (- (x - y))). rewrite Rabs_Ropp in B. split; intros; lra. Qed.
Lemma legendre_side : (1 <= n <= 100)%nat -> forall a b (F : nat -> R -> R) M omega, a < b -> has_derivatives (closed_between a b) (2 * n) F ->
  (forall x, closed_between a b x -> Rabs (F O x) <= M) -> oscillation a b (F O) (21 / 10 ^ 17 * (Rabs (b - a) / 2)) omega ->
  (forall L, (forall x, closed_between a b x -> L <= F (2 * n)%nat x) ->
    legendre_value r a b (F O) <= RInt (F O) a b - L * ((b - a) / 2) ^ (2 * n + 1) / INR (fact (2 * n)) * leg_const n + (omega + 21 / 10 ^ 17 * M) * Rabs (b - a)) /\
  (forall U, (forall x, closed_between a b x -> F (2 * n)%nat x <= U) ->
    RInt (F O) a b - U * ((b - a) / 2) ^ (2 * n + 1) / INR (fact (2 * n)) * leg_const n - (omega + 21 / 10 ^ 17 * M) * Rabs (b - a) <= legendre_value r a b (F O)).
Proof.
  intros Hn a b F M om E HF HM HO. destruct (gauss_rule_exists n ltac:(lia)) as (l & G & _).
  destruct (leg_exact_side n l ltac:(lia) G (exact_nodes_inside ltac:(lia) l G) a b F E HF) as [S1 S2].
  assert (Q := table_same t n r Hu H2n Hr Hn l G a b (F O) M om HM HO).
  split; intros L HL.
  - apply (side_near _ _ _ _ _ Q). apply S1, HL.
  - apply (side_near _ _ _ _ _ Q). apply S2, HL.
Qed.
Lemma legendre_big_side : (100 < n)%nat -> forall a b (F : nat -> R -> R) M omega, a < b -> has_derivatives (closed_between a b) (2 * n) F ->
  (forall x, closed_between a b x -> Rabs (F O x) <= M) -> oscillation a b (F O) (Rabs (b - a) / INR n / 10 ^ 13) omega ->
  (forall L, (forall x, closed_between a b x -> L <= F (2 * n)%nat x) ->
    legendre_value r a b (F O) <= RInt (F O) a b - L * ((b - a) / 2) ^ (2 * n + 1) / INR (fact (2 * n)) * leg_const n + (omega + 24 / 10 ^ 14 * M) * Rabs (b - a)) /\
  (forall U, (forall x, closed_between a b x -> F (2 * n)%nat x <= U) ->
    RInt (F O) a b - U * ((b - a) / 2) ^ (2 * n + 1) / INR (fact (2 * n)) * leg_const n - (omega + 24 / 10 ^ 14 * M) * Rabs (b - a) <= legendre_value r a b (F O)).
Proof.
  intros Hn a b F M om E HF HM HO. destruct (gauss_rule_exists n ltac:(lia)) as (l & G & _).
  destruct (leg_exact_side n l ltac:(lia) G (exact_nodes_inside ltac:(lia) l G) a b F E HF) as [S1 S2].
  assert (Q := big_same t n r Hu Hn H2n Hr l G a b (F O) M om HM HO).
  split; intros L HL.
  - apply (side_near _ _ _ _ _ Q). apply S1, HL.
  - apply (side_near _ _ _ _ _ Q). apply S2, HL.
Qed.
End N.
