(** The Gauss-Chebyshev rules of the model: exactness, order, symmetry. *)
From Coq Require Import Reals List ZArith Lra Lia Sorted FunctionalExtensionality.
From Coquelicot Require Import Coquelicot.
From Verif Require Import Arith RInst Machine Rules Par Chebyshev RSum PolySpec PolyProof Improper JacobiWeight ChebSpec ChebExact
  RuleSpec MassSpec GaussProof SizeProof IterProof GaussExact.
Import ListNotations.
Local Open Scope R_scope.

Definition pair1 (n i : nat) : R * R := (cos (PI * (2 * INR (S i) - 1) / (2 * INR n)), PI / INR n).
Definition pair2 (n i : nat) : R * R :=
  (cos (PI * INR (S i) * (1 / (INR n + 1))),
   PI * (1 / (INR n + 1)) * sin (PI * INR (S i) * (1 / (INR n + 1))) * sin (PI * INR (S i) * (1 / (INR n + 1)))).

Lemma IZR_S : forall i, IZR (1 + Z.of_nat i) = INR (S i).
Proof. intros. rewrite plus_IZR, S_INR, <- INR_IZR_INZ. ring. Qed.
Lemma zrange_rev : forall (X : Type) (g : Z -> X) n, (1 <= n)%Z ->
  map g (rev (zrange 1 (n + 1))) = rev (map (fun i => g (1 + Z.of_nat i)%Z) (seq 0 (Z.to_nat n))).
Proof.
  intros X g n Hn. rewrite map_rev. f_equal. unfold zrange. rewrite map_map. do 2 f_equal. lia.
Qed.
Lemma cheb1_pairs : forall t n (r : GaussChebyshevFirstKind RA), (1 <= n < usize_max t)%Z -> chebyshev1_new t n = Ok r ->
  chebyshev1_pairs r = rev (map (pair1 (Z.to_nat n)) (seq 0 (Z.to_nat n))).
Proof.
  intros t n r Hn H. unfold chebyshev1_new in H. rewrite usize_add_ok in H by lia. injection H as <-. cbn [chebyshev1_pairs].
  rewrite zrange_rev by lia. f_equal. apply map_ext. intros i. unfold chebyshev1_pair, pair1.
  assert (N : IZR n = INR (Z.to_nat n)) by (rewrite INR_IZR_INZ, Z2Nat.id by lia; reflexivity).
  rewrite <- N, <- IZR_S. assert (T : @lit2 RA = 2) by apply RInstProof.ra_lit2. assert (O : @lit1 RA = 1) by apply RInstProof.ra_lit1.
  rewrite T, O. reflexivity.
Qed.
Lemma cheb2_pairs : forall t n (r : GaussChebyshevSecondKind RA), (1 <= n < usize_max t)%Z -> chebyshev2_new t n = Ok r ->
  chebyshev2_pairs r = rev (map (pair2 (Z.to_nat n)) (seq 0 (Z.to_nat n))).
Proof.
  intros t n r Hn H. unfold chebyshev2_new in H. rewrite usize_add_ok in H by lia. injection H as <-. cbn [chebyshev2_pairs].
  rewrite zrange_rev by lia. f_equal. apply map_ext. intros i. unfold chebyshev2_pair, pair2.
  assert (N : IZR n = INR (Z.to_nat n)) by (rewrite INR_IZR_INZ, Z2Nat.id by lia; reflexivity).
  rewrite <- N, <- IZR_S. assert (O : @lit1 RA = 1) by apply RInstProof.ra_lit1.
  rewrite O. reflexivity.
Qed.

(** * Exactness *)
Lemma apply_rule_rev_seq : forall (p : nat -> R * R) n f,
  apply_rule (rev (map p (seq 0 n))) f = rsum n (fun i => f (fst (p i)) * snd (p i)).
Proof.
  intros p n f. unfold apply_rule. rewrite map_rev, lsum_rev, map_map, lsum_map_seq. reflexivity.
Qed.
Definition L_1 : (R -> R) -> R := wint (at_right (-1)) (at_left 1) w1.
Definition L_2 : (R -> R) -> R := wint (at_right (-1)) (at_left 1) w2.
Lemma mom1 : forall k, exists I, cheb_has (fun x => w1 x * x ^ k) I.
Proof. apply (cheb_moments w1 1); [lra|]. intros k. eexists. apply cheb1_int_T. Qed.
Lemma mom2 : forall k, exists I, cheb_has (fun x => w2 x * x ^ k) I.
Proof. apply (cheb_moments w2 2); [lra|]. intros k. eexists. apply cheb2_int_U. Qed.
Lemma L1_lin : linear_on_polynomials L_1.
Proof. apply (wint_linear unit_open _ _ unit_convex unit_a unit_b w1 w1_cont mom1). Qed.
Lemma L2_lin : linear_on_polynomials L_2.
Proof. apply (wint_linear unit_open _ _ unit_convex unit_a unit_b w2 (fun x _ => sq_cont x) mom2). Qed.
Lemma L1_T : forall k, L_1 (ch 1 k) = if Nat.eqb k 0 then PI else 0.
Proof.
  intros k. apply (wint_val unit_open _ _ unit_convex unit_a unit_b w1 w1_cont k); [apply ch_poly|]. apply cheb1_int_T.
Qed.
Lemma L2_U : forall k, L_2 (ch 2 k) = if Nat.eqb k 0 then PI / 2 else 0.
Proof.
  intros k. apply (wint_val unit_open _ _ unit_convex unit_a unit_b w2 (fun x _ => sq_cont x) k); [apply ch_poly|]. apply cheb2_int_U.
Qed.
Lemma L1_gen : forall d f, polynomial d f -> chebyshev1_integral f (L_1 f).
Proof.
  intros d f Hf. unfold chebyshev1_integral.
  replace (fun x : R => f x / sqrt (1 - x * x)) with (fun x => w1 x * f x) by (extensionality x; unfold w1, Rdiv; ring).
  apply (wint_gen unit_open _ _ unit_convex unit_a unit_b w1 w1_cont mom1 d f Hf).
Qed.
Lemma gen_proper : forall (f : R -> R) (v : R), (forall x, continuous f x) -> is_RInt_gen f (at_right (-1)) (at_left 1) v -> is_RInt f (-1) 1 v.
Proof.
  intros f v Hc Hg. set (F := fun x => RInt f 0 x).
  assert (D : forall x, is_derive F x (f x)).
  { intros x. apply (is_derive_RInt f F 0 x); [|apply Hc]. apply filter_forall. intros y. apply (RInt_correct (V := R_CompleteNormedModule) f 0 y).
    apply (ex_RInt_continuous (V := R_CompleteNormedModule)). intros; apply Hc. }
  assert (G : is_RInt_gen f (at_right (-1)) (at_left 1) (F 1 - F (-1))).
  { apply (has_int_gen unit_open _ _ unit_convex unit_a unit_b); [intros; apply Hc|].
    exists F, (F (-1)), (F 1). split; [intros; apply D|]. split; [|split; [|reflexivity]].
    - apply (filterlim_filter_le_1 (F := locally (-1)) (G := at_right (-1))); [apply filter_le_within|].
      apply (ex_derive_continuous (V := R_NormedModule)). exists (f (-1)). apply D.
    - apply (filterlim_filter_le_1 (F := locally 1) (G := at_left 1)); [apply filter_le_within|].
      apply (ex_derive_continuous (V := R_NormedModule)). exists (f 1). apply D. }
  replace v with (F 1 - F (-1)).
  - apply (is_RInt_derive (V := R_CompleteNormedModule) F f (-1) 1); intros; [apply D|apply Hc].
  - rewrite <- (is_RInt_gen_unique f v Hg). symmetry. exact (is_RInt_gen_unique f _ G).
Qed.
Lemma L2_gen : forall d f, polynomial d f -> chebyshev2_integral f (L_2 f).
Proof.
  intros d f Hf. unfold chebyshev2_integral.
  replace (fun x : R => f x * sqrt (1 - x * x)) with (fun x => w2 x * f x) by (extensionality x; unfold w2; ring).
  apply gen_proper.
  - intros x. apply cont_mult; [apply sq_cont|apply (poly_cont d), Hf].
  - apply (wint_gen unit_open _ _ unit_convex unit_a unit_b w2 (fun x _ => sq_cont x) mom2 d f Hf).
Qed.

Lemma rule1_T : forall n k, (0 < n)%nat -> (k < 2 * n)%nat ->
  apply_rule (rev (map (pair1 n) (seq 0 n))) (ch 1 k) = if Nat.eqb k 0 then PI else 0.
Proof.
  intros n k Hn Hk. rewrite apply_rule_rev_seq. unfold pair1. cbn [fst snd].
  rewrite (rsum_ext n _ (fun i => cos (INR k * (PI * (2 * INR (S i) - 1) / (2 * INR n))) * (PI / INR n))) by (intros; rewrite T_cos; reflexivity).
  rewrite rsum_scal_r. assert (0 < INR n) by (apply lt_0_INR; lia).
  destruct (Nat.eqb_spec k 0) as [->|K].
  - rewrite (rsum_ext n _ (fun _ => 1)) by (intros; simpl (INR 0); rewrite Rmult_0_l, cos_0; reflexivity).
    rewrite rsum_const. field. lra.
  - rewrite cheb1_sum by lia. ring.
Qed.
Lemma rule2_U : forall n k, (0 < n)%nat -> (k < 2 * n)%nat ->
  apply_rule (rev (map (pair2 n) (seq 0 n))) (ch 2 k) = if Nat.eqb k 0 then PI / 2 else 0.
Proof.
  intros n k Hn Hk. rewrite apply_rule_rev_seq. unfold pair2. cbn [fst snd].
  assert (0 < INR n) by (apply lt_0_INR; lia). set (h := 1 / (INR n + 1)).
  rewrite (rsum_ext n _ (fun i => (cos (INR k * (PI * INR (S i) * h)) - cos (INR (k + 2) * (PI * INR (S i) * h))) * (PI * h / 2))).
  - rewrite rsum_scal_r, rsum_minus. unfold h. rewrite (cheb2_sum n (k + 2)) by lia.
    destruct (Nat.eqb_spec k 0) as [->|K].
    + rewrite (rsum_ext n _ (fun _ => 1)) by (intros; simpl (INR 0); rewrite Rmult_0_l, cos_0; reflexivity).
      rewrite rsum_const. simpl. field. lra.
    + rewrite cheb2_sum by lia. rewrite pow_add. simpl. field. lra.
  - intros i _. set (t := PI * INR (S i) * h).
    transitivity ((ch 2 k (cos t) * sin t) * sin t * (PI * h)); [ring|]. rewrite U_sin.
    replace (INR (k + 2)) with (INR (S k) + 1) by (rewrite plus_INR, S_INR; simpl; ring).
    replace (INR k) with (INR (S k) - 1) by (rewrite S_INR; ring).
    replace ((INR (S k) - 1) * t) with (INR (S k) * t - t) by ring.
    replace ((INR (S k) + 1) * t) with (INR (S k) * t + t) by ring. rewrite cos_plus, cos_minus. field.
Qed.

Lemma cheb1_rule_L : forall n f, (0 < n)%nat -> polynomial (2 * n - 1) f -> apply_rule (rev (map (pair1 n) (seq 0 n))) f = L_1 f.
Proof.
  intros n f Hn Hf. apply (agree_basis _ _ (ch 1) (apply_rule_linear _) L1_lin (ch_exact 1 ltac:(lra)) (2 * n - 1)); [|exact Hf].
  intros k Hk. rewrite rule1_T, L1_T by lia. reflexivity.
Qed.
Lemma cheb2_rule_L : forall n f, (0 < n)%nat -> polynomial (2 * n - 1) f -> apply_rule (rev (map (pair2 n) (seq 0 n))) f = L_2 f.
Proof.
  intros n f Hn Hf. apply (agree_basis _ _ (ch 2) (apply_rule_linear _) L2_lin (ch_exact 2 ltac:(lra)) (2 * n - 1)); [|exact Hf].
  intros k Hk. rewrite rule2_U, L2_U by lia. reflexivity.
Qed.

Theorem cheb1_exact : forall t n (r : GaussChebyshevFirstKind RA), (1 <= n < usize_max t)%Z -> chebyshev1_new t n = Ok r ->
  forall f, polynomial (2 * Z.to_nat n - 1) f -> chebyshev1_integral f (chebyshev1_value r (-1) 1 f).
Proof.
  intros t n r Hn Hr f Hf. unfold chebyshev1_value. rewrite chebyshev1_R, gauss_on_unit, (cheb1_pairs t n r Hn Hr).
  rewrite cheb1_rule_L; [apply (L1_gen (2 * Z.to_nat n - 1)), Hf|lia|exact Hf].
Qed.
Theorem cheb2_exact : forall t n (r : GaussChebyshevSecondKind RA), (1 <= n < usize_max t)%Z -> chebyshev2_new t n = Ok r ->
  forall f, polynomial (2 * Z.to_nat n - 1) f -> chebyshev2_integral f (chebyshev2_value r (-1) 1 f).
Proof.
  intros t n r Hn Hr f Hf. unfold chebyshev2_value. rewrite chebyshev2_R, gauss_on_unit, (cheb2_pairs t n r Hn Hr).
  rewrite cheb2_rule_L; [apply (L2_gen (2 * Z.to_nat n - 1)), Hf|lia|exact Hf].
Qed.

(** * Order, symmetry, weights *)
Lemma rev_map_seq : forall X (p : nat -> X) n, rev (map p (seq 0 n)) = map (fun i => p (n - 1 - i)%nat) (seq 0 n).
Proof.
  intros X p n. induction n as [|n IH]; [reflexivity|].
  change (seq 0 (S n)) with (0 :: seq 1 n)%nat at 2. rewrite seq_S, map_app, rev_app_distr, IH. cbn [map rev app].
  rewrite <- seq_shift, map_map. f_equal; [f_equal; lia|]. apply map_ext. intros i. f_equal. lia.
Qed.
Lemma sorted_cos : forall (p : nat -> R * R) n, (forall i j, (i < j)%nat -> (j < n)%nat -> fst (p j) < fst (p i)) ->
  strictly_ascending (rev (map p (seq 0 n))).
Proof.
  intros p n. induction n as [|n IH]; intros H; [constructor|].
  rewrite seq_S, map_app, rev_app_distr. simpl. constructor.
  - apply IH. intros; apply H; lia.
  - apply List.Forall_forall. intros q Hq. apply in_rev in Hq. apply in_map_iff in Hq. destruct Hq as (i & <- & Hi).
    apply in_seq in Hi. apply H; lia.
Qed.
Section CosRule.
Variables (n : nat) (th wt : nat -> R).
Hypothesis th_range : forall i, (i < n)%nat -> 0 < th i < PI.
Hypothesis th_mono : forall i j, (i < j)%nat -> (j < n)%nat -> th i < th j.
Hypothesis th_sym : forall i, (i < n)%nat -> th (n - 1 - i)%nat = PI - th i.
Hypothesis wt_sym : forall i, (i < n)%nat -> wt (n - 1 - i)%nat = wt i.
Hypothesis wt_pos : forall i, (i < n)%nat -> 0 < wt i.
Let l := rev (map (fun i => (cos (th i), wt i)) (seq 0 n)).
Lemma cos_rule : strictly_ascending l /\ symmetric_rule l /\ List.Forall (fun xw : R * R => -1 < fst xw < 1 /\ 0 < snd xw) l.
Proof.
  split; [|split].
  - apply sorted_cos. intros i j Hij Hj. simpl. pose proof (th_range i ltac:(lia)). pose proof (th_range j Hj).
    apply cos_decreasing_1; try lra. apply th_mono; assumption.
  - unfold symmetric_rule, l. rewrite rev_involutive, rev_map_seq, map_map. apply map_ext_in. intros i Hi. apply in_seq in Hi. cbn [fst snd].
    rewrite th_sym, wt_sym by lia. f_equal. rewrite cos_minus, cos_PI, sin_PI. ring.
  - apply List.Forall_forall. intros q Hq. apply in_rev in Hq. apply in_map_iff in Hq. destruct Hq as (i & <- & Hi).
    apply in_seq in Hi. cbn [fst snd]. split; [|apply wt_pos; lia]. pose proof (th_range i ltac:(lia)). pose proof PI_RGT_0.
    split; [rewrite <- cos_PI; apply cos_decreasing_1; lra|rewrite <- cos_0; apply cos_decreasing_1; lra].
Qed.
End CosRule.

Lemma weights_sum : forall (l : list (R * R)), lsum (map snd l) = apply_rule l (fun _ => 1).
Proof. intros l. unfold apply_rule. apply lsum_map_ext. intros. ring. Qed.

Theorem cheb1_shape : forall t n (r : GaussChebyshevFirstKind RA), (1 <= n < usize_max t)%Z -> chebyshev1_new t n = Ok r ->
  strictly_ascending (chebyshev1_pairs r) /\ symmetric_rule (chebyshev1_pairs r) /\
  List.Forall (fun xw : R * R => -1 < fst xw < 1 /\ 0 < snd xw) (chebyshev1_pairs r) /\
  lsum (map snd (chebyshev1_pairs r)) = PI.
Proof.
  intros t n r Hn Hr. rewrite (cheb1_pairs t n r Hn Hr). set (m := Z.to_nat n). assert (Hm : (0 < m)%nat) by (unfold m; lia).
  assert (HM : 0 < INR m) by (apply lt_0_INR; exact Hm). pose proof PI_RGT_0 as HP.
  assert (Q : forall i, (i < m)%nat -> INR (S i) <= INR m) by (intros; apply le_INR; lia).
  assert (Q0 : forall i, 1 <= INR (S i)) by (intros; rewrite S_INR; pose proof (pos_INR i); lra).
  destruct (cos_rule m (fun i => PI * (2 * INR (S i) - 1) / (2 * INR m)) (fun _ => PI / INR m)) as (A & B & C).
  - intros i Hi. specialize (Q i Hi). specialize (Q0 i). split.
    + apply Rdiv_lt_0_compat; [apply Rmult_lt_0_compat; lra|lra].
    + apply (Rmult_lt_reg_r (2 * INR m)); [lra|]. unfold Rdiv. rewrite Rmult_assoc, Rinv_l, Rmult_1_r by lra. apply Rmult_lt_compat_l; lra.
  - intros i j Hij Hj. unfold Rdiv. apply Rmult_lt_compat_r; [apply Rinv_0_lt_compat; lra|]. apply Rmult_lt_compat_l; [exact HP|].
    enough (INR (S i) < INR (S j)) by lra. apply lt_INR. lia.
  - intros i Hi. replace (INR (S (m - 1 - i))) with (INR m - INR i) by (rewrite <- minus_INR by lia; f_equal; lia). rewrite S_INR. field. lra.
  - intros; reflexivity.
  - intros i Hi. apply Rdiv_lt_0_compat; lra.
  - split; [exact A|]. split; [exact B|]. split; [exact C|].
    rewrite weights_sum. apply (rule1_T m 0); lia.
Qed.
Theorem cheb2_shape : forall t n (r : GaussChebyshevSecondKind RA), (1 <= n < usize_max t)%Z -> chebyshev2_new t n = Ok r ->
  strictly_ascending (chebyshev2_pairs r) /\ symmetric_rule (chebyshev2_pairs r) /\
  List.Forall (fun xw : R * R => -1 < fst xw < 1 /\ 0 < snd xw) (chebyshev2_pairs r) /\
  lsum (map snd (chebyshev2_pairs r)) = PI / 2.
Proof.
  intros t n r Hn Hr. rewrite (cheb2_pairs t n r Hn Hr). set (m := Z.to_nat n). assert (Hm : (0 < m)%nat) by (unfold m; lia).
  assert (HM : 0 < INR m) by (apply lt_0_INR; exact Hm). pose proof PI_RGT_0 as HP.
  assert (Q : forall i, (i < m)%nat -> INR (S i) <= INR m) by (intros; apply le_INR; lia).
  assert (Q0 : forall i, 1 <= INR (S i)) by (intros; rewrite S_INR; pose proof (pos_INR i); lra).
  assert (Rg : forall i, (i < m)%nat -> 0 < PI * INR (S i) * (1 / (INR m + 1)) < PI).
  { intros i Hi. specialize (Q i Hi). specialize (Q0 i). assert (0 < 1 / (INR m + 1)) by (apply Rdiv_lt_0_compat; lra). split.
    + apply Rmult_lt_0_compat; [apply Rmult_lt_0_compat; lra|assumption].
    + apply (Rmult_lt_reg_r (INR m + 1)); [lra|].
      replace (PI * INR (S i) * (1 / (INR m + 1)) * (INR m + 1)) with (PI * INR (S i)) by (field; lra). apply Rmult_lt_compat_l; lra. }
  assert (Sy : forall i, (i < m)%nat -> PI * INR (S (m - 1 - i)) * (1 / (INR m + 1)) = PI - PI * INR (S i) * (1 / (INR m + 1))).
  { intros i Hi. replace (INR (S (m - 1 - i))) with (INR m - INR i) by (rewrite <- minus_INR by lia; f_equal; lia). rewrite S_INR. field. lra. }
  destruct (cos_rule m (fun i => PI * INR (S i) * (1 / (INR m + 1))) (fun i => snd (pair2 m i))) as (A & B & C).
  - exact Rg.
  - intros i j Hij Hj. apply Rmult_lt_compat_r; [apply Rdiv_lt_0_compat; lra|]. apply Rmult_lt_compat_l; [exact HP|]. apply lt_INR. lia.
  - exact Sy.
  - intros i Hi. unfold pair2. cbn [snd]. rewrite Sy by exact Hi.
    set (th := PI * INR (S i) * (1 / (INR m + 1))). rewrite sin_minus, sin_PI, cos_PI. ring.
  - intros i Hi. unfold pair2. cbn [snd]. pose proof (Rg i Hi) as Hr'. pose proof (sin_gt_0 _ (proj1 Hr') (proj2 Hr')).
    assert (0 < 1 / (INR m + 1)) by (apply Rdiv_lt_0_compat; lra).
    apply Rmult_lt_0_compat; [apply Rmult_lt_0_compat; [apply Rmult_lt_0_compat|]|]; assumption.
  - split; [exact A|]. split; [exact B|]. split; [exact C|].
    rewrite weights_sum. apply (rule2_U m 0); lia.
Qed.

(** * On an arbitrary interval *)
From Verif Require Import TransferSpec TransferProof.
Theorem cheb1_interval : forall t n (r : GaussChebyshevFirstKind RA), (1 <= n < usize_max t)%Z -> chebyshev1_new t n = Ok r ->
  forall a b f, a <> b -> polynomial (2 * Z.to_nat n - 1) f ->
  weighted_integral (fun x => / sqrt (1 - x * x)) a b f (chebyshev1_value r a b f).
Proof.
  intros t n r Hn Hr a b f E Hf.
  destruct (transfer_values (fun x => / sqrt (1 - x * x)) _ a b f E Hf) as (_ & _ & H & _). apply H.
  intros p Hp. pose proof (cheb1_exact t n r Hn Hr p Hp) as G. unfold chebyshev1_value in G. rewrite chebyshev1_R, gauss_on_unit in G.
  unfold chebyshev1_integral in G.
  replace (fun x : R => / sqrt (1 - x * x) * p x) with (fun x => p x / sqrt (1 - x * x)) by (extensionality x; unfold Rdiv; ring). exact G.
Qed.
Theorem cheb2_interval : forall t n (r : GaussChebyshevSecondKind RA), (1 <= n < usize_max t)%Z -> chebyshev2_new t n = Ok r ->
  forall a b f, polynomial (2 * Z.to_nat n - 1) f ->
  is_RInt (fun x => sqrt (1 - to_unit a b x * to_unit a b x) * f x) a b (chebyshev2_value r a b f).
Proof.
  intros t n r Hn Hr a b f Hf.
  destruct (transfer_values_proper (fun x => sqrt (1 - x * x)) _ a b f Hf) as (_ & _ & _ & H). apply H.
  intros p Hp. pose proof (cheb2_exact t n r Hn Hr p Hp) as G. unfold chebyshev2_value in G. rewrite chebyshev2_R, gauss_on_unit in G.
  unfold chebyshev2_integral in G.
  replace (fun x : R => sqrt (1 - x * x) * p x) with (fun x => p x * sqrt (1 - x * x)) by (extensionality x; ring). exact G.
Qed.
Lemma cheb_rules_exist : exists (t : Target) (r1 : GaussChebyshevFirstKind RA) (r2 : GaussChebyshevSecondKind RA),
  (1 <= 3 < usize_max t)%Z /\ chebyshev1_new t 3 = Ok r1 /\ chebyshev2_new t 3 = Ok r2.
Proof.
  set (t := {| build_mode := Debug; usize_max := 65535 |}).
  destruct (@chebyshev1_new_ok RA t 3 ltac:(simpl; lia)) as (r1 & H1 & _).
  destruct (@chebyshev2_new_ok RA t 3 ltac:(simpl; lia)) as (r2 & H2 & _).
  exists t, r1, r2. split; [simpl; lia|]. split; assumption.
Qed.
Lemma simpson_proper : properly_exact_against (fun _ => 1) 1 [(-1, /3); (0, 4/3); (1, /3)].
Proof.
  intros p [c Hc]. replace (fun x : R => 1 * p x) with (fun x => c O + c 1%nat * x).
  2:{ extensionality x. rewrite Hc. simpl. ring. }
  replace (apply_rule _ p) with (2 * c O).
  2:{ unfold apply_rule. simpl. rewrite !Hc. simpl. field. }
  replace (2 * c O) with ((fun x => c O * x + c 1%nat * x * x / 2) 1 - (fun x => c O * x + c 1%nat * x * x / 2) (-1)) by (cbv beta; field).
  apply (is_RInt_derive (V := R_CompleteNormedModule) (fun x => c O * x + c 1%nat * x * x / 2)).
  - intros x _. auto_derive; [exact I|]. field.
  - intros x _. apply (poly_cont 1). exists c. intros y. simpl. ring.
Qed.
