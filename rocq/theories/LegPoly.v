(** The tabulated Gauss-Legendre rules applied to polynomials, in exact arithmetic. *)
From Coq Require Import Reals ZArith List Lia Lra Bool Psatz FunctionalExtensionality.
From Coquelicot Require Import Coquelicot.
From Verif Require Import Arith RInst RInstProof Machine Rules LegendreData Legendre RSum PolySpec PolyProof RuleSpec GaussProof TransferProof OrthoProof
  Improper EigenProof ChebExact ChebRule LegSym LegAsym LegTable LegShape FixPoint LegCheck LegMom LegCheb.
Import ListNotations.
Local Open Scope R_scope.

(** * Integrals over [-1,1] *)
Definition I1 (f : R -> R) : R := RInt f (-1) 1.
Lemma poly_int : forall d f a b, polynomial d f -> ex_RInt f a b.
Proof. intros d f a b H. apply (ex_RInt_continuous (V := R_CompleteNormedModule)). intros x _. apply (poly_cont d), H. Qed.
Lemma I1_lin : linear_on_polynomials I1.
Proof.
  intros d c e f g Hf Hg. unfold I1. apply is_RInt_unique.
  apply (is_RInt_plus (V := R_NormedModule) (fun x => c * f x) (fun x => e * g x)).
  - apply (is_RInt_scal (V := R_NormedModule)). apply (RInt_correct (V := R_CompleteNormedModule)), (poly_int d), Hf.
  - apply (is_RInt_scal (V := R_NormedModule)). apply (RInt_correct (V := R_CompleteNormedModule)), (poly_int d), Hg.
Qed.
Lemma I1_pow : forall k, I1 (fun x => x ^ k) = (1 - (-1) ^ S k) / INR (S k).
Proof.
  intros k. unfold I1. apply is_RInt_unique. assert (K : INR (S k) <> 0) by (apply not_0_INR; lia).
  replace ((1 - (-1) ^ S k) / INR (S k)) with (minus (1 ^ S k / INR (S k)) ((-1) ^ S k / INR (S k))).
  2:{ rewrite pow1. unfold minus, plus, opp. cbn -[INR pow]. field. exact K. }
  apply (is_RInt_derive (V := R_CompleteNormedModule) (fun x => x ^ S k / INR (S k)) (fun x => x ^ k)).
  - intros x _. auto_derive; [exact I|]. change (match k with O => 1 | S _ => INR k + 1 end) with (INR (S k)). cbn [Nat.pred]. field. exact K.
  - intros x _. apply (poly_cont k), poly_pow.
Qed.
Lemma I1_odd : forall d f, polynomial d f -> (forall x, f (- x) = - f x) -> I1 f = 0.
Proof.
  intros d f Hf O. unfold I1. pose proof (RInt_correct (V := R_CompleteNormedModule) f 1 (-1) (poly_int d f 1 (-1) Hf)) as H.
  set (v := RInt f 1 (-1)) in H. assert (H' : is_RInt f (-1 * -1 + 0) (-1 * 1 + 0) v) by (replace (-1 * -1 + 0) with 1 by ring; replace (-1 * 1 + 0) with (-1) by ring; exact H).
  clear H. rename H' into H. apply (comp_lin f (-1) 0 (-1) 1) in H; [|lra].
  assert (G : is_RInt (fun x => - f x) (-1) 1 (- I1 f)) by (apply (is_RInt_opp (V := R_NormedModule)), (RInt_correct (V := R_CompleteNormedModule)), (poly_int d), Hf).
  assert (E : is_RInt (fun x => - f x) (-1) 1 (v / -1)).
  { eapply is_RInt_ext; [|exact H]. intros x _. cbv beta. rewrite <- O. f_equal. ring. }
  apply (is_RInt_unique (V := R_CompleteNormedModule)) in G. apply (is_RInt_unique (V := R_CompleteNormedModule)) in E. rewrite G in E.
  pose proof (opp_RInt_swap (V := R_CompleteNormedModule) f (-1) 1 (poly_int d f _ _ Hf)) as SW. change (opp (RInt f (-1) 1)) with (- I1 f) in SW. fold v in SW.
  change (RInt f (-1) 1) with (I1 f). lra.
Qed.
Lemma I1_T : forall j, I1 (ch 1 (2 * j)) = 2 / (1 - 4 * INR j * INR j).
Proof.
  intros j. unfold I1. set (p := ch 1 (2 * j)).
  assert (Pp : polynomial (2 * j) p) by apply ch_poly.
  assert (K1 : 2 * INR j + 1 <> 0) by (pose proof (pos_INR j); lra).
  assert (K2 : 2 * INR j - 1 <> 0).
  { destruct j; [simpl; lra|]. rewrite S_INR. pose proof (pos_INR j). lra. }
  assert (H : is_RInt (fun y => scal (- sin y) (p (cos y))) PI 0 (RInt p (cos PI) (cos 0))).
  { apply (is_RInt_comp (V := R_CompleteNormedModule) p cos (fun y => - sin y) PI 0).
    - intros x _. apply (poly_cont (2 * j)), Pp.
    - intros x _. split; [auto_derive; [exact I|ring]|]. apply (continuous_opp (V := R_NormedModule)). apply continuous_sin. }
  rewrite cos_PI, cos_0 in H. set (G := fun t => (cos ((2 * INR j + 1) * t) / (2 * INR j + 1) - cos ((2 * INR j - 1) * t) / (2 * INR j - 1)) / 2).
  assert (D : is_RInt (fun y => scal (- sin y) (p (cos y))) PI 0 (minus (G 0) (G PI))).
  { apply (is_RInt_derive (V := R_CompleteNormedModule) G).
    - intros x _. unfold p. rewrite T_cos. unfold G. unfold scal; simpl; unfold mult; simpl. auto_derive; [exact I|].
      replace (INR (j + (j + 0))) with (2 * INR j) by (rewrite !plus_INR; simpl; ring).
      replace ((2 * INR j + 1) * x) with (2 * INR j * x + x) by ring. replace ((2 * INR j - 1) * x) with (2 * INR j * x - x) by ring.
      rewrite sin_plus, sin_minus. field. split; assumption.
    - intros x _. unfold p. apply (continuous_ext (fun y => - sin y * cos (INR (2 * j) * y))); [intros y; rewrite T_cos; reflexivity|].
      apply (ex_derive_continuous (V := R_NormedModule)). auto_derive. exact I. }
  apply (is_RInt_unique (V := R_CompleteNormedModule)) in H. apply (is_RInt_unique (V := R_CompleteNormedModule)) in D. rewrite H in D. rewrite D. unfold G, minus, plus, opp. cbn -[INR].
  rewrite !Rmult_0_r, cos_0. replace ((2 * INR j + 1) * PI) with (INR (2 * j) * PI + PI) by (rewrite mult_INR; simpl; ring).
  replace ((2 * INR j - 1) * PI) with (INR (2 * j) * PI - PI) by (rewrite mult_INR; simpl; ring).
  rewrite cos_plus, cos_minus, cos_PI, sin_PI, cos_INR_PI, pow_1_even. field. repeat split; try assumption. intros Z0. apply (Rmult_integral_contrapositive _ _ (conj K1 K2)). lra.
Qed.

(** * The rule *)
Section N.
Variables (t : Target) (n : nat) (r : GaussLegendre RA).
Hypothesis Hu : (100 <= usize_max t)%Z.
Hypothesis Hn : (1 <= n <= 100)%nat.
Hypothesis H2n : (2 * Z.of_nat n <= usize_max t)%Z.
Hypothesis Hr : legendre_new t (Z.of_nat n) = Ok r.
Let l : list (R * R) := legendre_pairs r.

Lemma rsum_fold : forall h (g : nat -> R), rsum (2 * h) g = rsum h (fun i => g i + g (2 * h - 1 - i)%nat) /\
  rsum (2 * h + 1) g = rsum h (fun i => g i + g (2 * h + 1 - 1 - i)%nat) + g h.
Proof.
  intros h g. split.
  - replace (2 * h)%nat with (h + h)%nat by lia. rewrite rsum_add, rsum_plus. f_equal. rewrite (rsum_rev h). apply rsum_ext. intros i Hi. f_equal. lia.
  - replace (2 * h + 1)%nat with (h + (1 + h))%nat by lia. rewrite rsum_add, rsum_plus. rewrite (rsum_add 1 h). cbn [rsum].
    rewrite (rsum_rev h (fun i => g (h + (1 + i))%nat)). rewrite Nat.add_0_r.
    replace (rsum h (fun i => g (h + (1 + (h - 1 - i)))%nat)) with (rsum h (fun i => g (h + (1 + h) - 1 - i)%nat)) by (apply rsum_ext; intros i Hi; f_equal; lia). ring.
Qed.
Lemma entries_sum : forall F : (Z * Z) * (Z * Z) -> R, lsum (map F (entries n)) =
  rsum (n / 2) (fun i => F (nth (n / 2 - 1 - i) (theta_row n) d0, nth (n / 2 - 1 - i) (weight_row n) d0)).
Proof.
  intros F. unfold entries. destruct (Nat.ltb_spec n 2) as [H|H]; [assert (n = 1)%nat by lia; subst n; reflexivity|].
  destruct (row_length n ltac:(lia)) as [L1 L2].
  rewrite <- (rsum_rev (n / 2) (fun i => F (nth i (theta_row n) d0, nth i (weight_row n) d0))).
  assert (G : forall (a b : list (Z * Z)) m, length a = m -> length b = m -> lsum (map F (combine a b)) = rsum m (fun i => F (nth i a d0, nth i b d0))).
  { induction a as [|x a IH]; intros [|y b] m La Lb; cbn [length] in *; subst m; try discriminate; [reflexivity|].
    cbn [combine map lsum]. rewrite rsum_first. cbn [nth]. rewrite (IH b (length a) eq_refl) by lia. reflexivity. }
  apply G; assumption.
Qed.
Lemma half_split : (n = 2 * (n / 2) /\ Nat.odd n = false)%nat \/ (n = 2 * (n / 2) + 1 /\ Nat.odd n = true)%nat.
Proof.
  pose proof (Nat.div_mod n 2 ltac:(lia)) as D. pose proof (Nat.mod_upper_bound n 2 ltac:(lia)) as M. rewrite <- Nat.bit0_odd, Nat.bit0_eqb.
  destruct (Nat.eqb_spec (n mod 2) 1); [right|left]; split; try reflexivity; lia.
Qed.
Lemma rule_halves : forall f, apply_rule l f =
  lsum (map (fun d => weight d * (f (cos (theta d)) + f (- cos (theta d)))) (entries n)) + midw n * f 0.
Proof.
  intros f. unfold l. rewrite (legendre_list t (Z.of_nat n) r Hu ltac:(lia) H2n Hr), Nat2Z.id. rewrite apply_rule_rev_seq. cbn [at_cos fst snd]. change (@ncos RA) with cos.
  rewrite entries_sum. set (h := (n / 2)%nat).
  set (g := fun i => f (cos (fst (@tw RA t (Z.of_nat n) i))) * snd (@tw RA t (Z.of_nat n) i)).
  assert (P : forall i, (2 * i + 1 < n)%nat -> g i + g (n - 1 - i)%nat =
    val (nth (h - 1 - i) (weight_row n) d0) * (f (cos (val (nth (h - 1 - i) (theta_row n) d0))) + f (- cos (val (nth (h - 1 - i) (theta_row n) d0))))).
  { intros i Hi. unfold g. pose proof (tw_sym (A := RA) t (Z.of_nat n) i Hu ltac:(lia) H2n ltac:(lia)) as T. rewrite Nat2Z.id in T. rewrite T. cbn [fst snd].
    rewrite (tw_table t n i Hu Hn Hi). fold h. cbn [fst snd]. unfold val. change (@nsub RA npi ?x) with (PI - x).
    match goal with |- context [cos (PI - ?x)] => replace (cos (PI - x)) with (- cos x) by (rewrite cos_minus, cos_PI, sin_PI; ring) end. ring. }
  assert (H2 : (2 * h <= n)%nat) by (unfold h; destruct half_split as [[E _]|[E _]]; lia).
  destruct half_split as [[E O]|[E O]]; fold h in E.
  - rewrite E. rewrite (proj1 (rsum_fold h g)). unfold midw. rewrite <- E, O, Rmult_0_l, Rplus_0_r. apply rsum_ext. intros i Hi. cbn [fst snd]. apply P. lia.
  - rewrite E at 1. change (rsum (2 * h + 1) g = rsum h (fun i => val (nth (h - 1 - i) (weight_row n) d0) * (f (cos (val (nth (h - 1 - i) (theta_row n) d0))) + f (- cos (val (nth (h - 1 - i) (theta_row n) d0))))) + midw n * f 0).
    rewrite (proj2 (rsum_fold h g)). rewrite <- E. f_equal.
    + apply rsum_ext. intros i Hi. apply P. lia.
    + unfold g, h. rewrite (tw_middle t n Hu Hn O). cbn [fst snd]. rewrite cos_PI2. unfold midw. rewrite O. unfold val. apply Rmult_comm.
Qed.
Lemma rule_odd : forall f, (forall x, f (- x) = - f x) -> apply_rule l f = 0.
Proof.
  intros f O. rewrite rule_halves. assert (F0 : f 0 = 0) by (pose proof (O 0) as H; rewrite Ropp_0 in H; lra). rewrite F0, Rmult_0_r, Rplus_0_r.
  rewrite (lsum_map_ext _ _ (fun _ => 0)) by (intros d _; rewrite O; ring). rewrite lsum_const. ring.
Qed.

(** ** Monomials *)
Lemma pow_opp : forall x k, (- x) ^ k = (-1) ^ k * x ^ k.
Proof. intros x k. rewrite <- Rpow_mult_distr. f_equal. ring. Qed.
Lemma sign_pow : forall k, (-1) ^ (2 * k) = 1 /\ (-1) ^ (2 * k + 1) = -1.
Proof. intros k. split; [apply pow_1_even|]. rewrite Nat.add_1_r. apply pow_1_odd. Qed.
Lemma monomial_error : forall k, (k < 2 * n)%nat -> Rabs (apply_rule l (fun x => x ^ k) - I1 (fun x => x ^ k)) <= 15 / 10 ^ 17.
Proof.
  intros k Hk. destruct (Nat.Even_or_Odd k) as [[j ->]|[j ->]].
  - pose proof (power_moment n Hn j ltac:(lia)) as P. rewrite rule_halves, I1_pow.
    assert (E : forall d, weight d * (cos (theta d) ^ (2 * j) + (- cos (theta d)) ^ (2 * j)) = 2 * (weight d * (cos (theta d) * cos (theta d)) ^ j)).
    { intros d. rewrite pow_opp, (proj1 (sign_pow j)). rewrite pow_mult. replace (cos (theta d) ^ 2) with (cos (theta d) * cos (theta d)) by ring. ring. }
    rewrite (lsum_map_ext _ _ (fun d => 2 * (weight d * (cos (theta d) * cos (theta d)) ^ j))) by (intros; apply E). rewrite lsum_map_scal.
    replace (midw n * 0 ^ (2 * j)) with (if Nat.eqb j 0 then midw n else 0).
    2:{ destruct j; [simpl; ring|]. rewrite pow_i by lia. simpl. ring. }
    replace ((1 - (-1) ^ S (2 * j)) / INR (S (2 * j))) with (2 / (2 * INR j + 1)); [exact P|].
    rewrite pow_1_odd, S_INR, mult_INR. simpl (INR 2). f_equal. ring.
  - rewrite rule_odd by (intros x; rewrite pow_opp, (proj2 (sign_pow j)); ring).
    rewrite (I1_odd (2 * j + 1)); [|apply poly_pow|intros x; rewrite pow_opp, (proj2 (sign_pow j)); ring].
    rewrite Rminus_0_r, Rabs_R0. lra.
Qed.
Theorem legendre_coefficients : forall c : nat -> R,
  Rabs (apply_rule l (fun x => rsum (2 * n) (fun k => c k * x ^ k)) - RInt (fun x => rsum (2 * n) (fun k => c k * x ^ k)) (-1) 1)
  <= 15 / 10 ^ 17 * rsum (2 * n) (fun k => Rabs (c k)).
Proof.
  intros c. change (RInt (fun x => rsum (2 * n) (fun k => c k * x ^ k)) (-1) 1) with (I1 (fun x => rsum (2 * n) (fun k => c k * x ^ k))).
  assert (P : forall i, (i < 2 * n)%nat -> polynomial (2 * n) (fun x => x ^ i)) by (intros i Hi; apply (poly_weaken i); [lia|apply poly_pow]).
  rewrite (lin_sum _ (apply_rule_linear l) (2 * n) (2 * n) c (fun i x => x ^ i) P), (lin_sum _ I1_lin (2 * n) (2 * n) c (fun i x => x ^ i) P).
  rewrite <- rsum_minus. eapply Rle_trans; [apply rsum_abs|]. rewrite <- rsum_scal. apply rsum_le. intros k Hk.
  replace (c k * apply_rule l (fun x => x ^ k) - c k * I1 (fun x => x ^ k)) with (c k * (apply_rule l (fun x => x ^ k) - I1 (fun x => x ^ k))) by ring.
  rewrite Rabs_mult, Rmult_comm. apply Rmult_le_compat_r; [apply Rabs_pos|apply monomial_error; exact Hk].
Qed.

(** ** Chebyshev polynomials *)
Lemma T_parity : forall k x, ch 1 k (- x) = (-1) ^ k * ch 1 k x.
Proof.
  intros k x. revert k. refine (two_ind _ _ _ _); [rewrite !ch_0; simpl; ring|rewrite !ch_1; simpl; ring|]. intros k H0 H1. rewrite !ch_SS, H0, H1. cbn [pow]. ring.
Qed.
Lemma T_even_error : forall j, apply_rule l (ch 1 (2 * j)) - I1 (ch 1 (2 * j)) = cheb_err n j.
Proof.
  intros j. rewrite rule_halves, I1_T. unfold cheb_err. f_equal. f_equal.
  - rewrite <- lsum_map_scal. apply lsum_map_ext. intros d _. rewrite T_parity, (proj1 (sign_pow j)), T_cos. replace (INR (2 * j)) with (2 * INR j) by (rewrite mult_INR; simpl; ring). ring.
  - rewrite <- cos_PI2, T_cos. replace (INR (2 * j) * (PI / 2)) with (INR j * PI) by (rewrite mult_INR; simpl; field). rewrite cos_INR_PI. ring.
Qed.
Lemma T_odd_error : forall j, apply_rule l (ch 1 (2 * j + 1)) - I1 (ch 1 (2 * j + 1)) = 0.
Proof.
  intros j. assert (O : forall x, ch 1 (2 * j + 1) (- x) = - ch 1 (2 * j + 1) x) by (intros x; rewrite T_parity, (proj2 (sign_pow j)); ring).
  rewrite rule_odd, (I1_odd (2 * j + 1)); [ring|apply ch_poly|exact O|exact O].
Qed.

(** sum of squares of the Chebyshev coefficients *)
Section Parseval.
Variables (a : nat -> R) (N : nat).
Hypothesis HN : (0 < N)%nat.
Let phi (i : nat) : R := PI * (2 * INR (S i) - 1) / (2 * INR N).
Lemma cos_ortho : forall j k, (j < N)%nat -> (k < N)%nat ->
  rsum N (fun i => cos (INR j * phi i) * cos (INR k * phi i)) = if Nat.eqb j k then (if Nat.eqb k 0 then INR N else INR N / 2) else 0.
Proof.
  assert (G : forall j k, (k <= j)%nat -> (j < N)%nat -> rsum N (fun i => cos (INR j * phi i) * cos (INR k * phi i)) =
    (if Nat.eqb (j + k) 0 then INR N else 0) / 2 + (if Nat.eqb (j - k) 0 then INR N else 0) / 2).
  { intros j k Hjk Hj.
    rewrite (rsum_ext N _ (fun i => / 2 * cos (INR (j + k) * phi i) + / 2 * cos (INR (j - k) * phi i))).
    2:{ intros i _. rewrite plus_INR, minus_INR by exact Hjk. rewrite Rmult_plus_distr_r, Rmult_minus_distr_r, cos_plus, cos_minus. field. }
    assert (S : forall m, (m < 2 * N)%nat -> rsum N (fun i => cos (INR m * phi i)) = if Nat.eqb m 0 then INR N else 0).
    { intros m Hm. destruct (Nat.eqb_spec m 0) as [->|M]; [|apply cheb1_sum; lia].
      rewrite (rsum_ext N _ (fun _ => 1)) by (intros; simpl (INR 0); rewrite Rmult_0_l, cos_0; reflexivity). rewrite rsum_const. ring. }
    rewrite rsum_plus, !rsum_scal, !S by lia. field. }
  intros j k Hj Hk. destruct (Nat.leb_spec k j) as [H|H].
  - rewrite G by lia. destruct (Nat.eqb_spec j k) as [->|E].
    + rewrite Nat.sub_diag. simpl (0 =? 0)%nat. cbv iota. destruct k; [simpl; field|]. simpl (_ =? 0)%nat. cbv iota. field.
    + destruct (Nat.eqb_spec (j + k) 0); [lia|]. destruct (Nat.eqb_spec (j - k) 0); [lia|]. field.
  - rewrite (rsum_ext N _ (fun i => cos (INR k * phi i) * cos (INR j * phi i))) by (intros; ring). rewrite G by lia.
    destruct (Nat.eqb_spec j k) as [->|E]; [lia|]. destruct (Nat.eqb_spec (k + j) 0); [lia|]. destruct (Nat.eqb_spec (k - j) 0); [lia|]. field.
Qed.
Lemma parseval : forall M, (forall x, -1 <= x <= 1 -> Rabs (rsum N (fun k => a k * ch 1 k x)) <= M) ->
  rsum N (fun k => a k * a k) <= 2 * (M * M).
Proof.
  intros M HM. assert (PN : 0 < INR N) by (apply lt_0_INR; exact HN).
  assert (S : rsum N (fun i => rsum N (fun k => a k * cos (INR k * phi i)) * rsum N (fun k => a k * cos (INR k * phi i))) <= INR N * (M * M)).
  { rewrite <- rsum_const. apply rsum_le. intros i _. specialize (HM (cos (phi i)) ltac:(pose proof (COS_bound (phi i)); lra)).
    rewrite (rsum_ext N _ (fun k => a k * cos (INR k * phi i))) in HM by (intros; rewrite T_cos; reflexivity).
    set (s := rsum N (fun k => a k * cos (INR k * phi i))) in *. replace (s * s) with (Rabs s * Rabs s) by (rewrite <- Rabs_mult, Rabs_pos_eq; [reflexivity|nra]).
    apply Rmult_le_compat; try apply Rabs_pos; exact HM. }
  assert (E : rsum N (fun i => rsum N (fun k => a k * cos (INR k * phi i)) * rsum N (fun k => a k * cos (INR k * phi i))) =
    rsum N (fun k => a k * a k * (if Nat.eqb k 0 then INR N else INR N / 2))).
  { transitivity (rsum N (fun i => rsum N (fun k => rsum N (fun j => a k * a j * (cos (INR j * phi i) * cos (INR k * phi i)))))).
    - apply rsum_ext. intros i _. rewrite <- rsum_scal_r. apply rsum_ext. intros k _. rewrite <- rsum_scal. apply rsum_ext. intros j _. ring.
    - rewrite rsum_swap. apply rsum_ext. intros k Hk. rewrite rsum_swap.
      rewrite (rsum_ext N _ (fun j => if Nat.eqb j k then a k * a j * (if Nat.eqb k 0 then INR N else INR N / 2) else 0)).
      + apply (rsum_delta N k (fun j => a k * a j * (if Nat.eqb k 0 then INR N else INR N / 2))). exact Hk.
      + intros j Hj. rewrite rsum_scal, cos_ortho by assumption. destruct (Nat.eqb j k); ring. }
  rewrite E in S. assert (L : INR N / 2 * rsum N (fun k => a k * a k) <= INR N * (M * M)).
  { eapply Rle_trans; [|exact S]. rewrite <- rsum_scal. apply rsum_le. intros k _. assert (0 <= a k * a k) by nra. destruct (Nat.eqb k 0); nra. }
  apply Rmult_le_reg_l with (INR N / 2); lra.
Qed.
End Parseval.

Lemma cauchy : forall m (x y : nat -> R), rsum m (fun i => x i * y i) * rsum m (fun i => x i * y i) <= rsum m (fun i => x i * x i) * rsum m (fun i => y i * y i).
Proof.
  intros m x y. set (A := rsum m (fun i => x i * x i)). set (B := rsum m (fun i => x i * y i)). set (C := rsum m (fun i => y i * y i)).
  assert (Q : forall s u, 0 <= s * s * A + 2 * (s * u) * B + u * u * C).
  { intros s u. unfold A, B, C. rewrite <- !rsum_scal, <- !rsum_plus. apply rsum_nonneg. intros i _.
    replace (s * s * (x i * x i) + 2 * (s * u) * (x i * y i) + u * u * (y i * y i)) with ((s * x i + u * y i) * (s * x i + u * y i)) by ring. apply Rle_0_sqr. }
  assert (PA : 0 <= A) by (apply rsum_nonneg; intros; apply Rle_0_sqr). assert (PC : 0 <= C) by (apply rsum_nonneg; intros; apply Rle_0_sqr).
  destruct (Req_dec C 0) as [Z0|NZ].
  - rewrite Z0 in *. destruct (Req_dec B 0) as [->|NB]; [lra|]. pose proof (Q 1 (- (A + 1) / (2 * B))) as H.
    replace (1 * 1 * A + 2 * (1 * (- (A + 1) / (2 * B))) * B + - (A + 1) / (2 * B) * (- (A + 1) / (2 * B)) * 0) with (-1) in H by (field; exact NB). lra.
  - pose proof (Q C (- B)) as H. assert (0 < C) by lra. apply Rmult_le_reg_l with C; [assumption|]. nra.
Qed.
Lemma rsum_parity : forall m (g : nat -> R), rsum (2 * m) g = rsum m (fun j => g (2 * j)%nat) + rsum m (fun j => g (2 * j + 1)%nat).
Proof.
  induction m as [|m IH]; intros g; [simpl; ring|]. replace (2 * S m)%nat with (S (S (2 * m))) by lia. rewrite !rsum_S, IH.
  replace (S (2 * m)) with (2 * m + 1)%nat by lia. ring.
Qed.
Theorem legendre_max : forall p M, polynomial (2 * n - 1) p -> (forall x, -1 <= x <= 1 -> Rabs (p x) <= M) ->
  Rabs (apply_rule l p - RInt p (-1) 1) <= 3 / 10 ^ 14 * M.
Proof.
  intros p M Hp HM. destruct (expand (ch 1) (ch_exact 1 ltac:(lra)) _ _ Hp) as [a Ha]. replace (S (2 * n - 1)) with (2 * n)%nat in Ha by lia.
  assert (PM : 0 <= M) by (pose proof (HM 0 ltac:(lra)) as H; pose proof (Rabs_pos (p 0)); lra).
  assert (PS : rsum (2 * n) (fun k => a k * a k) <= 2 * (M * M)) by (apply parseval; [lia|intros x Hx; rewrite <- Ha; apply HM; exact Hx]).
  replace p with (fun x => rsum (2 * n) (fun k => a k * ch 1 k x)) by (extensionality x; symmetry; apply Ha).
  change (RInt ?f (-1) 1) with (I1 f).
  assert (P : forall i, (i < 2 * n)%nat -> polynomial (2 * n) (ch 1 i)) by (intros i Hi; apply (poly_weaken i); [lia|apply ch_poly]).
  rewrite (lin_sum _ (apply_rule_linear l) (2 * n) (2 * n) a (ch 1) P), (lin_sum _ I1_lin (2 * n) (2 * n) a (ch 1) P).
  rewrite <- rsum_minus. rewrite (rsum_ext (2 * n) _ (fun k => a k * (apply_rule l (ch 1 k) - I1 (ch 1 k)))) by (intros; ring).
  rewrite rsum_parity. rewrite (rsum_ext n (fun j => a (2 * j + 1)%nat * _) (fun _ => 0)) by (intros j _; rewrite T_odd_error; ring). rewrite rsum_0, Rplus_0_r.
  rewrite (rsum_ext n _ (fun j => a (2 * j)%nat * cheb_err n j)) by (intros j _; rewrite T_even_error; reflexivity).
  rewrite rsum_parity in PS. assert (O : 0 <= rsum n (fun j => a (2 * j + 1)%nat * a (2 * j + 1)%nat)) by (apply rsum_nonneg; intros; apply Rle_0_sqr).
  pose proof (cauchy n (fun j => a (2 * j)%nat) (cheb_err n)) as C. pose proof (cheb_rms n Hn) as R.
  set (B := rsum n (fun j => a (2 * j)%nat * cheb_err n j)) in *. set (A := rsum n (fun j => a (2 * j)%nat * a (2 * j)%nat)) in *. set (E := rsum n (fun j => cheb_err n j * cheb_err n j)) in *.
  assert (PA : 0 <= A) by (apply rsum_nonneg; intros; apply Rle_0_sqr). assert (PE : 0 <= E) by (apply rsum_nonneg; intros; apply Rle_0_sqr).
  apply sq_le_abs; [apply Rmult_le_pos; lra|].
  assert (H : A * E <= 2 * (M * M) * ((21 / 10 ^ 15) * (21 / 10 ^ 15))) by (apply Rmult_le_compat; lra).
  assert (MM : 0 <= M * M) by nra. lra.
Qed.
End N.
