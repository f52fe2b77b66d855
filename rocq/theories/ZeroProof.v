(** Integrals over [a,a] in double arithmetic. *)
From Coq Require Import Reals ZArith List Lra Lia Bool.
From Flocq Require Import Core IEEE754.Binary.
From Flocq Require IEEE754.BinarySingleNaN.
From Verif Require Import Arith F64 F64Spec F64Proof Machine Iter Param Rules Par NewtonCotes Chebyshev GolubWelsch Hermite Laguerre Legendre Jacobi
  IterProof IntegrateSpec GaussSpec SignSpec SignProof SignWeights GaussProof ZeroSpec.
Import ListNotations.
Local Open Scope R_scope.

Section Zero.
Variable be : Backend.
Notation A := (F64 be).

Lemma rnd_0 : rnd 0 = 0.
Proof. unfold rnd. apply round_0, valid_rnd_N. Qed.
Lemma no_overflow_0 : no_overflow 0.
Proof. unfold no_overflow. rewrite rnd_0, Rabs_R0. apply bpow_gt_0. Qed.
Lemma is_zero_cases : forall x, is_zero x -> exists s, x = B754_zero 53 1024 s.
Proof.
  intros x [H1 H2]. destruct x as [s|s|s p H|s m e H]; try discriminate H1; [eauto|]. exfalso. unfold fval in H2. simpl in H2.
  apply eq_0_F2R in H2. destruct s; discriminate H2.
Qed.
Lemma zero_mul_l : forall z x : A, is_zero z -> is_zero (nmul z x) \/ fnan (nmul z x).
Proof.
  intros z x Hz. apply is_zero_cases in Hz. destruct Hz as [s ->].
  destruct x as [s'|s'|s' p H|s' m e H]; [left|right; apply nan_Bmult; reflexivity|right; apply nan_Bmult; reflexivity|left]; split; reflexivity.
Qed.
Lemma zero_mul_r : forall z x : A, is_zero z -> is_zero (nmul x z) \/ fnan (nmul x z).
Proof.
  intros z x Hz. apply is_zero_cases in Hz. destruct Hz as [s ->].
  destruct x as [s'|s'|s' p H|s' m e H]; [left|right; apply nan_Bmult; reflexivity|right; apply nan_Bmult; reflexivity|left]; split; reflexivity.
Qed.
Lemma zero_mul_fin : forall z x : A, is_zero z -> ffin x -> is_zero (nmul z x).
Proof.
  intros z x [Hz1 Hz2] Hx. destruct (mul_finite be z x Hz1 Hx) as [H1 H2]; [rewrite Hz2, Rmult_0_l; apply no_overflow_0|].
  split; [exact H1|]. refine (eq_trans H2 _). rewrite Hz2, Rmult_0_l. apply rnd_0.
Qed.
Lemma zero_mul_fin_r : forall z x : A, is_zero z -> ffin x -> is_zero (nmul x z).
Proof.
  intros z x [Hz1 Hz2] Hx. destruct (mul_finite be x z Hx Hz1) as [H1 H2]; [rewrite Hz2, Rmult_0_r; apply no_overflow_0|].
  split; [exact H1|]. refine (eq_trans H2 _). rewrite Hz2, Rmult_0_r. apply rnd_0.
Qed.
Lemma zero_div : forall z y : A, is_zero z -> ffin y -> 0 < fval y -> is_zero (ndiv z y).
Proof.
  intros z y [Hz1 Hz2] Hy Py. assert (E : fval z / fval y = 0) by (rewrite Hz2; unfold Rdiv; ring).
  destruct (div_finite be z y Hz1) as [H1 H2]; [lra|rewrite E; apply no_overflow_0|].
  split; [exact H1|]. refine (eq_trans H2 _). rewrite E. apply rnd_0.
Qed.
Lemma sub_self : forall a : A, ffin a -> is_zero (nsub a a).
Proof.
  intros a Ha. assert (E : fval a - fval a = 0) by ring.
  destruct (sub_finite be a a Ha Ha) as [H1 H2]; [rewrite E; apply no_overflow_0|].
  split; [exact H1|]. refine (eq_trans H2 _). rewrite E. apply rnd_0.
Qed.
Lemma width0 : forall (a : A) n, ffin a -> nonzero_u32 n -> is_zero (ndiv (nsub a a) (@nofZ A n)).
Proof.
  intros a n Ha Hn. destruct Hn. destruct (ofZ_exact n) as [H1 H2]; [lia|].
  apply zero_div; [now apply sub_self|exact H1|]. refine (eq_ind_r (fun z => 0 < z) _ H2). apply IZR_lt; lia.
Qed.
Lemma scale0 : forall a : A, ffin a -> is_zero (nmul lit_half (nsub a a)).
Proof. intros a Ha. apply zero_mul_fin_r; [now apply sub_self|]. apply half_exact. Qed.
Lemma h6_0 : forall (a : A) n, ffin a -> nonzero_u32 n -> is_zero (ndiv (ndiv (nsub a a) (@nofZ A n)) (nlit 6 0)).
Proof.
  intros a n Ha Hn. destruct (lit_int_exact 6) as [L1 L2]; [lia|].
  apply zero_div; [now apply width0|exact L1|]. refine (eq_ind_r (fun z => 0 < z) _ L2). lra.
Qed.

(** zero or NaN *)
Definition zon (x : A) : Prop := is_zero x \/ fnan x.
Theorem zero_or_nan : forall S (f : S -> A -> A * S) (a : A), ffin a -> forall s,
  (forall r, nonzero_u32 (midpoint_degree r) -> zon (fst (midpoint_integrate f r a a s))) /\
  (forall r, nonzero_u32 (trapezoid_degree r) -> zon (fst (trapezoid_integrate f r a a s))) /\
  (forall r, nonzero_u32 (simpson_degree r) -> zon (fst (simpson_integrate f r a a s))) /\
  (forall r, zon (fst (legendre_integrate f r a a s))) /\
  (forall r, zon (fst (jacobi_integrate f r a a s))) /\
  (forall r, zon (fst (chebyshev1_integrate f r a a s))) /\
  (forall r, zon (fst (chebyshev2_integrate f r a a s))).
Proof.
  intros S f a Ha s. repeat split; intros r; try intros Hr.
  - unfold midpoint_integrate. cbv zeta. match goal with |- zon (fst (let '(x, y) := ?p in _)) => destruct p end. apply zero_mul_r. now apply width0.
  - unfold trapezoid_integrate. cbv zeta. destruct (f s a), (f s0 a).
    match goal with |- zon (fst (let '(x, y) := ?p in _)) => destruct p end. apply zero_mul_r. now apply width0.
  - unfold simpson_integrate. cbv zeta.
    assert (C : Z.of_nat (it_count (NodeRuleIter (@nofZ A)) (node_rule_iter (simpson_degree r))) = simpson_degree r).
    { destruct Hr. unfold node_rule_iter. rewrite node_rule_count. lia. }
    rewrite C.
    do 5 match goal with |- zon (fst (let '(x, y) := ?p in _)) => destruct p end. apply zero_mul_l. now apply h6_0.
  - unfold legendre_integrate. match goal with |- zon (fst (let '(x, y) := ?p in _)) => destruct p end. apply zero_mul_l. now apply scale0.
  - unfold jacobi_integrate. match goal with |- zon (fst (let '(x, y) := ?p in _)) => destruct p end. apply zero_mul_l. now apply scale0.
  - unfold chebyshev1_integrate. match goal with |- zon (fst (let '(x, y) := ?p in _)) => destruct p end. apply zero_mul_r. now apply scale0.
  - unfold chebyshev2_integrate. match goal with |- zon (fst (let '(x, y) := ?p in _)) => destruct p end. apply zero_mul_r. now apply scale0.
Qed.
Theorem zero_or_nan_par : forall (g : A -> A) (a : A), ffin a -> forall t t',
  (forall r, nonzero_u32 (midpoint_degree r) -> zon (midpoint_par_integrate g t r a a)) /\
  (forall r, nonzero_u32 (trapezoid_degree r) -> zon (trapezoid_par_integrate g t r a a)) /\
  (forall r, nonzero_u32 (simpson_degree r) -> zon (simpson_par_integrate g t t' r a a)) /\
  (forall r, zon (legendre_par_integrate t g r a a)) /\
  (forall r, zon (jacobi_par_integrate t g r a a)) /\
  (forall r, zon (chebyshev1_par_integrate t g r a a)) /\
  (forall r, zon (chebyshev2_par_integrate t g r a a)).
Proof.
  intros g a Ha t t'. repeat split; intros r; try intros Hr.
  - apply zero_mul_r. now apply width0.
  - apply zero_mul_r. now apply width0.
  - apply zero_mul_l. now apply h6_0.
  - apply zero_mul_l. now apply scale0.
  - apply zero_mul_l. now apply scale0.
  - apply zero_mul_r. now apply scale0.
  - apply zero_mul_r. now apply scale0.
Qed.

(** sums of moderate numbers *)
Notation B := (bpow radix2 960).
Definition bnd (k : Z) (x : f64) : Prop := ffin x /\ Rabs (fval x) <= IZR k * B.
Lemma format_mult : forall k, (Z.abs k <= 2 ^ 53)%Z -> generic_format radix2 (FLT_exp (-1074) 53) (IZR k * B).
Proof.
  intros k Hk. destruct (Z.eq_dec (Z.abs k) (2 ^ 53)) as [E|E].
  - assert (k = 2 ^ 53 \/ k = - 2 ^ 53)%Z as [-> | ->] by lia.
    + change (IZR (2 ^ 53)) with (bpow radix2 53). rewrite <- bpow_plus. apply generic_format_FLT_bpow; [reflexivity|lia].
    + rewrite opp_IZR, Ropp_mult_distr_l_reverse. apply generic_format_opp. change (IZR (2 ^ 53)) with (bpow radix2 53). rewrite <- bpow_plus. apply generic_format_FLT_bpow; [reflexivity|lia].
  - apply generic_format_FLT. exists (Float radix2 k 960); simpl; [reflexivity|lia|lia].
Qed.
Lemma rnd_bnd : forall k x, (0 <= k <= 2 ^ 53)%Z -> Rabs x <= IZR k * B -> Rabs (rnd x) <= IZR k * B.
Proof. intros k x Hk Hx. unfold rnd. apply abs_round_le_generic; [apply valid_exp_f64|apply valid_rnd_N|apply format_mult; lia|exact Hx]. Qed.
Lemma kB_lt : forall k, (0 <= k <= 2 ^ 53)%Z -> IZR k * B < bpow radix2 1024.
Proof.
  intros k Hk. apply Rle_lt_trans with (bpow radix2 53 * B).
  - apply Rmult_le_compat_r; [apply bpow_ge_0|]. change (bpow radix2 53) with (IZR (2 ^ 53)). apply IZR_le; lia.
  - rewrite <- bpow_plus. apply bpow_lt. lia.
Qed.
Lemma bnd_no : forall k x, (0 <= k <= 2 ^ 53)%Z -> Rabs x <= IZR k * B -> no_overflow x.
Proof. intros k x Hk Hx. unfold no_overflow. eapply Rle_lt_trans; [apply (rnd_bnd k); assumption|now apply kB_lt]. Qed.
Lemma bnd_add : forall j k (x y : A), (0 <= j)%Z -> (0 <= k)%Z -> (j + k <= 2 ^ 53)%Z -> bnd j x -> bnd k y -> bnd (j + k) (nadd x y).
Proof.
  intros j k x y Hj Hk Hjk [X1 X2] [Y1 Y2].
  assert (T : Rabs (fval x + fval y) <= IZR (j + k) * B).
  { eapply Rle_trans; [apply Rabs_triang|]. rewrite plus_IZR. lra. }
  destruct (add_finite be x y X1 Y1) as [H1 H2]; [apply (bnd_no (j + k)); [lia|exact T]|].
  split; [exact H1|]. refine (eq_ind_r (fun z => Rabs z <= IZR (j + k) * B) _ H2). apply rnd_bnd; [lia|exact T].
Qed.
Lemma bnd_lit : forall m k (x : A), (0 <= m)%Z -> (0 <= k)%Z -> (m * k <= 2 ^ 53)%Z -> (m <= 2 ^ 53)%Z -> bnd k x -> bnd (m * k) (nmul (@nlit A m 0) x).
Proof.
  intros m k x Hm Hk Hmk Hm' [X1 X2]. destruct (lit_int_exact m) as [L1 L2]; [lia|].
  assert (T : Rabs (fval (@nlit A m 0) * fval x) <= IZR (m * k) * B).
  { change (@nlit A m 0) with (f64_lit m 0). rewrite L2, Rabs_mult, mult_IZR, Rabs_pos_eq by (apply IZR_le; lia).
    rewrite Rmult_assoc. apply Rmult_le_compat_l; [apply IZR_le; lia|exact X2]. }
  destruct (mul_finite be (@nlit A m 0) x L1 X1) as [H1 H2]; [apply (bnd_no (m * k)); [nia|exact T]|].
  split; [exact H1|]. refine (eq_ind_r (fun z => Rabs z <= IZR (m * k) * B) _ H2). apply rnd_bnd; [nia|exact T].
Qed.
Lemma bnd_half : forall k (x : A), (0 <= k <= 2 ^ 53)%Z -> bnd k x -> bnd k (ndiv x (@nlit A 2 0)).
Proof.
  intros k x Hk [X1 X2]. destruct (lit_int_exact 2) as [L1 L2]; [lia|].
  assert (T : Rabs (fval x / fval (@nlit A 2 0)) <= IZR k * B).
  { change (@nlit A 2 0) with (f64_lit 2 0). rewrite L2. unfold Rdiv. rewrite Rabs_mult, (Rabs_pos_eq (/ 2)) by lra.
    pose proof (Rabs_pos (fval x)). lra. }
  destruct (div_finite be x (@nlit A 2 0) X1) as [H1 H2].
  { change (@nlit A 2 0) with (f64_lit 2 0). rewrite L2. lra. } { apply (bnd_no k); [lia|exact T]. }
  split; [exact H1|]. refine (eq_ind_r (fun z => Rabs z <= IZR k * B) _ H2). apply rnd_bnd; [lia|exact T].
Qed.
Lemma bnd_mod : forall x, moderate x -> bnd 1 x.
Proof. intros x [H1 H2]. split; [exact H1|]. lra. Qed.
Lemma bnd_zero : forall s, bnd 0 (B754_zero 53 1024 s).
Proof. intros s. split; [reflexivity|]. unfold fval. simpl. rewrite Rabs_R0. lra. Qed.
Lemma bnd_sum_from : forall X S (f : S -> X -> A * S) l (acc : A) k s, (0 <= k)%Z -> (k + Z.of_nat (length l) <= 2 ^ 53)%Z ->
  (forall s x, moderate (fst (f s x))) -> bnd k acc -> bnd (k + Z.of_nat (length l)) (fst (sum_from f acc l s)).
Proof.
  intros X S f l. induction l as [|x l IH]; intros acc k s Hk Hl Hf Ha.
  - simpl. rewrite Z.add_0_r. exact Ha.
  - cbn [length] in *. rewrite Nat2Z.inj_succ in *. simpl sum_from. pose proof (Hf s x) as Hv. destruct (f s x) as [v s']. 
    replace (k + Z.succ (Z.of_nat (length l)))%Z with ((k + 1) + Z.of_nat (length l))%Z by lia.
    apply IH; [lia|lia|exact Hf|]. apply bnd_add; try lia; [exact Ha|now apply bnd_mod].
Qed.
Lemma bnd_iter_sum : forall X S (f : S -> X -> A * S) l s, (Z.of_nat (length l) <= 2 ^ 53)%Z ->
  (forall s x, moderate (fst (f s x))) -> bnd (Z.of_nat (length l)) (fst (iter_sum f l s)).
Proof. intros. apply (bnd_sum_from X S f l nnegzero 0 s); try lia; [assumption|apply bnd_zero]. Qed.
Lemma bnd_par_sum : forall X (t : Sched) (g : X -> A) l, (Z.of_nat (length l) <= 2 ^ 53)%Z ->
  (forall x, moderate (g x)) -> bnd (Z.of_nat (length l)) (par_sum t g l).
Proof.
  intros X t g. induction t as [|m t1 IH1 t2 IH2]; intros l Hl Hg.
  - simpl. unfold rayon_add. apply (bnd_add 0 (Z.of_nat (length l))); try lia; [apply (bnd_add 0 0); try lia; apply bnd_zero|].
    apply bnd_iter_sum; [exact Hl|]. intros; apply Hg.
  - simpl. unfold rayon_add.
    assert (E : (Z.of_nat (length l) = Z.of_nat (length (firstn m l)) + Z.of_nat (length (skipn m l)))%Z).
    { rewrite <- Nat2Z.inj_add, <- app_length, firstn_skipn. reflexivity. }
    rewrite E. rewrite E in Hl. apply bnd_add; try lia.
    + apply (bnd_add 0 (Z.of_nat (length (firstn m l)))); try lia; [apply bnd_zero|]. apply IH1; [lia|exact Hg].
    + apply IH2; [lia|exact Hg].
Qed.
Lemma items_length : forall d, (1 <= d)%Z -> Z.of_nat (length (node_rule_items (A := A) d)) = d.
Proof. intros d Hd. rewrite node_rule_items_eq, map_length, zrange_length. lia. Qed.
Lemma bnd_weaken : forall j k x, (j <= k)%Z -> bnd j x -> bnd k x.
Proof. intros j k x H [H1 H2]. split; [exact H1|]. eapply Rle_trans; [exact H2|]. apply Rmult_le_compat_r; [apply bpow_ge_0|apply IZR_le, H]. Qed.
Lemma nonzero_u32_small : forall n, nonzero_u32 n -> (1 <= n < 2 ^ 32)%Z.
Proof. intros n H. exact H. Qed.
Lemma simpson_total : forall n (e m v1 v2 v3 : A), (1 <= n < 2 ^ 32)%Z -> bnd n e -> bnd n m -> moderate v1 -> moderate v2 -> moderate v3 ->
  ffin (nadd (nadd (nadd (nadd (nmul (@nlit A 2 0) e) (nmul (@nlit A 4 0) m)) (nmul (@nlit A 4 0) v1)) v2) v3).
Proof.
  intros n e m v1 v2 v3 Hn He Hm H1 H2 H3.
  assert (T : bnd (2 * n + 4 * n + 4 * 1 + 1 + 1) (nadd (nadd (nadd (nadd (nmul (@nlit A 2 0) e) (nmul (@nlit A 4 0) m)) (nmul (@nlit A 4 0) v1)) v2) v3)).
  { apply bnd_add; try lia; [|now apply bnd_mod]. apply bnd_add; try lia; [|now apply bnd_mod].
    apply bnd_add; try lia; [|apply bnd_lit; try lia; now apply bnd_mod].
    apply bnd_add; try lia; apply bnd_lit; try lia; assumption. }
  apply T.
Qed.
Theorem zero_nc : forall S (f : S -> A -> A * S) (a : A), ffin a -> (forall s x, moderate (fst (f s x))) -> forall s,
  (forall r, nonzero_u32 (midpoint_degree r) -> is_zero (fst (midpoint_integrate f r a a s))) /\
  (forall r, nonzero_u32 (trapezoid_degree r) -> is_zero (fst (trapezoid_integrate f r a a s))) /\
  (forall r, nonzero_u32 (simpson_degree r) -> is_zero (fst (simpson_integrate f r a a s))).
Proof.
  intros S f a Ha Hf s. split; [|split]; intros r Hr; pose proof (nonzero_u32_small _ Hr) as Hn.
  - unfold midpoint_integrate. cbv zeta.
    match goal with |- is_zero (fst (let '(x, y) := ?p in _)) => assert (H : ffin (fst p)); [|destruct p as [v s']] end.
    { eapply (proj1 (bnd_iter_sum _ _ _ _ _ _ _)). Unshelve. - rewrite items_length by lia. lia. - intros; apply Hf. }
    apply zero_mul_fin_r; [now apply width0|exact H].
  - unfold trapezoid_integrate. cbv zeta. pose proof (Hf s a) as H1. destruct (f s a) as [fa s1]. pose proof (Hf s1 a) as H2. destruct (f s1 a) as [fb s2].
    match goal with |- is_zero (fst (let '(x, y) := ?p in _)) => assert (H : bnd (trapezoid_degree r) (fst p)); [|destruct p as [v s']] end.
    { eapply bnd_weaken; [|apply bnd_iter_sum]; [rewrite zrange_length; lia|rewrite zrange_length; lia|intros; apply Hf]. }
    cbn [fst] in *. apply zero_mul_fin_r; [now apply width0|].
    apply (bnd_add 2 (trapezoid_degree r)); try lia; [|exact H]. apply bnd_half; [lia|]. apply (bnd_add 1 1); try lia; now apply bnd_mod.
  - unfold simpson_integrate. cbv zeta.
    assert (C : Z.of_nat (it_count (NodeRuleIter (@nofZ A)) (node_rule_iter (simpson_degree r))) = simpson_degree r).
    { unfold node_rule_iter. rewrite node_rule_count. lia. }
    rewrite C.
    assert (L : (Z.of_nat (length (skipn 1 (node_rule_items (A := A) (simpson_degree r)))) <= simpson_degree r)%Z).
    { rewrite skipn_length. pose proof (items_length (simpson_degree r)). lia. }
    match goal with |- is_zero (fst (let '(x, y) := ?p in _)) => assert (He : bnd (simpson_degree r) (fst p)) by (eapply bnd_weaken; [exact L|apply bnd_iter_sum; [lia|intros; apply Hf]]); destruct p as [e s1] end.
    match goal with |- is_zero (fst (let '(x, y) := ?p in _)) => assert (Hm : bnd (simpson_degree r) (fst p)) by (eapply bnd_weaken; [exact L|apply bnd_iter_sum; [lia|intros; apply Hf]]); destruct p as [m s2] end.
    match goal with |- is_zero (fst (let '(x, y) := ?p in _)) => assert (H1 : moderate (fst p)) by apply Hf; destruct p as [v1 s3] end.
    match goal with |- is_zero (fst (let '(x, y) := ?p in _)) => assert (H2 : moderate (fst p)) by apply Hf; destruct p as [v2 s4] end.
    match goal with |- is_zero (fst (let '(x, y) := ?p in _)) => assert (H3 : moderate (fst p)) by apply Hf; destruct p as [v3 s5] end.
    cbn [fst] in *. apply zero_mul_fin; [now apply h6_0|]. exact (simpson_total (simpson_degree r) e m v1 v2 v3 Hn He Hm H1 H2 H3).
Qed.
Theorem zero_nc_par : forall (g : A -> A) (a : A), ffin a -> (forall x, moderate (g x)) -> forall t t',
  (forall r, nonzero_u32 (midpoint_degree r) -> is_zero (midpoint_par_integrate g t r a a)) /\
  (forall r, nonzero_u32 (trapezoid_degree r) -> is_zero (trapezoid_par_integrate g t r a a)) /\
  (forall r, nonzero_u32 (simpson_degree r) -> is_zero (simpson_par_integrate g t t' r a a)).
Proof.
  intros g a Ha Hg t t'. split; [|split]; intros r Hr; pose proof (nonzero_u32_small _ Hr) as Hn.
  - unfold midpoint_par_integrate. cbv zeta. apply zero_mul_fin_r; [now apply width0|].
    eapply (proj1 (bnd_par_sum _ _ _ _ _ _)). Unshelve. rewrite zrange_length; lia. intros; apply Hg.
  - unfold trapezoid_par_integrate. cbv zeta. apply zero_mul_fin_r; [now apply width0|].
    apply (bnd_add 2 (trapezoid_degree r)); try lia; [|eapply bnd_weaken; [|apply bnd_par_sum]; [rewrite zrange_length; lia|rewrite zrange_length; lia|intros; apply Hg]].
    apply bnd_half; [lia|]. apply (bnd_add 1 1); try lia; now apply bnd_mod.
  - unfold simpson_par_integrate. cbv zeta. apply zero_mul_fin; [now apply h6_0|].
    apply (simpson_total (simpson_degree r)); try apply Hg; try assumption; eapply bnd_weaken; try apply bnd_par_sum; rewrite ?zrange_length; try lia; intros; apply Hg.
Qed.
(** Gauss rules: when the weighted sum does not overflow *)
Theorem zero_gauss : forall S (f : S -> A -> A * S) (a : A), ffin a -> forall s (p : Pairs A),
  ffin (weighted_sum (fst (call_all f (map (to_interval a a) (map fst p)) s)) (map snd p)) ->
  (forall r, legendre_pairs r = p -> is_zero (fst (legendre_integrate f r a a s))) /\
  (forall r, jacobi_pairs r = p -> is_zero (fst (jacobi_integrate f r a a s))) /\
  (forall r, chebyshev1_pairs r = p -> is_zero (fst (chebyshev1_integrate f r a a s))) /\
  (forall r, chebyshev2_pairs r = p -> is_zero (fst (chebyshev2_integrate f r a a s))).
Proof.
  intros S f a Ha s p Hp. repeat match goal with |- _ /\ _ => split end; intros r E; subst p.
  - rewrite legendre_calls. destruct (call_all f _ s) as [vs s']. apply zero_mul_fin; [now apply scale0|exact Hp].
  - rewrite jacobi_calls. destruct (call_all f _ s) as [vs s']. apply zero_mul_fin; [now apply scale0|exact Hp].
  - rewrite chebyshev1_calls. destruct (call_all f _ s) as [vs s']. apply zero_mul_fin_r; [now apply scale0|exact Hp].
  - rewrite chebyshev2_calls. destruct (call_all f _ s) as [vs s']. apply zero_mul_fin_r; [now apply scale0|exact Hp].
Qed.
End Zero.
