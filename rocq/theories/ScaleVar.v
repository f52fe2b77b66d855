(** Scaling the variable by a power of two: points and results scale exactly. *)
From Coq Require Import Reals ZArith List Lra Lia Bool.
From Flocq Require Import Core IEEE754.Binary.
From Verif Require Import Arith F64 F64Spec F64Proof Machine Iter Rules Par NewtonCotes Chebyshev Hermite Laguerre Legendre Jacobi
  IntegrateSpec IntegrateProof GaussSpec GaussProof TraceProof NestSpec NestProof ExcSpec Exc ScaleSpec Scale.
Import ListNotations.
Local Open Scope R_scope.

Lemma mult_low : forall e v, mult e v -> v <> 0 -> bpow radix2 e <= Rabs v.
Proof.
  intros e v [m ->] Nz. rewrite Rabs_mult, (Rabs_pos_eq (bpow radix2 e)) by apply bpow_ge_0.
  assert (m <> 0)%Z by (intros ->; apply Nz; ring). assert (1 <= Rabs (IZR m)). { rewrite <- abs_IZR. apply (IZR_le 1). lia. }
  rewrite <- (Rmult_1_l (bpow radix2 e)) at 1. apply Rmult_le_compat_r; [apply bpow_ge_0|assumption].
Qed.
Lemma rnd_scale_big : forall k v, bpow radix2 (-1022) <= Rabs v -> bpow radix2 (-1022) <= Rabs (bpow radix2 k * v) -> rnd (bpow radix2 k * v) = bpow radix2 k * rnd v.
Proof.
  intros k v H1 H2. unfold rnd. rewrite !(round_FLT_FLX radix2 (-1074) 53) by assumption. apply flx_scale.
Qed.
Lemma rnd_low : forall e v, (-1074 <= e)%Z -> bpow radix2 e <= Rabs v -> bpow radix2 e <= Rabs (rnd v).
Proof.
  intros e v He H. unfold rnd. apply abs_round_ge_generic; [apply FLT_exp_valid; reflexivity|apply valid_rnd_N| |exact H].
  apply generic_format_bpow. unfold FLT_exp. lia.
Qed.

Section Float.
Variable be : Backend.
Notation A := (F64 be).
Variable k : Z.
Lemma sc_sub : forall e x x' y y', (-1074 <= e)%Z -> sc be k e x x' -> sc be k e y y' -> sc be k e (nsub x y : A) (nsub x' y').
Proof.
  intros e x x' y y' He Sx Sy F G. destruct (sub_finite_inv be x y F) as (F1 & F2 & _ & E1). destruct (sub_finite_inv be x' y' G) as (G1 & G2 & _ & E2).
  destruct (Sx F1 G1) as (X1 & X2 & X3). destruct (Sy F2 G2) as (Y1 & Y2 & Y3).
  assert (Op : forall u v, mult e u -> mult e v -> mult e (u - v)) by (intros u v [m ->] [n ->]; exists (m - n)%Z; rewrite minus_IZR; ring).
  apply (sc_of be k e k _ _ _ _ He eq_refl E1 E2); [rewrite X1, Y1; ring|apply Op; assumption|apply Op; assumption].
Qed.
Lemma sc_div : forall e n x x' (d : A), (-990 <= e)%Z -> (1 <= n <= 2 ^ 32)%Z -> ffin d -> fval d = IZR n -> sc be k e x x' -> sc be k (e - 84) (ndiv x d : A) (ndiv x' d).
Proof.
  intros e n x x' d He Hn Fd Vd Sx F G.
  destruct (div_finite_inv be x d F) as (F1 & [(_ & _ & _ & E1)|(_ & N & _)]); [|contradiction].
  destruct (div_finite_inv be x' d G) as (G1 & [(_ & _ & _ & E2)|(_ & N & _)]); [|contradiction].
  rewrite Vd in E1, E2. destruct (Sx F1 G1) as (X1 & X2 & X3). rewrite E1, E2.
  assert (N1 : 1 <= IZR n) by (apply (IZR_le 1); lia). assert (N2 : IZR n <= bpow radix2 32) by (change (bpow radix2 32) with (IZR (2 ^ 32)); apply IZR_le; lia).
  assert (R0 : rnd 0 = 0) by (unfold rnd; apply round_0, valid_rnd_N).
  destruct (Req_dec (fval x) 0) as [Z|Nz].
  { rewrite X1, Z, Rmult_0_r. unfold Rdiv. rewrite Rmult_0_l, R0. split; [ring|]. split; apply mult_0. }
  assert (Lo : forall u, mult e u -> u <> 0 -> bpow radix2 (e - 32) <= Rabs (u / IZR n)).
  { intros u Mu Nu. assert (L := mult_low e u Mu Nu). unfold Rdiv. rewrite Rabs_mult, (Rabs_pos_eq (/ IZR n)) by (left; apply Rinv_0_lt_compat; lra).
    replace (e - 32)%Z with (e + -32)%Z by lia. rewrite bpow_plus. apply Rmult_le_compat; [apply bpow_ge_0|apply bpow_ge_0|exact L|].
    change (-32)%Z with (- (32))%Z. rewrite (bpow_opp radix2 32). apply Rinv_le; lra. }
  assert (Nz' : fval x' <> 0). { rewrite X1. apply Rmult_integral_contrapositive. split; [apply Rgt_not_eq, bpow_gt_0|exact Nz]. }
  assert (L1 := Lo _ X2 Nz). assert (L2 := Lo _ X3 Nz').
  assert (B : bpow radix2 (-1022) <= bpow radix2 (e - 32)) by (apply bpow_le; lia).
  assert (E : fval x' / IZR n = bpow radix2 k * (fval x / IZR n)) by (rewrite X1; field; lra).
  split; [rewrite E; apply rnd_scale_big; [lra|rewrite <- E; lra]|].
  replace (e - 84)%Z with (e - 32 - 52)%Z by lia.
  assert (Fm : forall u, generic_format radix2 (FLT_exp (-1074) 53) (rnd u)) by (intros u; apply generic_format_round; [apply FLT_exp_valid; reflexivity|apply valid_rnd_N]).
  split; apply format_mult; try apply Fm; apply rnd_low; [lia|exact L1|lia|exact L2].
Qed.
Lemma pow2_sc : forall v (x y : A), times_power k x y -> not_below (- v) x -> not_below (- v) y -> sc be k (- v - 52) x y.
Proof. intros v x y (_ & _ & E) H1 H2 _ _. split; [exact E|]. split; apply (not_below_mult be); assumption. Qed.

(** constants of the code *)
Lemma fval_fin : forall x : f64, ~ ffin x -> fval x = 0.
Proof. intros x H. destruct x as [s|s|s p Hp|s m e Hm]; try reflexivity. exfalso. apply H. reflexivity. Qed.
Lemma mult_nadd : forall e (x y : A), mult e (fval x) -> mult e (fval y) -> mult e (fval (nadd x y : A)).
Proof.
  intros e x y H1 H2. destruct (bool_dec (is_finite 53 1024 (nadd x y : A)) true) as [F|F]; [|rewrite fval_fin by exact F; apply mult_0].
  destruct (add_finite_inv be x y F) as (_ & _ & _ & ->). apply mult_rnd, mult_add; assumption.
Qed.
Lemma mult_nsub : forall e (x y : A), mult e (fval x) -> mult e (fval y) -> mult e (fval (nsub x y : A)).
Proof.
  intros e x y [m H1] [n H2]. destruct (bool_dec (is_finite 53 1024 (nsub x y : A)) true) as [F|F]; [|rewrite fval_fin by exact F; apply mult_0].
  destruct (sub_finite_inv be x y F) as (_ & _ & _ & ->). apply mult_rnd. exists (m - n)%Z. rewrite H1, H2, minus_IZR. ring.
Qed.
Lemma mult_nmul : forall d e (x y : A), mult d (fval x) -> mult e (fval y) -> mult (d + e) (fval (nmul x y : A)).
Proof.
  intros d e x y H1 H2. destruct (bool_dec (is_finite 53 1024 (nmul x y : A)) true) as [F|F]; [|rewrite fval_fin by exact F; apply mult_0].
  destruct (mul_finite_inv be x y F) as (_ & _ & _ & ->). apply mult_rnd, mult_mul; assumption.
Qed.
Lemma mult_int : forall z, (Z.abs z <= 2 ^ 53)%Z -> mult 0 (fval (@nofZ A z)).
Proof. intros z H. destruct (ofZ_exact z H) as [_ E]. exists z. change (fval (f64_of_Z z) = IZR z * bpow radix2 0). rewrite E. simpl. ring. Qed.
Lemma mult_half : mult (-1) (fval (@lit_half A)).
Proof. exists 1%Z. destruct half_exact as [_ E]. change (fval (f64_lit 5 (-1)) = 1 * bpow radix2 (-1)). rewrite E. change (bpow radix2 (-1)) with (/ 2). ring. Qed.
Lemma mult_two : mult 0 (fval (@lit2 A)). Proof. exists 2%Z. destruct (lit2_val be) as [_ ->]. simpl. ring. Qed.
Lemma mult_one : mult 0 (fval (@lit1 A)).
Proof. exists 1%Z. destruct (lit_int_exact 1 ltac:(lia)) as [_ E]. change (fval (f64_lit 1 0) = 1 * bpow radix2 0). rewrite E. simpl. ring. Qed.

Section Points.
Variables (v w : Z).
Hypothesis Hv : (0 <= v)%Z. Hypothesis Hw : (0 <= w)%Z. Hypothesis Hvw : (v + w <= 700)%Z.
Notation e := (- v - 52)%Z.
Notation d := (- w - 52)%Z.
Variables a b a' b' : A.
Hypothesis Sa : sc be k e a a'.
Hypothesis Sb : sc be k e b b'.
Lemma sc_width : sc be k e (nsub b a : A) (nsub b' a'). Proof. apply sc_sub; [lia|exact Sb|exact Sa]. Qed.
Lemma sc_half_width : sc be k (-1 + e) (half_width a b) (half_width a' b').
Proof. unfold half_width. apply (sc_weaken be k _ (e + -1)); [lia|]. apply sc_mul_l; [lia|exact mult_half|exact sc_width]. Qed.
Lemma sc_interval : forall x : A, mult d (fval x) -> sc be k (e + d + -1) (to_interval a b x) (to_interval a' b' x).
Proof.
  intros x Mx. unfold to_interval. apply sc_mul_l; [lia|exact mult_half|]. apply sc_add; [lia| |].
  - apply sc_mul_r; [lia|exact Mx|exact sc_width].
  - apply (sc_weaken be k _ e); [lia|]. apply sc_add; [lia|exact Sb|exact Sa].
Qed.
Lemma sc_step : forall n, nonzero_u32 n -> sc be k (e - 84) (ndiv (nsub b a) (nofZ n) : A) (ndiv (nsub b' a') (nofZ n)).
Proof.
  intros n Hn. unfold nonzero_u32 in Hn. destruct (ofZ_exact n ltac:(lia)) as [F E]. apply (sc_div e n); [lia|lia|exact F|exact E|exact sc_width].
Qed.
End Points.

Lemma forall2_map : forall (X : Type) (P : A -> A -> Prop) (f g : X -> A) l, (forall x, In x l -> P (f x) (g x)) -> Forall2 P (map f l) (map g l).
Proof. intros X P f g l. induction l as [|x l IH]; intros H; cbn [map]; constructor; [apply H; left; reflexivity|apply IH; intros y Hy; apply H; right; exact Hy]. Qed.
Lemma ints_range : forall lo m z, In z (ints lo m) -> (lo <= z < lo + Z.of_nat m)%Z.
Proof. intros lo m z H. unfold ints in H. apply in_map_iff in H. destruct H as (i & <- & H). apply in_seq in H. lia. Qed.

Lemma points_sc : forall (q q' : quadrature A) v w, rescaled k q q' -> (0 <= v)%Z -> (0 <= w)%Z -> (v + w <= 700)%Z ->
  Forall (not_below (- v)) (bounds q) -> Forall (not_below (- v)) (bounds q') -> Forall (not_below (- w)) (stored_nodes q) ->
  Forall2 (sc be k (-1000)) (pts_of q) (pts_of q').
Proof.
  intros q q' v w Hr Hv Hw Hvw B1 B2 Nd.
  assert (G : forall (a b a' b' : A) (l : list A), times_power k a a' -> times_power k b b' -> Forall (not_below (- v)) [a; b] -> Forall (not_below (- v)) [a'; b'] ->
    Forall (not_below (- w)) l -> Forall2 (sc be k (-1000)) (map (to_interval a b) l) (map (to_interval a' b') l)).
  { intros a b a' b' l Ta Tb C1 C2 Hl. apply forall2_map. intros x Hx. rewrite Forall_forall in Hl. specialize (Hl x Hx).
    inversion C1 as [|? ? C3 C4]; subst. inversion C2 as [|? ? C5 C6]; subst.
    apply (sc_weaken be k _ (- v - 52 + (- w - 52) + -1)); [lia|]. assert (Sa : sc be k (- v - 52) a a') by (apply pow2_sc; assumption).
    assert (Sb : sc be k (- v - 52) b b') by (apply pow2_sc; [exact Tb|exact (Forall_inv C4)|exact (Forall_inv C6)]).
    apply (sc_interval v w); try assumption. apply (not_below_mult be), Hl. }
  assert (N : forall (a b a' b' : A) n, times_power k a a' -> times_power k b b' -> Forall (not_below (- v)) [a; b] -> Forall (not_below (- v)) [a'; b'] -> nonzero_u32 n ->
    sc be k (- v - 52) a a' /\ sc be k (- v - 52) b b' /\ sc be k (- v - 52 - 84) (ndiv (nsub b a) (nofZ n) : A) (ndiv (nsub b' a') (nofZ n))).
  { intros a b a' b' n Ta Tb C1 C2 Hn. inversion C1 as [|? ? C3 C4]; subst. inversion C2 as [|? ? C5 C6]; subst.
    assert (Sa : sc be k (- v - 52) a a') by (apply pow2_sc; assumption).
    assert (Sb : sc be k (- v - 52) b b') by (apply pow2_sc; [exact Tb|exact (Forall_inv C4)|exact (Forall_inv C6)]).
    split; [exact Sa|]. split; [exact Sb|]. apply (sc_step v w); assumption. }
  destruct q as [n a b|n a b|n a b|r a b|r a b|r a b|r a b|r|r]; destruct q' as [n' a' b'|n' a' b'|n' a' b'|r' a' b'|r' a' b'|r' a' b'|r' a' b'|r'|r'];
    cbn [rescaled] in Hr; try contradiction; cbn [bounds] in B1, B2; cbn [pts_of stored_nodes] in *.
  - destruct Hr as (-> & Hn & Ta & Tb). destruct (N a b a' b' n Ta Tb B1 B2 Hn) as (Sa & Sb & Sh). unfold nonzero_u32 in Hn. apply forall2_map. intros i Hi. apply ints_range in Hi.
    apply sc_add; [lia|apply (sc_weaken be k _ (- v - 52)); [lia|exact Sa]|]. apply (sc_weaken be k _ (- v - 52 - 84 + -1)); [lia|].
    apply sc_mul_r; [lia| |exact Sh]. apply mult_nadd; [exact mult_half|]. apply (mult_weaken _ 0); [lia|]. apply mult_int. lia.
  - destruct Hr as (-> & Hn & Ta & Tb). destruct (N a b a' b' n Ta Tb B1 B2 Hn) as (Sa & Sb & Sh). unfold nonzero_u32 in Hn. apply Forall2_app.
    { constructor; [apply (sc_weaken be k _ (- v - 52)); [lia|exact Sa]|]. constructor; [apply (sc_weaken be k _ (- v - 52)); [lia|exact Sb]|constructor]. }
    apply forall2_map. intros i Hi. apply ints_range in Hi.
    apply sc_add; [lia|apply (sc_weaken be k _ (- v - 52)); [lia|exact Sa]|]. apply (sc_weaken be k _ (- v - 52 - 84 + 0)); [lia|].
    apply sc_mul_l; [lia|apply mult_int; lia|exact Sh].
  - destruct Hr as (-> & Hn & Ta & Tb). destruct (N a b a' b' n Ta Tb B1 B2 Hn) as (Sa & Sb & Sh). unfold nonzero_u32 in Hn.
    assert (Md : forall i, (1 <= i <= n)%Z -> sc be k (-1000) (nadd a (ndiv (nmul (nsub (nmul lit2 (nofZ i)) lit1) (ndiv (nsub b a) (nofZ n))) lit2) : A)
       (nadd a' (ndiv (nmul (nsub (nmul lit2 (nofZ i)) lit1) (ndiv (nsub b' a') (nofZ n))) lit2))).
    { intros i Hi. apply sc_add; [lia|apply (sc_weaken be k _ (- v - 52)); [lia|exact Sa]|]. apply (sc_weaken be k _ (- v - 52 - 84 + 0 - 1)); [lia|].
      apply sc_half; [lia|]. apply sc_mul_l; [lia| |exact Sh]. apply mult_nsub; [|exact mult_one]. apply (mult_nmul 0 0); [exact mult_two|apply mult_int; lia]. }
    apply Forall2_app; [|apply Forall2_app].
    + apply forall2_map. intros i Hi. apply ints_range in Hi.
      apply sc_add; [lia|apply (sc_weaken be k _ (- v - 52)); [lia|exact Sa]|]. apply (sc_weaken be k _ (- v - 52 - 84 + 0)); [lia|].
      apply sc_mul_l; [lia|apply mult_int; lia|exact Sh].
    + apply forall2_map. intros i Hi. apply ints_range in Hi. apply Md. lia.
    + constructor; [apply Md; lia|]. constructor; [apply (sc_weaken be k _ (- v - 52)); [lia|exact Sa]|]. constructor; [apply (sc_weaken be k _ (- v - 52)); [lia|exact Sb]|constructor].
  - destruct Hr as (-> & Ta & Tb). apply G; assumption.
  - destruct Hr as (-> & Ta & Tb). apply G; assumption.
  - destruct Hr as (-> & Ta & Tb). apply G; assumption.
  - destruct Hr as (-> & Ta & Tb). apply G; assumption.
Qed.
Lemma factor_sc : forall (q q' : quadrature A) v, rescaled k q q' -> (0 <= v)%Z -> (v <= 700)%Z ->
  Forall (not_below (- v)) (bounds q) -> Forall (not_below (- v)) (bounds q') -> sc be k (-1000) (outer_factor q) (outer_factor q').
Proof.
  intros q q' v Hr Hv Hv7 B1 B2.
  assert (T : forall (a b a' b' : A), times_power k a a' -> times_power k b b' -> Forall (not_below (- v)) [a; b] -> Forall (not_below (- v)) [a'; b'] ->
    sc be k (- v - 52) a a' /\ sc be k (- v - 52) b b').
  { intros a b a' b' Ta Tb C1 C2. inversion C1 as [|? ? C3 C4]; subst. inversion C2 as [|? ? C5 C6]; subst.
    split; apply pow2_sc; try assumption; [exact (Forall_inv C4)|exact (Forall_inv C6)]. }
  destruct q as [n a b|n a b|n a b|r a b|r a b|r a b|r a b|r|r]; destruct q' as [n' a' b'|n' a' b'|n' a' b'|r' a' b'|r' a' b'|r' a' b'|r' a' b'|r'|r'];
    cbn [rescaled] in Hr; try contradiction; cbn [bounds] in B1, B2; cbn [outer_factor] in *.
  1,2: destruct Hr as (-> & Hn & Ta & Tb); destruct (T a b a' b' Ta Tb B1 B2) as [Sa Sb]; apply (sc_weaken be k _ (- v - 52 - 84)); [lia|]; apply (sc_step v 0); try assumption; lia.
  1: { destruct Hr as (-> & Hn & Ta & Tb); destruct (T a b a' b' Ta Tb B1 B2) as [Sa Sb]. apply (sc_weaken be k _ (- v - 52 - 84 - 84)); [lia|].
       destruct (lit_int_exact 6 ltac:(lia)) as [F6 E6]. apply (sc_div _ 6); [lia|lia|exact F6|exact E6|]. apply (sc_step v 0); try assumption; lia. }
  all: destruct Hr as (-> & Ta & Tb); destruct (T a b a' b' Ta Tb B1 B2) as [Sa Sb]; apply (sc_weaken be k _ (-1 + (- v - 52))); [lia|]; apply (sc_half_width v 0); try assumption; lia.
Qed.

Lemma product_sized : forall (x x' y : A) e, sc be k e x x' -> normal_sized (nmul x y : A) -> normal_sized (nmul x' y : A) ->
  times_power k (nmul x y : A) (nmul x' y : A).
Proof.
  intros x x' y e Sx [F L] [G M]. split; [exact F|]. split; [exact G|].
  destruct (mul_finite_inv be x y F) as (F1 & _ & _ & E1). destruct (mul_finite_inv be x' y G) as (G1 & _ & _ & E2).
  destruct (Sx F1 G1) as (X1 & _). rewrite E1 in *. rewrite E2 in *.
  assert (Lo : forall u, bpow radix2 (-1021) <= Rabs (rnd u) -> bpow radix2 (-1022) <= Rabs u).
  { intros u Hu. apply Rnot_lt_le. intros Lt. assert (Rabs (rnd u) <= bpow radix2 (-1022)).
    { unfold rnd. apply abs_round_le_generic; [apply FLT_exp_valid; reflexivity|apply valid_rnd_N|apply generic_format_bpow; unfold FLT_exp; lia|lra]. }
    assert (bpow radix2 (-1022) < bpow radix2 (-1021)) by (apply bpow_lt; lia). lra. }
  apply Lo in L. apply Lo in M. assert (E : fval x' * fval y = bpow radix2 k * (fval x * fval y)) by (rewrite X1; ring).
  rewrite E in *. apply rnd_scale_big; assumption.
Qed.
Lemma nmul_comm_val : forall x y : A, ffin (nmul x y : A) -> ffin (nmul y x : A) -> fval (nmul x y : A) = fval (nmul y x : A).
Proof.
  intros x y F G. destruct (mul_finite_inv be x y F) as (_ & _ & _ & E1). destruct (mul_finite_inv be y x G) as (_ & _ & _ & E2).
  rewrite E1, E2. f_equal. ring.
Qed.
Lemma product_sized_l : forall (x x' y : A) e, sc be k e x x' -> normal_sized (nmul y x : A) -> normal_sized (nmul y x' : A) ->
  times_power k (nmul y x : A) (nmul y x' : A).
Proof.
  intros x x' y e Sx [F L] [G M]. split; [exact F|]. split; [exact G|].
  destruct (mul_finite_inv be y x F) as (_ & F1 & _ & E1). destruct (mul_finite_inv be y x' G) as (_ & G1 & _ & E2).
  destruct (Sx F1 G1) as (X1 & _). rewrite E1 in *. rewrite E2 in *.
  assert (Lo : forall u, bpow radix2 (-1021) <= Rabs (rnd u) -> bpow radix2 (-1022) <= Rabs u).
  { intros u Hu. apply Rnot_lt_le. intros Lt. assert (Rabs (rnd u) <= bpow radix2 (-1022)).
    { unfold rnd. apply abs_round_le_generic; [apply FLT_exp_valid; reflexivity|apply valid_rnd_N|apply generic_format_bpow; unfold FLT_exp; lia|lra]. }
    assert (bpow radix2 (-1022) < bpow radix2 (-1021)) by (apply bpow_lt; lia). lra. }
  apply Lo in L. apply Lo in M. assert (E : fval y * fval x' = bpow radix2 k * (fval y * fval x)) by (rewrite X1; ring).
  rewrite E in *. apply rnd_scale_big; assumption.
Qed.
Lemma shape_sized : forall (q q' : quadrature A) s1 s2 vs v, rescaled k q q' -> (0 <= v)%Z -> (v <= 700)%Z ->
  Forall (not_below (- v)) (bounds q) -> Forall (not_below (- v)) (bounds q') -> length vs = length (pts_of q) ->
  normal_sized (shape q s1 s2 vs) -> normal_sized (shape q' s1 s2 vs) -> times_power k (shape q s1 s2 vs) (shape q' s1 s2 vs).
Proof.
  intros q q' s1 s2 vs v Hr Hv Hv7 B1 B2 L. assert (Sf := factor_sc q q' v Hr Hv Hv7 B1 B2).
  destruct q as [n a b|n a b|n a b|r a b|r a b|r a b|r a b|r|r]; destruct q' as [n' a' b'|n' a' b'|n' a' b'|r' a' b'|r' a' b'|r' a' b'|r' a' b'|r'|r'];
    cbn [rescaled] in Hr; try contradiction; cbn [outer_factor] in Sf; cbn [shape].
  - destruct Hr as (-> & _). apply (product_sized_l _ _ _ _ Sf).
  - destruct Hr as (-> & _). destruct vs as [|x vs]; [discriminate L|]. destruct vs as [|y vs]; [discriminate L|]. cbn [nth]. apply (product_sized_l _ _ _ _ Sf).
  - destruct Hr as (-> & _). destruct (simp_split n a b vs L) as (x & y & z & E). cbv zeta. rewrite E. cbn [nth]. apply (product_sized _ _ _ _ Sf).
  - destruct Hr as (-> & _). apply (product_sized _ _ _ _ Sf).
  - destruct Hr as (-> & _). apply (product_sized _ _ _ _ Sf).
  - destruct Hr as (-> & _). apply (product_sized_l _ _ _ _ Sf).
  - destruct Hr as (-> & _). apply (product_sized_l _ _ _ _ Sf).
Qed.
Lemma rescaled_usable : forall q q' : quadrature A, rescaled k q q' -> usable q /\ usable q'.
Proof.
  intros q q' Hr. destruct q; destruct q'; cbn [rescaled] in Hr; try contradiction; cbn [usable]; try (split; exact I);
  destruct Hr as (-> & Hn & _); unfold nonzero_u32 in Hn; split; lia.
Qed.
Lemma calls_same : forall (S : Type) (f f' : S -> A -> A * S) l l' s, (forall s x y, times_power k x y -> f' s y = f s x) -> Forall2 (times_power k) l l' ->
  call_all f' l' s = call_all f l s.
Proof.
  intros S f f' l l' s Hf H. revert s. induction H as [|x y l l' Hx _ IH]; intros s; cbn [call_all]; [reflexivity|].
  rewrite (Hf s x y Hx). destruct (f s x) as [u s1]. rewrite IH. reflexivity.
Qed.
Lemma points_scaled : forall (q q' : quadrature A) v w, rescaled k q q' -> (0 <= v)%Z -> (0 <= w)%Z -> (v + w <= 700)%Z ->
  Forall (not_below (- v)) (bounds q) -> Forall (not_below (- v)) (bounds q') -> Forall (not_below (- w)) (stored_nodes q) ->
  Forall ffin (points q) -> Forall ffin (points q') -> Forall2 (times_power k) (points q) (points q').
Proof.
  intros q q' v w Hr Hv Hw Hvw B1 B2 Nd F G. destruct (rescaled_usable q q' Hr) as [U U']. rewrite (points_pts q U) in *. rewrite (points_pts q' U') in *.
  assert (P := points_sc q q' v w Hr Hv Hw Hvw B1 B2 Nd). clear - P F G. induction P as [|x y l l' Hx _ IH]; constructor.
  - assert (Fx := Forall_inv F). assert (Gy := Forall_inv G). destruct (Hx Fx Gy) as (E & _). exact (conj Fx (conj Gy E)).
  - apply IH; [exact (Forall_inv_tail F)|exact (Forall_inv_tail G)].
Qed.
Lemma var_scaled : forall (q q' : quadrature A) (S : Type) (f f' : S -> A -> A * S) s v w, rescaled k q q' -> (0 <= v)%Z -> (0 <= w)%Z -> (v + w <= 700)%Z ->
  Forall (not_below (- v)) (bounds q) -> Forall (not_below (- v)) (bounds q') -> Forall (not_below (- w)) (stored_nodes q) ->
  Forall ffin (points q) -> Forall ffin (points q') -> (forall s x y, times_power k x y -> f' s y = f s x) ->
  snd (run q' f' s) = snd (run q f s) /\
  (normal_sized (fst (run q f s)) -> normal_sized (fst (run q' f' s)) -> times_power k (fst (run q f s)) (fst (run q' f' s))).
Proof.
  intros q q' S f f' s v w Hr Hv Hw Hvw B1 B2 Nd F G Hf. destruct (rescaled_usable q q' Hr) as [U U'].
  assert (P := points_scaled q q' v w Hr Hv Hw Hvw B1 B2 Nd F G). rewrite (points_pts q U) in P. rewrite (points_pts q' U') in P.
  assert (C := calls_same S f f' _ _ s Hf P). rewrite (run_shape q U), (run_shape q' U'). rewrite C. cbn [fst snd]. split; [reflexivity|].
  apply (shape_sized q q' _ _ _ v); try assumption; [lia|apply call_all_length].
Qed.
Lemma par_var_scaled : forall t1 t2 (q q' : quadrature A) (g g' : A -> A) v w, rescaled k q q' -> (0 <= v)%Z -> (0 <= w)%Z -> (v + w <= 700)%Z ->
  Forall (not_below (- v)) (bounds q) -> Forall (not_below (- v)) (bounds q') -> Forall (not_below (- w)) (stored_nodes q) ->
  Forall ffin (points q) -> Forall ffin (points q') -> (forall x y, times_power k x y -> g' y = g x) ->
  normal_sized (par_run t1 t2 q g) -> normal_sized (par_run t1 t2 q' g') -> times_power k (par_run t1 t2 q g) (par_run t1 t2 q' g').
Proof.
  intros t1 t2 q q' g g' v w Hr Hv Hw Hvw B1 B2 Nd F G Hg. destruct (rescaled_usable q q' Hr) as [U U'].
  assert (P := points_scaled q q' v w Hr Hv Hw Hvw B1 B2 Nd F G). rewrite (points_pts q U) in P. rewrite (points_pts q' U') in P.
  assert (C : map g' (pts_of q') = map g (pts_of q)). { clear - P Hg. induction P as [|x y l l' Hx _ IH]; cbn [map]; [reflexivity|]. rewrite (Hg x y Hx), IH. reflexivity. }
  rewrite !(par_shape _ _ _ _ U), !(par_shape _ _ _ _ U'), C. apply (shape_sized q q' _ _ _ v); try assumption; [lia|apply map_length].
Qed.
End Float.
