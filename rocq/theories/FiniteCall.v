(** Finite results of the rules as constructed. *)
From Coq Require Import Reals ZArith List Lra Lia.
From Coquelicot Require Import Coquelicot.
From Flocq Require Import Core.
From Verif Require Import Arith RInst F64 F64Spec Machine Rules Par NewtonCotes Legendre Chebyshev IntegrateProof GaussProof
  IntegrateSpec GaussSpec TraceProof RInstProof NCSpec InsideSpec InsideProof RSum RoundSpec F64Proof RoundProof RoundRules RoundNC AccF64 TrigSpec NCFloatSpec NCFloat ChebFloat LegFloat GaussFloat FinSpec Finite FiniteRules FiniteNC
  RuleSpec ChebSpec ChebRule LegSym LegShape SizeProof LegConv GaussFloatRules LegBigRule.
Import ListNotations.
Local Open Scope R_scope.
Notation V := (bpow radix2 900).

Section F.
Variable be : Backend.
Notation A := (F64 be).
Lemma bounds_usable : forall a b, moderate_bounds a b -> usable a b /\ Rabs (fval b - fval a) <= bpow radix2 61.
Proof.
  intros a b (Fa & Fb & Ba & Bb). assert (bpow radix2 60 <= bpow radix2 1000) by (apply bpow_le; lia). split.
  - split; [exact Fa|]. split; [exact Fb|]. split; lra.
  - change (bpow radix2 61) with (2 * bpow radix2 60). apply Rabs_le. pose proof (Rle_abs (fval a)). pose proof (Rle_abs (fval b)). pose proof (Rle_abs (- fval a)). pose proof (Rle_abs (- fval b)). rewrite Rabs_Ropp in *. lra.
Qed.
(** lists of values *)
Definition tiny (vs : list A) : Prop := List.Forall (fun v => ffin v /\ Rabs (fval v) <= V) vs.
Lemma tiny_total : forall vs, tiny vs -> List.Forall ffin vs /\ abs_total vs <= INR (length vs) * V.
Proof.
  intros vs H. induction H as [|v vs [F B] H [I1 I2]]; [split; [constructor|]; unfold abs_total; cbn [map length INR]; unfold lsum; cbn [fold_right]; lra|].
  split; [constructor; assumption|]. cbn [length]. rewrite S_INR. change (abs_total (v :: vs)) with (Rabs (fval v) + abs_total vs). lra.
Qed.
Lemma room_of : forall (a b : A) S, moderate_bounds a b -> 0 <= S -> S <= bpow radix2 939 -> room a b S.
Proof.
  intros a b S H S0 S1. destruct (bounds_usable a b H) as [U D]. split; [exact U|]. apply Rle_trans with (bpow radix2 61 * bpow radix2 939); [apply Rmult_le_compat; try assumption; apply Rabs_pos|].
  rewrite <- bpow_plus. apply bpow_le. lia.
Qed.
Lemma tiny_moderate : forall (a b : A) vs, moderate_bounds a b -> tiny vs -> INR (length vs) <= 2 ^ 39 -> moderate_values vs /\ room a b (abs_total vs).
Proof.
  intros a b vs HB HV HL. destruct (tiny_total vs HV) as [F T]. assert (T' : abs_total vs <= bpow radix2 939).
  { eapply Rle_trans; [exact T|]. apply Rle_trans with (bpow radix2 39 * bpow radix2 900); [|rewrite <- bpow_plus; apply bpow_le; lia].
    apply Rmult_le_compat_r; [apply bpow_ge_0|]. change (bpow radix2 39) with 549755813888. lra. }
  split; [split; [exact F|eapply Rle_trans; [exact T'|apply bpow_le; lia]]|]. apply room_of; [exact HB|apply asum_pos|exact T'].
Qed.
Lemma tiny_map : forall X (P : f64 -> Prop) g (p : X -> A) l, tame P g -> (forall x, In x l -> P (p x)) -> tiny (map g (map p l)).
Proof.
  intros X P g p l H. induction l as [|x l IH]; intros HP; [constructor|]. cbn [map]. constructor; [apply H, HP; left; reflexivity|]. apply IH. intros y Hy. apply HP. right. exact Hy.
Qed.
Lemma tiny_app : forall l m, tiny l -> tiny m -> tiny (l ++ m). Proof. intros l m H1 H2. apply Forall_app. split; assumption. Qed.

Section NC.
Variables (n : Z) (a b : A) (g : A -> A).
Hypothesis HI : plain_interval n a b.
Hypothesis HB : moderate_bounds a b.
Hypothesis HG : tame (inside a b) g.
Notation h := (ndiv (nsub b a) (nofZ n)).
Lemma n40 : (1 <= n <= 2 ^ 40)%Z. Proof. destruct HI as [H _]. lia. Qed.
Lemma n32 : (1 <= n < 2 ^ 32)%Z. Proof. apply HI. Qed.
Lemma tiny_mid : tiny (map g (map (fun i => nadd a (nmul h (nadd lit_half (nofZ i)))) (ints 0 (Z.to_nat n)))).
Proof.
  pose proof n32 as Hn. apply (tiny_map _ _ _ _ _ HG). intros i Hi. apply in_ints in Hi. destruct (half_point be n Hn i ltac:(lia)) as [F1 E1].
  assert (0 <= IZR i) by (apply IZR_le; lia). assert (IZR i <= IZR n - 1) by (rewrite <- minus_IZR; apply IZR_le; lia).
  destruct (good_step be n a b HI _ _ F1 E1 ltac:(lra)) as [[I _] _]. exact I.
Qed.
Lemma tiny_edges : tiny (map g (map (fun i => nadd a (nmul (nofZ i) h)) (ints 1 (Z.to_nat (n - 1))))).
Proof.
  pose proof n32 as Hn. apply (tiny_map _ _ _ _ _ HG). intros i Hi. apply in_ints in Hi. destruct (ofZ_exact i ltac:(lia)) as [F1 E1].
  assert (0 <= IZR i) by (apply IZR_le; lia). assert (IZR i <= IZR n - 1) by (rewrite <- minus_IZR; apply IZR_le; lia).
  destruct (good_step be n a b HI _ _ F1 E1 ltac:(lra)) as [_ [I _]]. exact I.
Qed.
Lemma tiny_halves : tiny (map g (map (fun i => nadd a (ndiv (nmul (nsub (nmul lit2 (nofZ i)) lit1) h) lit2)) (ints 1 (Z.to_nat (n - 1))))).
Proof.
  pose proof n32 as Hn. apply (tiny_map _ _ _ _ _ HG). intros i Hi. apply in_ints in Hi. destruct (good_half be n a b HI i ltac:(lia)) as [I _]. exact I.
Qed.
Lemma tiny_ends : tiny [g a; g b].
Proof. destruct (good_ends be n a b HI) as [[I1 _] [I2 _]]. constructor; [apply HG, I1|]. constructor; [apply HG, I2|constructor]. Qed.
Lemma tiny_last : tiny [g (nadd a (ndiv (nmul (nsub (nmul lit2 (nofZ n)) lit1) h) lit2))].
Proof. pose proof n32. destruct (good_half be n a b HI n ltac:(lia)) as [I _]. constructor; [apply HG, I|constructor]. Qed.
Lemma count_ok : forall k, (k <= 4 * Z.to_nat n)%nat -> INR k <= 2 ^ 39.
Proof. intros k Hk. pose proof n32. rewrite INR_IZR_INZ, pow_IZR. apply IZR_le. change (Z.of_nat 39) with 39%Z. lia. Qed.

Lemma midpoint_finite : forall result : A,
  (result = fst (midpoint_integrate (pure g) (midpoint_new n) a b tt) \/ exists t, result = midpoint_par_integrate g t (midpoint_new n) a b) -> ffin result.
Proof.
  intros result HR. destruct (tiny_moderate a b _ HB tiny_mid) as [M R]; [apply count_ok; rewrite !map_length, ints_length; lia|]. destruct HR as [E|[t E]]; subst result.
  - pose proof (midpoint_fin be unit (pure g) n a b tt n40) as F. cbv zeta in F. rewrite call_all_pure in F. cbn [fst] in F. exact (F M R).
  - exact (midpoint_par_fin be t g n a b n40 M R).
Qed.
Lemma trapezoid_finite : forall result : A,
  (result = fst (trapezoid_integrate (pure g) (trapezoid_new n) a b tt) \/ exists t, result = trapezoid_par_integrate g t (trapezoid_new n) a b) -> ffin result.
Proof.
  intros result HR. destruct (tiny_moderate a b _ HB (tiny_app _ _ tiny_ends tiny_edges)) as [M R]; [apply count_ok; rewrite app_length, !map_length, ints_length; pose proof n32; cbn [length]; lia|]. destruct HR as [E|[t E]]; subst result.
  - pose proof (trapezoid_fin be unit (pure g) n a b tt n40) as F. cbv zeta in F. rewrite !call_all_pure in F. cbn [fst snd map] in F. exact (F M R).
  - exact (trapezoid_par_fin be t g n a b n40 M R).
Qed.
Lemma simpson_finite : forall result : A,
  (result = fst (simpson_integrate (pure g) (simpson_new n) a b tt) \/ exists t1 t2, result = simpson_par_integrate g t1 t2 (simpson_new n) a b) -> ffin result.
Proof.
  intros result HR. destruct (tiny_moderate a b _ HB (tiny_app _ _ tiny_edges (tiny_app _ _ tiny_halves (tiny_app _ _ tiny_last tiny_ends)))) as [M R]; [apply count_ok; rewrite !app_length, !map_length, ints_length; pose proof n32; cbn [length]; lia|]. destruct HR as [E|(t1 & t2 & E)]; subst result.
  - pose proof (simpson_fin be unit (pure g) n a b tt n40) as F. cbv zeta in F. rewrite !call_all_pure in F. cbn [fst snd map] in F. exact (F M R).
  - exact (simpson_par_fin be t1 t2 g n a b n40 M R).
Qed.
End NC.

(** the Gauss rules *)
Lemma step_sum : forall x S Q q n d W, S <= (Q + n * d) * W -> x <= W * (q + d) -> x + S <= (q + Q + (n + 1) * d) * W.
Proof. intros. lra. Qed.
Section Gauss.
Variables (a b : A) (g : A -> A).
Hypothesis HB : moderate_bounds a b.
Hypothesis HG : tame (near a b (1 / 10 ^ 5)) g.
Lemma near_point : forall dx (p : A * A) (q : R * R), 0 <= dx <= 1 / 10 ^ 5 -> ffin (fst p) -> Rabs (fst q) <= 1 -> Rabs (fval (fst p) - fst q) <= dx -> near a b (1 / 10 ^ 5) (to_interval a b (fst p)).
Proof.
  intros dx p q Hdx F Hq H. destruct (bounds_usable a b HB) as [(Fa & Fb & Ba & Bb) _].
  destruct (point_float be a b (1 / 10 ^ 5) Fa Fb Ba Bb ltac:(lra) (fst p) (fst q) F Hq ltac:(lra)) as [F1 H1]. pose proof (y_between be a b (fst q) Hq) as Y. cbv beta in Y.
  split; [exact F1|]. apply abs_le2 in H1. lra.
Qed.
Lemma gauss_tame : forall dx dw (ps : list (A * A)) (qs : list (R * R)), 0 <= dx <= 1 / 10 ^ 5 -> 0 <= dw -> close_pairs dx dw ps qs -> List.Forall (fun q => Rabs (fst q) <= 1) qs ->
  let vs := map g (map (to_interval a b) (map fst ps)) in
  List.Forall ffin vs /\ List.Forall ffin (map snd ps) /\ abs_sum vs (map snd ps) <= (lsum (map (fun q => Rabs (snd q)) qs) + INR (length ps) * dw) * V.
Proof.
  intros dx dw ps qs Hdx Hdw HC HU vs. unfold vs. clear vs. induction HC as [|p q ps qs [[F1 H1] [F2 H2]] HC IH].
  - split; [constructor|]. split; [constructor|]. unfold abs_sum. cbn [map combine length INR]. unfold lsum. cbn [fold_right]. lra.
  - inversion HU as [|x l U1 U2]; subst x l. destruct (IH U2) as (I1 & I2 & I3). destruct (HG _ (near_point dx p q Hdx F1 U1 H1)) as [FV BV].
    cbn [map]. split; [constructor; assumption|]. split; [constructor; assumption|].
    change (abs_sum (?v :: ?vs) (?w :: ?ws)) with (Rabs (fval v * fval w) + abs_sum vs ws). set (S := abs_sum _ _) in *.
    change (lsum (Rabs (snd q) :: ?l)) with (Rabs (snd q) + lsum l). set (Q := lsum _) in *. cbn [length]. rewrite S_INR. rewrite Rabs_mult. 
    set (v := Rabs (fval (g (to_interval a b (fst p))))) in *. assert (W0 : Rabs (fval (snd p)) <= Rabs (snd q) + dw).
    { replace (fval (snd p)) with ((fval (snd p) - snd q) + snd q) by ring. eapply Rle_trans; [apply Rabs_triang|]. lra. }
    assert (P : v * Rabs (fval (snd p)) <= V * (Rabs (snd q) + dw)) by (apply Rmult_le_compat; try apply Rabs_pos; assumption). exact (step_sum _ _ _ _ _ _ _ I3 P).
Qed.
Lemma gauss_moderate : forall dx dw (ps : list (A * A)) (qs : list (R * R)), 0 <= dx <= 1 / 10 ^ 5 -> 0 <= dw -> close_pairs dx dw ps qs ->
  List.Forall (fun xw : R * R => -1 < fst xw < 1 /\ 0 < snd xw) qs -> INR (length ps) <= 2 ^ 40 -> lsum (map snd qs) + INR (length ps) * dw <= 100 ->
  let vs := map g (map (to_interval a b) (map fst ps)) in moderate vs (map snd ps) /\ room a b (abs_sum vs (map snd ps)).
Proof.
  intros dx dw ps qs Hdx Hdw HC HS HL HW vs. destruct (abs_weights _ HS) as [HU HA]. destruct (gauss_tame dx dw ps qs Hdx Hdw HC HU) as (F1 & F2 & T). fold vs in F1, T.
  assert (HAR : lsum (map (fun q : R * R => Rabs (snd q)) qs) = lsum (map snd qs)) by exact HA. rewrite HAR in T.
  assert (T' : abs_sum vs (map snd ps) <= bpow radix2 939).
  { eapply Rle_trans; [exact T|]. apply Rle_trans with (bpow radix2 39 * V); [|rewrite <- bpow_plus; apply bpow_le; lia]. apply Rmult_le_compat_r; [apply bpow_ge_0|]. change (bpow radix2 39) with 549755813888. lra. }
  split.
  - split; [unfold vs; rewrite !map_length; exact HL|]. split; [exact F1|]. split; [exact F2|]. eapply Rle_trans; [exact T'|]. apply bpow_le. lia.
  - apply room_of; [exact HB|apply abs_sum_pos|exact T'].
Qed.
Variable kappa : R.
Hypothesis HT : accurate_trig be kappa.
Lemma legendre_done : forall r (result : A), (let vs := map g (map (to_interval a b) (map fst (legendre_pairs r))) in moderate vs (map snd (legendre_pairs r)) /\ room a b (abs_sum vs (map snd (legendre_pairs r)))) ->
  (result = fst (legendre_integrate (pure g) r a b tt) \/ exists s, result = legendre_par_integrate s g r a b) -> ffin result.
Proof.
  intros r result [M R] [E|[s E]]; subst result.
  - pose proof (legendre_fin be unit (pure g) r a b tt) as F. cbv zeta in F. rewrite call_pure in F. exact (F M R).
  - exact (legendre_par_fin be s g r a b M R).
Qed.
Lemma legendre_finite : forall t (n : nat) (r : GaussLegendre A) (result : A), (100 <= usize_max t)%Z -> (1 <= n)%nat -> (Z.of_nat n <= 2 ^ 40)%Z -> (2 * Z.of_nat n <= usize_max t)%Z -> legendre_new t (Z.of_nat n) = Ok r ->
  (result = fst (legendre_integrate (pure g) r a b tt) \/ exists s, result = legendre_par_integrate s g r a b) -> ffin result.
Proof.
  intros t n r result Hu Hn Hn2 H2 Hr HE. destruct HT as [[K0 K1] _].
  destruct (legendre_new_ok (A := RA) t (Z.of_nat n) Hu ltac:(lia) H2) as (q & Hq & _).
  destruct (legendre_shape t (Z.of_nat n) q Hu ltac:(lia) H2 Hq) as [_ HS].
  assert (HL : INR (length (legendre_pairs r)) = INR n).
  { rewrite (legendre_list t (Z.of_nat n) r) by (assumption || lia). rewrite rev_length, map_length, seq_length, Nat2Z.id. reflexivity. }
  assert (N : 1 <= INR n) by (change 1 with (INR 1); apply le_INR; lia).
  assert (N2 : INR n <= 2 ^ 40) by (rewrite INR_IZR_INZ, pow_IZR; apply IZR_le; exact Hn2).
  assert (DIV : forall c, INR n * (c / INR n) = c) by (intros c; field; lra).
  apply (legendre_done r result); [|exact HE]. destruct (le_lt_dec n 100) as [S|S].
  - pose proof (tabulated_mass t n q Hu ltac:(lia) H2 Hq) as M.
    pose proof (tabulated_rule_close be kappa HT t (Z.of_nat n) r q Hu ltac:(lia) H2 Hr Hq) as HC. rewrite <- INR_IZR_INZ in HC.
    apply (gauss_moderate (kappa + 8 / 10 ^ 16) (2 / 10 ^ 15 / INR n) _ (legendre_pairs q)); [lra|apply Rdiv_le_0_compat; lra|exact HC|exact HS|rewrite HL; exact N2|]. rewrite HL, DIV. eapply Rle_trans; [apply Rplus_le_compat_r; exact M|lra].
  - pose proof (big_total t n q Hu S H2 Hq) as T. pose proof (Rle_abs (lsum (map snd (legendre_pairs q)) - 2)) as T1.
    assert (N3 : 101 <= INR n) by (rewrite INR_IZR_INZ; apply IZR_le; lia). assert (T2 : 13 / INR n <= 1). { apply (Rmult_le_reg_r (INR n)); [lra|]. unfold Rdiv. rewrite Rmult_assoc, Rinv_l by lra. lra. }
    pose proof (big_rule_close be kappa HT t n r q Hu S Hn2 H2 Hr Hq) as HC.
    apply (gauss_moderate (102 / 100 * kappa + 3 / 10 ^ 15) ((2 / 10 ^ 14 + 5 * kappa) / INR n) _ (legendre_pairs q)); [lra|apply Rdiv_le_0_compat; lra|exact HC|exact HS|rewrite HL; exact N2|]. rewrite HL, DIV.
    set (Q := lsum (map snd (legendre_pairs q))) in *. assert (Q3 : Q <= 4) by (clearbody Q; lra). eapply Rle_trans; [apply Rplus_le_compat_r; exact Q3|lra].
Qed.
Lemma chebyshev1_finite : forall t n (r : GaussChebyshevFirstKind A) (result : A), (1 <= n <= 2 ^ 40)%Z -> (n < usize_max t)%Z -> chebyshev1_new t n = Ok r ->
  (result = fst (chebyshev1_integrate (pure g) r a b tt) \/ exists s, result = chebyshev1_par_integrate s g r a b) -> ffin result.
Proof.
  intros t n r result Hn Hu Hr HE. destruct HT as [[K0 K1] _].
  destruct (chebyshev1_new_ok (A := RA) t n ltac:(lia)) as (q & Hq & _).
  destruct (cheb1_shape t n q ltac:(lia) Hq) as (_ & _ & HS & HP).
  assert (HL : INR (length (chebyshev1_pairs r)) = IZR n).
  { destruct (chebyshev1_new_ok (A := A) t n ltac:(lia)) as (r' & E' & L'). rewrite E' in Hr. injection Hr as <-. refine (eq_trans (f_equal INR L') _). rewrite INR_IZR_INZ, Z2Nat.id by lia. reflexivity. }
  assert (N : 1 <= IZR n) by (apply IZR_le; lia). assert (N2 : IZR n <= 2 ^ 40) by (rewrite pow_IZR; apply IZR_le; lia).
  assert (DIV : forall c, IZR n * (c / IZR n) = c) by (intros c; field; lra). pose proof PI_4 as PU.
  pose proof (chebyshev1_rule_close be kappa HT t n r q ltac:(lia) Hu Hr Hq) as HC.
  assert (MR : let vs := map g (map (to_interval a b) (map fst (chebyshev1_pairs r))) in moderate vs (map snd (chebyshev1_pairs r)) /\ room a b (abs_sum vs (map snd (chebyshev1_pairs r)))).
  { apply (gauss_moderate (kappa + 1 / 10 ^ 15) (5 / 10 ^ 16 / IZR n) _ (chebyshev1_pairs q)); [lra|apply Rdiv_le_0_compat; lra|exact HC|exact HS|rewrite HL; exact N2|]. rewrite HL, DIV. eapply Rle_trans; [apply Rplus_le_compat_r; right; exact HP|lra]. }
  destruct MR as [M R]. destruct HE as [E|[s E]]; subst result.
  - pose proof (chebyshev1_fin be unit (pure g) r a b tt) as F. cbv zeta in F. rewrite call_pure in F. exact (F M R).
  - exact (chebyshev1_par_fin be s g r a b M R).
Qed.
Lemma chebyshev2_finite : forall t n (r : GaussChebyshevSecondKind A) (result : A), (1 <= n <= 2 ^ 40)%Z -> (n < usize_max t)%Z -> chebyshev2_new t n = Ok r ->
  (result = fst (chebyshev2_integrate (pure g) r a b tt) \/ exists s, result = chebyshev2_par_integrate s g r a b) -> ffin result.
Proof.
  intros t n r result Hn Hu Hr HE. destruct HT as [[K0 K1] _].
  destruct (chebyshev2_new_ok (A := RA) t n ltac:(lia)) as (q & Hq & _).
  destruct (cheb2_shape t n q ltac:(lia) Hq) as (_ & _ & HS & HP).
  assert (HL : INR (length (chebyshev2_pairs r)) = IZR n).
  { destruct (chebyshev2_new_ok (A := A) t n ltac:(lia)) as (r' & E' & L'). rewrite E' in Hr. injection Hr as <-. refine (eq_trans (f_equal INR L') _). rewrite INR_IZR_INZ, Z2Nat.id by lia. reflexivity. }
  assert (N : 1 <= IZR n) by (apply IZR_le; lia). assert (N2 : IZR n <= 2 ^ 40) by (rewrite pow_IZR; apply IZR_le; lia).
  assert (DIV : forall c, IZR n * (c / IZR n) = c) by (intros c; field; lra). pose proof PI_4 as PU.
  pose proof (chebyshev2_rule_close be kappa HT t n r q ltac:(lia) Hu Hr Hq) as HC.
  assert (MR : let vs := map g (map (to_interval a b) (map fst (chebyshev2_pairs r))) in moderate vs (map snd (chebyshev2_pairs r)) /\ room a b (abs_sum vs (map snd (chebyshev2_pairs r)))).
  { apply (gauss_moderate (kappa + 12 / 10 ^ 16) ((7 * kappa + 1 / 10 ^ 14) / IZR n) _ (chebyshev2_pairs q)); [lra|apply Rdiv_le_0_compat; lra|exact HC|exact HS|rewrite HL; exact N2|]. rewrite HL, DIV. eapply Rle_trans; [apply Rplus_le_compat_r; right; exact HP|lra]. }
  destruct MR as [M R]. destruct HE as [E|[s E]]; subst result.
  - pose proof (chebyshev2_fin be unit (pure g) r a b tt) as F. cbv zeta in F. rewrite call_pure in F. exact (F M R).
  - exact (chebyshev2_par_fin be s g r a b M R).
Qed.
End Gauss.
End F.
