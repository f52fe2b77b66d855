(** The eigenvalue solver and the special cases of Gauss-Jacobi do not show in the result. *)
From Coq Require Import Bool Reals ZArith List Lia Lra Psatz Sorting.Sorted FunctionalExtensionality.
From Coquelicot Require Import Coquelicot.
From Verif Require Import Arith RInst RInstProof RSum Machine Param Rules Gamma Hermite Laguerre Jacobi Legendre Chebyshev GolubWelsch GWSpec PolySpec PolyProof EigenSpec Spectral GWRoots MassSpec GaussRuleSpec
  Improper ImproperExist JacobiWeight WeightSpec GaussExact OrthoProof EigenProof JacobiMore ChebSpec ChebExact ChebRule GamAll Mirror LegZeroUse BogUse BogGauss SizeProof.
Import ListNotations.
Local Open Scope R_scope.

Lemma rule_same : forall n (l m : list (R * R)), (1 <= n)%nat -> length l = n -> strictly_ascending l -> length m = n -> strictly_ascending m ->
  (forall p, polynomial (2 * n - 1) p -> apply_rule l p = apply_rule m p) -> List.Forall (fun xw => 0 < snd xw) m -> l = m.
Proof.
  intros n l m Hn L1 S1 L2 S2 AG P2.
  assert (N2 : NoDup (map fst m)).
  { apply sorted_fst in S2. clear - S2. induction S2 as [|x r _ IH F]; constructor; [|exact IH]. intros H. rewrite List.Forall_forall in F. specialize (F x H). lra. }
  assert (I : incl (map fst m) (map fst l)).
  { intros x Hx. apply in_map_iff in Hx. destruct Hx as (q & <- & Hq). destruct (in_split q m Hq) as (m1 & m2 & Em).
    set (f := fun x => nodal (map fst l) x * nodal (map fst (m1 ++ m2)) x).
    assert (Pf : polynomial (2 * n - 1) f).
    { assert (Ln : (2 * n - 1 = length (map fst l) + length (map fst (m1 ++ m2)))%nat).
      { rewrite !map_length, L1. rewrite Em in L2. rewrite app_length in *. simpl in L2. lia. }
      rewrite Ln. apply poly_mul; apply nodal_poly. }
    pose proof (AG f Pf) as A. rewrite (apply_zero l) in A.
    2:{ intros y Hy. unfold f. rewrite (proj2 (nodal_zero _ y) Hy). ring. }
    rewrite Em, apply_one in A.
    2:{ intros y Hy. unfold f. rewrite (proj2 (nodal_zero _ y) Hy). ring. }
    rewrite List.Forall_forall in P2. specialize (P2 q Hq). symmetry in A. apply Rmult_integral in A. destruct A as [A|A]; [|lra].
    unfold f in A. apply Rmult_integral in A. destruct A as [A|A]; [apply nodal_zero; exact A|exfalso].
    apply nodal_zero in A. rewrite Em, map_app in N2. cbn [map] in N2. apply NoDup_remove_2 in N2. rewrite map_app in A. tauto. }
  assert (E : map fst l = map fst m).
  { apply sorted_unique; [apply sorted_fst, S1|apply sorted_fst, S2|]. intros x. split; [|apply I].
    apply (NoDup_length_incl N2); [rewrite !map_length; lia|exact I]. }
  assert (W : forall i, (i < n)%nat -> nth i l (0, 0) = nth i m (0, 0)).
  { intros i Hi.
    assert (F : nth i (map fst l) 0 = nth i (map fst m) 0) by (rewrite E; reflexivity). rewrite !(map_nth fst _ (0, 0) i : nth i (map fst _) 0 = _) in F.
    destruct (nth_split m (0, 0) (n := i) ltac:(lia)) as (m1 & m2 & Em & Lm1). destruct (nth_split l (0, 0) (n := i) ltac:(lia)) as (l1 & l2 & El & Ll1).
    set (q := nth i m (0, 0)) in *. set (p := nth i l (0, 0)) in *.
    assert (EE : map fst l1 = map fst m1 /\ map fst l2 = map fst m2).
    { rewrite El, Em, !map_app in E. cbn [map] in E. clear - E Lm1 Ll1. assert (Ln : length (map fst l1) = length (map fst m1)) by (rewrite !map_length; lia).
      revert E Ln. generalize (map fst l1) as u. generalize (map fst m1) as v. intros v u. revert v. induction u as [|x a IH]; intros [|y b] E Ln; try discriminate Ln; cbn [app] in E.
      - inversion E. split; reflexivity.
      - inversion E as [[E0 E1]]. destruct (IH b E1 ltac:(simpl in Ln; lia)) as [-> ->]. split; reflexivity. }
    destruct EE as [EA EB].
    set (f := nodal (map fst (m1 ++ m2))).
    assert (Pf : polynomial (2 * n - 1) f).
    { apply (poly_weaken (length (map fst (m1 ++ m2)))); [|apply nodal_poly]. rewrite map_length. rewrite Em in L2. rewrite app_length in *. simpl in L2. lia. }
    pose proof (AG f Pf) as A. rewrite El, Em in A. rewrite !apply_one in A.
    2:{ intros y Hy. apply nodal_zero. exact Hy. }
    2:{ intros y Hy. apply nodal_zero. rewrite map_app, <- EA, <- EB, <- map_app. exact Hy. }
    rewrite F in A. assert (NZ : f (fst q) <> 0).
    { intros C. apply nodal_zero in C. rewrite Em, map_app in N2. cbn [map] in N2. apply NoDup_remove_2 in N2. rewrite map_app in C. tauto. }
    apply Rmult_eq_reg_l in A; [|exact NZ]. destruct p, q. cbn [fst snd] in *. congruence. }
  apply (nth_ext _ _ (0, 0) (0, 0)); [lia|]. rewrite L1. exact W.
Qed.


Lemma scaled_apply : forall k (l : list (R * R)) f, apply_rule (map (fun xw => (fst xw, k * snd xw)) l) f = k * apply_rule l f.
Proof. intros k l f. unfold apply_rule. rewrite map_map. cbn [fst snd]. induction l as [|p l IH]; cbn [map lsum]; [ring|]. rewrite IH. ring. Qed.
Lemma scaled_ascending : forall k l, strictly_ascending l -> strictly_ascending (map (fun xw : R * R => (fst xw, k * snd xw)) l).
Proof.
  intros k l S. induction S as [|p l S IH F]; cbn [map]; constructor; [exact IH|]. apply List.Forall_forall. intros x Hx. apply in_map_iff in Hx.
  destruct Hx as (q & <- & Hq). rewrite List.Forall_forall in F. cbn [fst]. apply F, Hq.
Qed.
Lemma scaled_twice : forall k (l : list (R * R)), k <> 0 -> l = map (fun xw => (fst xw, k * snd xw)) (map (fun xw => (fst xw, / k * snd xw)) l).
Proof. intros k l Hk. rewrite map_map. cbn [fst snd]. rewrite <- (map_id l) at 1. apply map_ext. intros [x w]. cbn [fst snd]. f_equal. field. exact Hk. Qed.

(** ** solvers *)
Lemma hermite_solvers : forall (e1 e2 : Linalg RA) n (r1 r2 : GaussHermite RA), (1 <= n)%Z ->
  sorts e1 -> exact_on e1 (Z.to_nat n) (@hermite_diag RA) (@hermite_off_diag RA) -> sorts e2 -> exact_on e2 (Z.to_nat n) (@hermite_diag RA) (@hermite_off_diag RA) ->
  hermite_new e1 n = Ok r1 -> hermite_new e2 n = Ok r2 -> r1 = r2.
Proof.
  intros e1 e2 n r1 r2 Hn S1 X1 S2 X2 H1 H2. apply hermite_new_inv in H1, H2. destruct hermite_coeffs as (_ & _ & Cz).
  assert (E := gwx_unique e1 e2 (Z.to_nat n) _ _ _ _ _ ltac:(lia) (fun i _ => Cz i) S1 X1 S2 X2 H1 H2). destruct r1, r2. cbn in E. rewrite E. reflexivity.
Qed.
Lemma laguerre_param : forall (e : Linalg RA) n al r, laguerre_new e n al = Ok r -> laguerre_alpha r = al.
Proof.
  intros e n al r H. unfold laguerre_new in H. destruct (golub_welsch _ _ _ _ _); [|discriminate]. injection H; intros <-. reflexivity.
Qed.
Lemma laguerre_solvers : forall (e1 e2 : Linalg RA) n (al : Param RA) (r1 r2 : GaussLaguerre RA), (1 <= n)%Z -> -1 < param_get al ->
  sorts e1 -> exact_on e1 (Z.to_nat n) (@laguerre_diag RA (param_get al)) (@laguerre_off_diag RA (param_get al)) ->
  sorts e2 -> exact_on e2 (Z.to_nat n) (@laguerre_diag RA (param_get al)) (@laguerre_off_diag RA (param_get al)) ->
  laguerre_new e1 n al = Ok r1 -> laguerre_new e2 n al = Ok r2 -> r1 = r2.
Proof.
  intros e1 e2 n al r1 r2 Hn Ha S1 X1 S2 X2 H1 H2. assert (P1 := laguerre_param _ _ _ _ H1). assert (P2 := laguerre_param _ _ _ _ H2).
  apply laguerre_new_inv in H1, H2. destruct (laguerre_coeffs (param_get al) Ha) as (_ & _ & Cz).
  assert (E := gwx_unique e1 e2 (Z.to_nat n) _ _ _ _ _ ltac:(lia) (fun i _ => Cz i) S1 X1 S2 X2 H1 H2). destruct r1, r2. cbn in E, P1, P2. rewrite E, P1, P2. reflexivity.
Qed.
Lemma jacobi_params : forall t (e : Linalg RA) n (pa pb : Param RA) (r : GaussJacobi RA), ~ delegated (param_get pa) (param_get pb) -> jacobi_new t e n pa pb = Ok r -> jacobi_alpha r = pa /\ jacobi_beta r = pb.
Proof.
  intros t e n pa pb r Nd H. unfold jacobi_new in H. destruct (not_delegated _ _ Nd) as (D1 & D2 & D3). rewrite D1, D2, D3 in H. destruct (n =? 1)%Z.
  { injection H as <-. split; reflexivity. }
  destruct (golub_welsch _ _ _ _ _) as [ps|]; [|discriminate]. cbn [bind] in H.
  destruct (if (n mod 2 =? 1)%Z then zero_node ps (Z.to_nat (n / 2)) else Ok ps) as [ps'|]; [|discriminate].
  cbn [bind] in H. injection H as <-. split; reflexivity.
Qed.
Lemma jacobi_solvers : forall t (e1 e2 : Linalg RA) n (pa pb : Param RA) (r1 r2 : GaussJacobi RA), (1 <= n)%Z ->
  -1 < param_get pa -> -1 < param_get pb -> param_get pa + param_get pb <> -1 -> ~ delegated (param_get pa) (param_get pb) ->
  sorts e1 -> exact_on e1 (Z.to_nat n) (@jacobi_diag RA (param_get pa) (param_get pb)) (@jacobi_off_diag RA (param_get pa) (param_get pb)) ->
  sorts e2 -> exact_on e2 (Z.to_nat n) (@jacobi_diag RA (param_get pa) (param_get pb)) (@jacobi_off_diag RA (param_get pa) (param_get pb)) ->
  jacobi_new t e1 n pa pb = Ok r1 -> jacobi_new t e2 n pa pb = Ok r2 -> r1 = r2.
Proof.
  intros t e1 e2 n pa pb r1 r2 Hn Hal Hbe Hab Nd S1 X1 S2 X2 H1 H2.
  destruct (jacobi_params _ _ _ _ _ _ Nd H1) as [A1 B1]. destruct (jacobi_params _ _ _ _ _ _ Nd H2) as [A2 B2].
  assert (E : jacobi_pairs r1 = jacobi_pairs r2).
  { destruct (Z.eq_dec n 1) as [->|N1].
    { rewrite (jacobi_one_inv t e1 pa pb r1 Nd H1), (jacobi_one_inv t e2 pa pb r2 Nd H2). reflexivity. }
    destruct (jacobi_inv t e1 n pa pb r1 ltac:(lia) Nd H1) as (ps & P1 & P2).
    destruct (jacobi_inv t e2 n pa pb r2 ltac:(lia) Nd H2) as (qs & Q1 & Q2).
    destruct (jacobi_coeffs _ _ Hal Hbe Hab) as (_ & _ & _ & _ & Cz).
    assert (E := gwx_unique e1 e2 (Z.to_nat n) _ _ _ _ _ ltac:(lia) (fun i _ => Cz i) S1 X1 S2 X2 P1 Q1). rewrite E in P2. rewrite P2 in Q2. injection Q2. exact (fun H => H). }
  destruct r1, r2. cbn in *. congruence.
Qed.

(** ** the special pairs *)
Section Special.
Variables (ext : Linalg RA) (n : Z) (pa pb : Param RA) (ps : list (R * R)).
Hypothesis Hn : (2 <= n)%Z.
Hypothesis Hal : -1 < param_get pa.
Hypothesis Hbe : -1 < param_get pb.
Hypothesis Hab : param_get pa + param_get pb <> -1.
Hypothesis So : sorts ext.
Hypothesis Ex : exact_on ext (Z.to_nat n) (@jacobi_diag RA (param_get pa) (param_get pb)) (@jacobi_off_diag RA (param_get pa) (param_get pb)).
Hypothesis HG : @golub_welsch RA ext (Z.to_nat n) (@jacobi_diag RA (param_get pa) (param_get pb)) (@jacobi_off_diag RA (param_get pa) (param_get pb)) (@jacobi_scale RA (param_get pa) (param_get pb)) = Ok ps.
Lemma special_shape : length ps = Z.to_nat n /\ strictly_ascending ps /\ List.Forall (fun xw : R * R => 0 < snd xw) ps.
Proof.
  destruct (jacobi_coeffs _ _ Hal Hbe Hab) as (_ & _ & _ & _ & Cz). assert (H := HG). rewrite jacobi_scale_R in H. split; [|split].
  - exact (gwx_length ext (Z.to_nat n) _ _ _ ps ltac:(lia) So Ex H).
  - exact (gwx_ascending ext (Z.to_nat n) _ _ _ ps ltac:(lia) (fun i _ => Cz i) So Ex H).
  - apply (gwx_pos ext (Z.to_nat n) _ _ _ ltac:(lia) (fun i _ => Cz i) So Ex ps H). apply jacobi_mass_pos; assumption.
Qed.
Lemma special_exact : exists M, jacobi_integral (param_get pa) (param_get pb) (fun _ => 1) M /\ 0 < M /\ Rabs (jacobi_mass (param_get pa) (param_get pb) - M) <= 36 / 10 ^ 14 * M /\
  forall f, polynomial (2 * Z.to_nat n - 1) f -> apply_rule ps f = jacobi_mass (param_get pa) (param_get pb) / M * jacobi_L (param_get pa) (param_get pb) f.
Proof.
  exists (jacobi_L (param_get pa) (param_get pb) (fun _ => 1)). assert (J := jacobi_gen (param_get pa) (param_get pb) Hal Hbe 0 (fun _ => 1) (poly_const 0 1)).
  destruct (jacobi_mass_accurate _ _ _ Hal Hbe Hab J) as [P B]. split; [exact J|]. split; [exact P|]. split; [exact B|].
  intros f Hf. assert (H := HG). rewrite jacobi_scale_R in H. exact (jacobi_gw_exact ext n pa pb Hn Hal Hbe Hab So Ex ps _ H J f Hf).
Qed.
(** any rule that is exact for the weight function *)
Lemma special_same : forall l, length l = Z.to_nat n -> strictly_ascending l -> (forall f, polynomial (2 * Z.to_nat n - 1) f -> apply_rule l f = jacobi_L (param_get pa) (param_get pb) f) ->
  exists k, Rabs (k - 1) <= 36 / 10 ^ 14 /\ ps = map (fun xw => (fst xw, k * snd xw)) l.
Proof.
  intros l Ll Sl El. destruct special_shape as (L1 & A1 & P1). destruct special_exact as (M & _ & PM & B & X).
  exists (jacobi_mass (param_get pa) (param_get pb) / M). split.
  - replace (jacobi_mass (param_get pa) (param_get pb) / M - 1) with ((jacobi_mass (param_get pa) (param_get pb) - M) / M) by (field; lra).
    unfold Rdiv at 1. rewrite Rabs_mult, Rabs_inv, (Rabs_right M) by lra. apply (Rmult_le_reg_r M); [exact PM|]. rewrite Rmult_assoc, Rinv_l by lra. lra.
  - symmetry. apply (rule_same (Z.to_nat n)); [lia|rewrite map_length; exact Ll|apply scaled_ascending, Sl|exact L1|exact A1| |exact P1].
    intros f Hf. rewrite scaled_apply, (El f Hf), (X f Hf). reflexivity.
Qed.
End Special.
Lemma half_weight : forall x, unit_open x -> jacw (/ 2) (/ 2) x = w2 x.
Proof.
  intros x Hx. unfold unit_open in Hx. unfold jacw, w2. rewrite !Rpower_sqrt by lra. rewrite <- sqrt_mult by lra. f_equal. ring.
Qed.
Lemma half_L : forall d f, polynomial d f -> jacobi_L (/ 2) (/ 2) f = L_2 f.
Proof.
  intros d f Hf. apply (wint_val unit_open _ _ unit_convex unit_a unit_b (jacw (/ 2) (/ 2)) (jacw_cont (/ 2) (/ 2)) d f _ Hf).
  assert (H := wint_correct unit_open _ _ unit_convex unit_a unit_b w2 (fun x _ => sq_cont x) mom2 d f Hf).
  revert H. apply (has_int_ext unit_open). intros x Hx. rewrite half_weight by exact Hx. reflexivity.
Qed.
Lemma chebyshev2_special : forall t (ext : Linalg RA) n (pa pb : Param RA) (ps : list (R * R)) (r : GaussJacobi RA), (2 <= n < usize_max t)%Z ->
  param_get pa = / 2 -> param_get pb = / 2 -> sorts ext ->
  exact_on ext (Z.to_nat n) (@jacobi_diag RA (param_get pa) (param_get pb)) (@jacobi_off_diag RA (param_get pa) (param_get pb)) ->
  @golub_welsch RA ext (Z.to_nat n) (@jacobi_diag RA (param_get pa) (param_get pb)) (@jacobi_off_diag RA (param_get pa) (param_get pb)) (@jacobi_scale RA (param_get pa) (param_get pb)) = Ok ps ->
  jacobi_new t ext n pa pb = Ok r ->
  exists k, Rabs (k - 1) <= 36 / 10 ^ 14 /\ ps = map (fun xw => (fst xw, k * snd xw)) (jacobi_pairs r).
Proof.
  intros t ext n pa pb ps r Hn Ea Eb So Ex HG Hr.
  assert (exists q, chebyshev2_new t n = Ok q /\ jacobi_pairs r = chebyshev2_pairs q) as (q & Hq & ->).
  { unfold jacobi_new in Hr. rewrite Ea, Eb in Hr. rewrite ra_lit0, ra_half, ra_neg_half in Hr.
    assert (D0 : @neqb RA (/ 2) 0 = false) by (apply not_true_is_false; intros H; apply ra_neqb in H; lra).
    assert (D1 : @neqb RA (/ 2) (- / 2) = false) by (apply not_true_is_false; intros H; apply ra_neqb in H; lra).
    assert (D2 : @neqb RA (/ 2) (/ 2) = true) by (apply ra_neqb; reflexivity).
    rewrite D0, D1, D2 in Hr. cbn [andb] in Hr. destruct (chebyshev2_new t n) as [q|]; [|discriminate]. cbn [bind] in Hr. injection Hr as <-. exists q. split; reflexivity. }
  destruct (cheb2_shape t n q ltac:(lia) Hq) as (As & _).
  assert (Pr := cheb2_pairs t n q ltac:(lia) Hq).
  apply (special_same ext n pa pb ps); [lia|rewrite Ea; lra|rewrite Eb; lra|rewrite Ea, Eb; lra|exact So|exact Ex|exact HG| |exact As|].
  - rewrite Pr, rev_length, map_length, seq_length. reflexivity.
  - intros f Hf. rewrite Pr, cheb2_rule_L; [|lia|exact Hf]. rewrite Ea, Eb. symmetry. apply (half_L (2 * Z.to_nat n - 1)), Hf.
Qed.
Lemma weight_chain : forall u v k : R, 0 < v -> Rabs (k - 1) <= 36 / 10 ^ 14 -> Rabs (u - v) <= 24 / 10 ^ 14 * v -> Rabs (u - k * v) <= 61 / 10 ^ 14 * (k * v).
Proof.
  intros u v k Hv Hk Hu. replace (u - k * v) with ((u - v) + (1 - k) * v) by ring. eapply Rle_trans; [apply Rabs_triang|].
  rewrite Rabs_mult, (Rabs_right v), (Rabs_minus_sym 1 k) by lra. assert (Hk2 : - (36 / 10 ^ 14) <= k - 1 <= 36 / 10 ^ 14) by (split_Rabs; lra).
  assert (Rabs (k - 1) * v <= 36 / 10 ^ 14 * v) by (apply Rmult_le_compat_r; lra).
  assert ((1 - 36 / 10 ^ 14) * v <= k * v) by (apply Rmult_le_compat_r; lra).
  assert (61 / 10 ^ 14 * ((1 - 36 / 10 ^ 14) * v) <= 61 / 10 ^ 14 * (k * v)) by (apply Rmult_le_compat_l; lra). nra.
Qed.
Lemma legendre_special : forall t (ext : Linalg RA) (n : nat) (pa pb : Param RA) (ps : list (R * R)) (r : GaussJacobi RA), (2 <= n)%nat ->
  (100 <= usize_max t)%Z -> (2 * Z.of_nat n <= usize_max t)%Z ->
  param_get pa = 0 -> param_get pb = 0 -> sorts ext -> exact_on ext n (@jacobi_diag RA (param_get pa) (param_get pb)) (@jacobi_off_diag RA (param_get pa) (param_get pb)) ->
  @golub_welsch RA ext n (@jacobi_diag RA (param_get pa) (param_get pb)) (@jacobi_off_diag RA (param_get pa) (param_get pb)) (@jacobi_scale RA (param_get pa) (param_get pb)) = Ok ps ->
  jacobi_new t ext (Z.of_nat n) pa pb = Ok r ->
  Forall2 (fun p q : R * R => Rabs (fst p - fst q) <= 71 / 10 ^ 15 / (INR n + / 2) /\ Rabs (snd p - snd q) <= 61 / 10 ^ 14 * snd q) (jacobi_pairs r) ps.
Proof.
  intros t ext n pa pb ps r Hn Hu H2n Ea Eb So Ex HG Hr.
  assert (exists q, legendre_new t (Z.of_nat n) = Ok q /\ jacobi_pairs r = legendre_pairs q) as (q & Hq & ->).
  { unfold jacobi_new in Hr. rewrite Ea, Eb in Hr. rewrite ra_lit0 in Hr.
    assert (D2 : @neqb RA 0 0 = true) by (apply ra_neqb; reflexivity).
    rewrite D2 in Hr. cbn [andb] in Hr. destruct (legendre_new t (Z.of_nat n)) as [q|]; [|discriminate]. cbn [bind] in Hr. injection Hr as <-. exists q. split; reflexivity. }
  assert (Ha : -1 < param_get pa) by (rewrite Ea; lra). assert (Hb : -1 < param_get pb) by (rewrite Eb; lra). assert (Hab : param_get pa + param_get pb <> -1) by (rewrite Ea, Eb; lra).
  assert (Hz : (2 <= Z.of_nat n)%Z) by lia. assert (Nn := Nat2Z.id n).
  assert (Ex' := Ex). assert (HG' := HG). rewrite <- Nn in Ex', HG' at 1.
  destruct (special_shape ext (Z.of_nat n) pa pb ps Hz Ha Hb Hab So Ex' HG') as (L1 & A1 & P1).
  destruct (special_exact ext (Z.of_nat n) pa pb ps Hz Ha Hb Hab So Ex' HG') as (M & _ & PM & B & X). rewrite Nn in L1, X.
  set (k := jacobi_mass (param_get pa) (param_get pb) / M) in *.
  assert (Kp : 0 < k) by (apply Rdiv_lt_0_compat; [apply jacobi_mass_pos; assumption|exact PM]).
  assert (Kb : Rabs (k - 1) <= 36 / 10 ^ 14).
  { unfold k. replace (jacobi_mass (param_get pa) (param_get pb) / M - 1) with ((jacobi_mass (param_get pa) (param_get pb) - M) / M) by (field; lra).
    unfold Rdiv at 1. rewrite Rabs_mult, Rabs_inv, (Rabs_right M) by lra. apply (Rmult_le_reg_r M); [exact PM|]. rewrite Rmult_assoc, Rinv_l by lra. lra. }
  set (l := map (fun xw => (fst xw, / k * snd xw)) ps).
  assert (G : gauss_rule n l).
  { split; [unfold l; rewrite map_length; exact L1|]. split; [apply scaled_ascending, A1|]. intros p Hp. unfold l. rewrite scaled_apply, (X p Hp), Ea, Eb, (unit_weight _ p Hp). rewrite <- Rmult_assoc, Rinv_l by lra. apply Rmult_1_l. }
  assert (C := every_close t n q Hu H2n Hq ltac:(lia) l G). rewrite (scaled_twice k ps) by lra. fold l.
  assert (Pl : List.Forall (fun xw : R * R => 0 < snd xw) l).
  { apply List.Forall_forall. intros y Hy. unfold l in Hy. apply in_map_iff in Hy. destruct Hy as (z & <- & Hz'). cbn [snd]. rewrite List.Forall_forall in P1. apply Rmult_lt_0_compat; [apply Rinv_0_lt_compat, Kp|apply P1, Hz']. }
  clear - C Pl Kb. induction C as [|p y lp ly (_ & C1 & C2) _ IH]; cbn [map]; constructor.
  - cbn [fst snd]. split; [exact C1|]. apply (weight_chain _ _ _); [exact (Forall_inv Pl)|exact Kb|exact C2].
  - apply IH. exact (Forall_inv_tail Pl).
Qed.

(** ** the hypotheses can be met *)
Lemma special_solver : forall t n (pa pb : Param RA), (2 <= n < usize_max t)%Z -> (100 <= usize_max t)%Z -> (2 * n <= usize_max t)%Z ->
  param_get pa = 0 /\ param_get pb = 0 \/ param_get pa = / 2 /\ param_get pb = / 2 ->
  exists (ext : Linalg RA) (ps : list (R * R)) (r : GaussJacobi RA), sorts ext /\
  exact_on ext (Z.to_nat n) (@jacobi_diag RA (param_get pa) (param_get pb)) (@jacobi_off_diag RA (param_get pa) (param_get pb)) /\
  @golub_welsch RA ext (Z.to_nat n) (@jacobi_diag RA (param_get pa) (param_get pb)) (@jacobi_off_diag RA (param_get pa) (param_get pb)) (@jacobi_scale RA (param_get pa) (param_get pb)) = Ok ps /\
  jacobi_new t ext n pa pb = Ok r.
Proof.
  intros t n pa pb Hn Hu H2 P.
  assert (Ha : -1 < param_get pa) by (destruct P as [[-> _]|[-> _]]; lra). assert (Hb : -1 < param_get pb) by (destruct P as [[_ ->]|[_ ->]]; lra).
  assert (Hab : param_get pa + param_get pb <> -1) by (destruct P as [[-> ->]|[-> ->]]; lra).
  destruct (jacobi_coeffs (param_get pa) (param_get pb) Ha Hb Hab) as (_ & _ & _ & _ & Cz).
  destruct (exact_solver_exists (Z.to_nat n) (@jacobi_diag RA (param_get pa) (param_get pb)) (@jacobi_off_diag RA (param_get pa) (param_get pb))
     ltac:(lia) (fun i _ => Cz i)) as (ext & So & Ex).
  destruct (gwx_ok ext (Z.to_nat n) _ _ (@jacobi_scale RA (param_get pa) (param_get pb)) ltac:(lia) Ex) as [ps H].
  assert (Y : exists r, jacobi_new t ext n pa pb = Ok r).
  { unfold jacobi_new. rewrite ra_lit0, ra_half, ra_neg_half. destruct P as [[-> ->]|[-> ->]].
    - assert (D2 : @neqb RA 0 0 = true) by (apply ra_neqb; reflexivity). rewrite D2. cbn [andb].
      destruct (@SizeProof.legendre_new_ok RA t n Hu ltac:(lia) H2) as (q & Hq & _). rewrite Hq. eexists. reflexivity.
    - assert (D0 : @neqb RA (/ 2) 0 = false) by (apply not_true_is_false; intros E; apply ra_neqb in E; lra).
      assert (D1 : @neqb RA (/ 2) (- / 2) = false) by (apply not_true_is_false; intros E; apply ra_neqb in E; lra).
      assert (D2 : @neqb RA (/ 2) (/ 2) = true) by (apply ra_neqb; reflexivity).
      rewrite D0, D1, D2. cbn [andb]. destruct (@SizeProof.chebyshev2_new_ok RA t n ltac:(lia)) as (q & Hq & _). rewrite Hq. eexists. reflexivity. }
  destruct Y as [r Hr]. exists ext, ps, r. exact (conj So (conj Ex (conj H Hr))).
Qed.
Lemma jacobi_two_solvers : forall t n (pa pb : Param RA), (2 <= n)%Z -> -1 < param_get pa -> -1 < param_get pb ->
  param_get pa + param_get pb <> -1 -> ~ delegated (param_get pa) (param_get pb) -> exists (e : Linalg RA) (r : GaussJacobi RA),
  sorts e /\ exact_on e (Z.to_nat n) (@jacobi_diag RA (param_get pa) (param_get pb)) (@jacobi_off_diag RA (param_get pa) (param_get pb)) /\ jacobi_new t e n pa pb = Ok r.
Proof.
  intros t n pa pb Hn Ha Hb Hab Nd. destruct (jacobi_solver t n pa pb Hn Ha Hb Hab Nd) as (e & r & _ & S1 & X1 & R1 & _). exists e, r. exact (conj S1 (conj X1 R1)).
Qed.
