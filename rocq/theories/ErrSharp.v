(** The error bounds are attained, so the degree of exactness is exactly 2n-1. *)
From Coq Require Import Reals Lra Lia List Arith ZArith FunctionalExtensionality.
From Coquelicot Require Import Coquelicot.
From Verif Require Import Arith RInst RInstProof Machine Param Rules GolubWelsch Hermite Laguerre Jacobi Chebyshev Gamma RSum PolySpec PolyProof Improper Gaussian LaguerreWeight JacobiWeight Spectral
  WeightSpec MassSpec EigenSpec EigenProof OrthoProof GWSpec GWRoots RuleSpec ErrorSpec Interp GaussErr ErrRules GaussProof GaussExact JacobiMore GammaProof TransferSpec TransferProof ChebSpec ChebExact ChebRule ErrCheb ErrConv.
Import ListNotations.
Local Open Scope R_scope.

Lemma apply_rule_zero : forall (l : list (R * R)) f, (forall x, In x (map fst l) -> f x = 0) -> apply_rule l f = 0.
Proof.
  intros l f H. rewrite (apply_rule_nodes l f (fun _ => 0)) by exact H. unfold apply_rule.
  clear H. induction l as [|p l IH]; [reflexivity|]. cbn [map lsum]. rewrite IH. ring.
Qed.
Lemma sharp : forall (ps : list (R * R)) m, (1 <= m)%nat -> length ps = m ->
  exists F : nat -> R -> R, (forall i x, is_derive (F i) x (F (S i) x)) /\ (forall x, F (2 * m)%nat x = INR (fact (2 * m))) /\
    apply_rule ps (F O) = 0 /\ (forall x, F O x = rprod m (node ps) x * rprod m (node ps) x) /\ polynomial (2 * m) (F O).
Proof.
  intros ps m Hm L. set (w := rprod m (node ps)).
  assert (Lead : polynomial (2 * m - 1) (fun y => w y * w y - y ^ S (2 * m - 1))).
  { destruct m as [|k]; [lia|]. assert (Lw := rprod_lead k (node ps)). fold w in Lw.
    apply (poly_ext (2 * S k - 1) (fun y => (w y - y ^ S k) * (w y - y ^ S k) + 2 * (y ^ S k * (w y - y ^ S k)))).
    - intros y. replace (S (2 * S k - 1)) with (S k + S k)%nat by lia. rewrite pow_add. ring.
    - apply poly_add.
      + apply (poly_weaken (k + k)); [lia|]. apply poly_mul; exact Lw.
      + apply poly_scal. apply (poly_weaken (S k + k)); [lia|]. apply poly_mul; [apply poly_pow|exact Lw]. }
  destruct (monic_derivatives (2 * m - 1) _ Lead) as (F & F0 & FD & FN).
  exists F. split; [exact FD|]. replace (S (2 * m - 1)) with (2 * m)%nat in * by lia. split; [exact FN|].
  split; [|split; [exact F0|]].
  - apply apply_rule_zero. intros x Hx. destruct (in_node ps x Hx) as (i & Hi & <-). rewrite F0. unfold w. rewrite rprod_root by lia. ring.
  - apply (poly_ext (2 * m) (fun y => (w y * w y - y ^ (2 * m)) + y ^ (2 * m))); [intros; rewrite F0; ring|].
    apply poly_add; [apply (poly_weaken (2 * m - 1)); [lia|exact Lead]|apply poly_pow].
Qed.
Lemma abs_fact : forall k, Rabs (INR (fact k)) <= INR (fact k).
Proof. intros. right. apply Rabs_right, Rle_ge, pos_INR. Qed.
Lemma attained : forall k c N : R, 0 < k -> 0 <= c * N -> Rabs (0 - c * N) = k / k * (c * N).
Proof. intros k c N Hk H. rewrite Rminus_0_l, Rabs_Ropp, Rabs_right by (apply Rle_ge; exact H). field. lra. Qed.

Lemma hermite_sharp : forall (ext : Linalg RA) n (r : GaussHermite RA), (1 <= n)%Z -> sorts ext ->
  exact_on ext (Z.to_nat n) (@hermite_diag RA) (@hermite_off_diag RA) -> hermite_new ext n = Ok r ->
  let m := Z.to_nat n in
  exists (F : nat -> R -> R) M v, polynomial (2 * m) (F O) /\ has_derivatives (fun _ => True) (2 * m) F /\ (forall x, Rabs (F (2 * m)%nat x) <= M) /\
  hermite_integral (F O) v /\ 0 < v /\ hermite_value r (F O) = 0 /\
  Rabs (hermite_value r (F O) - v) = M / INR (fact (2 * m)) * (sqrt PI * INR (fact m) / 2 ^ m).
Proof.
  intros ext n r Hn So Ex Hr m.
  destruct (hermite_roots ext n r Hn So Ex Hr) as (Nd & L & Er). fold m in L, Er.
  destruct (sharp (hermite_pairs r) m ltac:(unfold m; lia) L) as (F & FD & FN & FZ & F0 & FP).
  assert (HV : hermite_value r (F O) = 0) by (unfold hermite_value; rewrite hermite_R; exact FZ).
  assert (V : 0 < sqrt PI * INR (fact m) / 2 ^ m).
  { apply Rdiv_lt_0_compat; [apply Rmult_lt_0_compat; [apply sqrt_lt_R0, PI_RGT_0|apply INR_fact_lt_0]|apply pow_lt; lra]. }
  exists F, (INR (fact (2 * m))), (sqrt PI * INR (fact m) / 2 ^ m). split; [exact FP|]. split; [intros i x _ _; apply FD|].
  split; [intros x; rewrite FN; apply abs_fact|]. split; [|split; [exact V|split; [exact HV|]]].
  - refine (eq_ind _ (fun h => is_RInt_gen h (Rbar_locally m_infty) (Rbar_locally p_infty) (sqrt PI * INR (fact m) / 2 ^ m)) (hermite_norm m) _ _).
    extensionality x. rewrite F0, Er. reflexivity.
  - rewrite HV. rewrite <- (Rmult_1_l (sqrt PI * INR (fact m) / 2 ^ m)). apply attained; [apply INR_fact_lt_0|]. lra.
Qed.
Lemma rising_pos : forall al n, -1 < al -> 0 < rising al n.
Proof. induction n; intros H; cbn [rising]; [lra|]. apply Rmult_lt_0_compat; [auto|]. rewrite S_INR. pose proof (pos_INR n). lra. Qed.
Lemma laguerre_sharp : forall (ext : Linalg RA) n (al : Param RA) (r : GaussLaguerre RA) (G : R), (1 <= n)%Z -> -1 < param_get al -> sorts ext ->
  exact_on ext (Z.to_nat n) (@laguerre_diag RA (param_get al)) (@laguerre_off_diag RA (param_get al)) ->
  laguerre_new ext n al = Ok r -> is_Gamma (param_get al + 1) G ->
  let m := Z.to_nat n in
  exists (F : nat -> R -> R) M v, polynomial (2 * m) (F O) /\ has_derivatives (fun x => 0 < x) (2 * m) F /\ (forall x, 0 < x -> Rabs (F (2 * m)%nat x) <= M) /\
  laguerre_integral (param_get al) (F O) v /\ 0 < v /\ laguerre_value r (F O) = 0 /\
  Rabs (laguerre_value r (F O) - @gamma RA (param_get al + 1) / G * v) =
    M / INR (fact (2 * m)) * (INR (fact m) * rising (param_get al) m * @gamma RA (param_get al + 1)).
Proof.
  intros ext n pa r G Hn Hal So Ex Hr HG m. set (al := param_get pa : R) in *.
  destruct (laguerre_coeffs al Hal) as (Ca & Cb & Cz).
  assert (HW := laguerre_new_inv ext n pa r Hr). fold al in HW.
  assert (L := gwx_length ext m _ _ _ (laguerre_pairs r) ltac:(unfold m; lia) So Ex HW).
  assert (Nd := gwx_distinct ext m _ _ _ ltac:(unfold m; lia) (fun i _ => Cz i) So Ex (laguerre_pairs r) HW).
  assert (Rt := gwx_roots ext m _ _ _ (laguerre_pairs r) ltac:(unfold m; lia) (fun i _ => Cz i) So Ex HW).
  assert (Er := monic_nodes (@laguerre_diag RA al) (@laguerre_off_diag RA al) m (laguerre_pairs r) ltac:(unfold m; lia) Nd L
     ltac:(eapply List.Forall_impl; [|exact Rt]; intros p [H _]; exact H)).
  assert (EG := gamma_mass al G Hal HG). assert (Gp : 0 < G) by (rewrite EG; apply laguerre_one_pos, Hal).
  assert (Pg := gamma_pos (al + 1) ltac:(lra)). set (g := @gamma RA (al + 1) : R) in *.
  destruct (sharp (laguerre_pairs r) m ltac:(unfold m; lia) L) as (F & FD & FN & FZ & F0 & FP).
  assert (HV : laguerre_value r (F O) = 0) by (unfold laguerre_value; rewrite laguerre_R; exact FZ).
  assert (V : 0 < INR (fact m) * rising al m).
  { apply Rmult_lt_0_compat; [apply INR_fact_lt_0|apply rising_pos, Hal]. }
  exists F, (INR (fact (2 * m))), (INR (fact m) * rising al m * G). split; [exact FP|]. split; [intros i x _ _; apply FD|].
  split; [intros x _; rewrite FN; apply abs_fact|]. split; [|split; [apply Rmult_lt_0_compat; assumption|split; [exact HV|]]].
  - assert (HN := laguerre_gen al Hal (m + m) _ (monic_square_poly (@laguerre_diag RA al) (@laguerre_off_diag RA al) m)).
    rewrite (norms _ _ (S m) (laguerre_L al) (laguerre_linear al Hal)) in HN by (first [lia | intros i k Hik _; apply laguerre_orth; [exact Hal|exact Ca|exact Cb|lia]]).
    rewrite bprod_laguerre, <- EG in HN by exact Hal.
    refine (eq_ind _ (fun h => is_RInt_gen h (at_right 0) (Rbar_locally p_infty) (INR (fact m) * rising al m * G)) HN _ _).
    extensionality x. rewrite F0, Er. reflexivity.
  - rewrite HV. set (q := INR (fact m) * rising al m) in *. replace (q * g) with (g / G * (q * G)) by (field; lra).
    apply attained; [apply INR_fact_lt_0|]. left. apply Rmult_lt_0_compat; [apply Rdiv_lt_0_compat; lra|apply Rmult_lt_0_compat; lra].
Qed.
Lemma jacobi_norm_pos : forall al be n, -1 < al -> -1 < be -> al + be <> -1 -> 0 < jacobi_norm al be n.
Proof.
  intros al be n Hal Hbe Hab. rewrite <- (bprod_jacobi al be n Hal Hbe Hab).
  destruct (jacobi_coeffs al be Hal Hbe Hab) as (_ & _ & _ & _ & Cz).
  assert (N : bprod (@jacobi_off_diag RA al be) n <> 0).
  { induction n; cbn [bprod]; [lra|]. apply Rmult_integral_contrapositive. split; [apply Cz|exact IHn]. }
  apply Rsqr_pos_lt in N. exact N.
Qed.
Lemma jacobi_sharp : forall t (ext : Linalg RA) n (pa pb : Param RA) (r : GaussJacobi RA), (2 <= n)%Z ->
  -1 < param_get pa -> -1 < param_get pb -> param_get pa + param_get pb <> -1 ->
  ~ delegated (param_get pa) (param_get pb) -> sorts ext ->
  exact_on ext (Z.to_nat n) (@jacobi_diag RA (param_get pa) (param_get pb)) (@jacobi_off_diag RA (param_get pa) (param_get pb)) ->
  jacobi_new t ext n pa pb = Ok r -> (n mod 2 = 0)%Z \/ param_get pa = param_get pb ->
  forall T, jacobi_integral (param_get pa) (param_get pb) (fun _ => 1) T ->
  let m := Z.to_nat n in
  exists (F : nat -> R -> R) M v, polynomial (2 * m) (F O) /\ has_derivatives (open_between (-1) 1) (2 * m) F /\
  (forall x, open_between (-1) 1 x -> Rabs (F (2 * m)%nat x) <= M) /\ jacobi_integral (param_get pa) (param_get pb) (F O) v /\ 0 < v /\
  jacobi_value r (-1) 1 (F O) = 0 /\
  Rabs (jacobi_value r (-1) 1 (F O) - jacobi_mass (param_get pa) (param_get pb) / T * v) =
    M / INR (fact (2 * m)) * (jacobi_norm (param_get pa) (param_get pb) m * jacobi_mass (param_get pa) (param_get pb)).
Proof.
  intros t ext n pa pb r Hn Hal Hbe Hab Nd So Ex Hr Par T HT m.
  assert (Int := jacobi_interior t ext n pa pb r Hn Hal Hbe Hab Nd So Ex Hr). destruct Int as [Int Srt]. specialize (Srt Par).
  destruct (jacobi_roots t ext n pa pb r Hn Hal Hbe Hab Nd So Ex Hr Par) as [L Rt]. fold m in L, Rt.
  set (al := param_get pa : R) in *. set (be := param_get pb : R) in *.
  assert (ND := ascending_nodup (jacobi_pairs r) Srt).
  assert (Er := monic_nodes _ _ m (jacobi_pairs r) ltac:(unfold m; lia) ND L Rt).
  assert (ET : jacobi_L al be (fun _ => 1) = T) by (apply is_RInt_gen_unique; exact HT).
  assert (Tp := jacobi_one_pos al be Hal Hbe). rewrite ET in Tp.
  assert (Jp := jacobi_mass_pos al be Hal Hbe Hab). set (g := jacobi_mass al be) in *.
  destruct (sharp (jacobi_pairs r) m ltac:(unfold m; lia) L) as (F & FD & FN & FZ & F0 & FP).
  assert (HV : jacobi_value r (-1) 1 (F O) = 0) by (unfold jacobi_value; rewrite jacobi_R, gauss_on_unit; exact FZ).
  assert (V := jacobi_norm_pos al be m Hal Hbe Hab).
  exists F, (INR (fact (2 * m))), (jacobi_norm al be m * T). split; [exact FP|]. split; [intros i x _ _; apply FD|].
  split; [intros x _; rewrite FN; apply abs_fact|]. split; [|split; [apply Rmult_lt_0_compat; assumption|split; [exact HV|]]].
  - destruct (jacobi_coeffs al be Hal Hbe Hab) as (Ca0 & CaS & Cb0 & CbS & Cz).
    assert (HN := jacobi_gen al be Hal Hbe (m + m) _ (monic_square_poly (@jacobi_diag RA al be) (@jacobi_off_diag RA al be) m)).
    rewrite (norms _ _ (S m) (jacobi_L al be) (jacobi_linear al be Hal Hbe)) in HN by (first [lia | intros i k Hik _; apply jacobi_orth; [exact Hal|exact Hbe|exact Ca0|exact CaS|exact Cb0|exact CbS|lia]]).
    rewrite bprod_jacobi, ET in HN by assumption.
    refine (eq_ind _ (fun h => is_RInt_gen h (at_right (-1)) (at_left 1) (jacobi_norm al be m * T)) HN _ _).
    extensionality x. rewrite F0, Er. reflexivity.
  - rewrite HV. set (q := jacobi_norm al be m) in *. replace (q * g) with (g / T * (q * T)) by (field; lra).
    apply attained; [apply INR_fact_lt_0|]. left. apply Rmult_lt_0_compat; [apply Rdiv_lt_0_compat; lra|apply Rmult_lt_0_compat; lra].
Qed.
Lemma chebyshev1_sharp : forall t n (r : GaussChebyshevFirstKind RA), (1 <= n < usize_max t)%Z -> chebyshev1_new t n = Ok r ->
  let m := Z.to_nat n in
  exists (F : nat -> R -> R) M v, polynomial (2 * m) (F O) /\ has_derivatives (open_between (-1) 1) (2 * m) F /\
  (forall x, open_between (-1) 1 x -> Rabs (F (2 * m)%nat x) <= M) /\ chebyshev1_integral (F O) v /\ 0 < v /\
  chebyshev1_value r (-1) 1 (F O) = 0 /\
  Rabs (chebyshev1_value r (-1) 1 (F O) - v) = M / INR (fact (2 * m)) * (PI / 2 ^ (2 * m - 1)).
Proof.
  intros t n r Hn Hr m. destruct (cheb1_norm t n r Hn Hr) as (L & HN). fold m in L, HN.
  destruct (sharp (chebyshev1_pairs r) m ltac:(unfold m; lia) L) as (F & FD & FN & FZ & F0 & FP).
  assert (HV : chebyshev1_value r (-1) 1 (F O) = 0) by (unfold chebyshev1_value; rewrite chebyshev1_R, gauss_on_unit; exact FZ).
  assert (V : 0 < PI / 2 ^ (2 * m - 1)) by (apply Rdiv_lt_0_compat; [apply PI_RGT_0|apply pow_lt; lra]).
  exists F, (INR (fact (2 * m))), (PI / 2 ^ (2 * m - 1)). split; [exact FP|]. split; [intros i x _ _; apply FD|].
  split; [intros x _; rewrite FN; apply abs_fact|]. split; [|split; [exact V|split; [exact HV|]]].
  - refine (eq_ind _ (fun h => is_RInt_gen h (at_right (-1)) (at_left 1) _) HN _ _). extensionality x. rewrite F0. unfold w1, Rdiv. ring.
  - rewrite HV. rewrite <- (Rmult_1_l (PI / 2 ^ (2 * m - 1))). apply attained; [apply INR_fact_lt_0|]. lra.
Qed.
Lemma chebyshev2_sharp : forall t n (r : GaussChebyshevSecondKind RA), (1 <= n < usize_max t)%Z -> chebyshev2_new t n = Ok r ->
  let m := Z.to_nat n in
  exists (F : nat -> R -> R) M v, polynomial (2 * m) (F O) /\ has_derivatives (open_between (-1) 1) (2 * m) F /\
  (forall x, open_between (-1) 1 x -> Rabs (F (2 * m)%nat x) <= M) /\ weighted_integral (fun x => sqrt (1 - x * x)) (-1) 1 (F O) v /\ 0 < v /\
  chebyshev2_value r (-1) 1 (F O) = 0 /\
  Rabs (chebyshev2_value r (-1) 1 (F O) - v) = M / INR (fact (2 * m)) * (PI / 2 ^ (2 * m + 1)).
Proof.
  intros t n r Hn Hr m. destruct (cheb2_norm t n r Hn Hr) as (L & HN). fold m in L, HN.
  destruct (sharp (chebyshev2_pairs r) m ltac:(unfold m; lia) L) as (F & FD & FN & FZ & F0 & FP).
  assert (HV : chebyshev2_value r (-1) 1 (F O) = 0) by (unfold chebyshev2_value; rewrite chebyshev2_R, gauss_on_unit; exact FZ).
  assert (V : 0 < PI / 2 ^ (2 * m + 1)) by (apply Rdiv_lt_0_compat; [apply PI_RGT_0|apply pow_lt; lra]).
  exists F, (INR (fact (2 * m))), (PI / 2 ^ (2 * m + 1)). split; [exact FP|]. split; [intros i x _ _; apply FD|].
  split; [intros x _; rewrite FN; apply abs_fact|]. split; [|split; [exact V|split; [exact HV|]]].
  - replace (PI / 2 ^ (2 * m + 1)) with ((1 - -1) / 2 * (PI / 2 ^ (2 * m + 1))) by (field; apply inv_pow_neq).
    apply (weighted_push w2 (-1) 1 (F O)); [lra|].
    refine (eq_ind _ (fun h => is_RInt_gen h (at_right (-1)) (at_left 1) _) HN _ _). extensionality x. unfold pulled. rewrite F0.
    replace ((1 - -1) / 2 * x + (-1 + 1) / 2) with x by field. reflexivity.
  - rewrite HV. rewrite <- (Rmult_1_l (PI / 2 ^ (2 * m + 1))). apply attained; [apply INR_fact_lt_0|]. lra.
Qed.
