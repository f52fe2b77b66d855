(** Gauss-Jacobi: degree one, interior nodes, and what the correction of the middle node breaks. *)
From Coq Require Import Reals Lra Lia List ZArith Bool Sorted.
From Coquelicot Require Import Coquelicot.
From Flocq Require Import Core.Raux.
From Verif Require Import Arith RInst RInstProof Machine Param Rules RSum PolySpec PolyProof GolubWelsch GWSpec EigenSpec EigenProof Spectral
  Improper OrthoProof LaguerreWeight JacobiWeight WeightSpec Gamma Hermite Laguerre Legendre Chebyshev Jacobi RuleSpec
  GaussProof SizeProof GWRoots GammaProof MassSpec GaussExact.
Import ListNotations.
Local Open Scope R_scope.

(** ** degree one *)
Lemma jacobi_first_moment : forall al be, -1 < al -> -1 < be ->
  (be - al) * jacobi_L al be (fun _ => 1) - (al + be + 2) * jacobi_L al be (fun x => x) = 0.
Proof.
  intros al be Hal Hbe.
  assert (Z : jacobi_L al be (jac_tau al be) = 0).
  { apply (pearson_int unit_open _ _ unit_convex unit_a unit_b (jacw al be) (jacw_cont al be)
      jac_sigma (jac_tau al be)) with (d := O) (f := fun _ => 1) (f' := fun _ => 0) (e := 1%nat).
    - exact (jacw_pearson al be).
    - exact (jacw_bound_a al be Hbe).
    - exact (jacw_bound_b al be Hal).
    - apply poly_const.
    - intros x. exact (is_derive_const (K := R_AbsRing) (V := R_NormedModule) 1 x).
    - unfold jac_tau. apply poly_sub; [apply poly_const|apply poly_scal, poly_id].
    - intros x _. ring. }
  rewrite <- Z. unfold jac_tau.
  assert (Li := jacobi_linear al be Hal Hbe 1%nat (be - al) (- (al + be + 2)) (fun _ => 1) (fun x => x) (poly_const 1%nat 1) poly_id).
  cbv beta in Li. transitivity ((be - al) * jacobi_L al be (fun _ => 1) + - (al + be + 2) * jacobi_L al be (fun x => x)); [ring|].
  rewrite <- Li. f_equal. apply FunctionalExtensionality.functional_extensionality. intros; ring.
Qed.

Lemma jacobi_one_inv : forall t (ext : Linalg RA) (pa pb : Param RA) (r : GaussJacobi RA), ~ delegated (param_get pa) (param_get pb) ->
  jacobi_new t ext 1 pa pb = Ok r ->
  jacobi_pairs r = [(jacobi_one_node (param_get pa) (param_get pb), jacobi_one_weight (param_get pa) (param_get pb))].
Proof.
  intros t ext pa pb r Nd H. unfold jacobi_new in H. destruct (not_delegated _ _ Nd) as (D1 & D2 & D3).
  rewrite D1, D2, D3 in H. simpl in H. injection H; intros <-. reflexivity.
Qed.
Lemma jacobi_one_total : forall t (ext : Linalg RA) (pa pb : Param RA), ~ delegated (param_get pa) (param_get pb) ->
  exists r, jacobi_new t ext 1 pa pb = Ok r.
Proof.
  intros t ext pa pb Nd. unfold jacobi_new. destruct (not_delegated _ _ Nd) as (D1 & D2 & D3). rewrite D1, D2, D3. simpl. eexists. reflexivity.
Qed.

Lemma jacobi_one_exact : forall t (ext : Linalg RA) (pa pb : Param RA) (r : GaussJacobi RA) M,
  -1 < param_get pa -> -1 < param_get pb -> ~ delegated (param_get pa) (param_get pb) ->
  jacobi_new t ext 1 pa pb = Ok r -> jacobi_integral (param_get pa) (param_get pb) (fun _ => 1) M ->
  exists x, jacobi_pairs r = [(x, jacobi_mass1 (param_get pa) (param_get pb))] /\
    x = (param_get pb - param_get pa) / (param_get pa + param_get pb + 2) /\ -1 < x < 1 /\
    0 < jacobi_mass1 (param_get pa) (param_get pb) /\
    forall f, polynomial 1 f -> exists v, jacobi_integral (param_get pa) (param_get pb) f v /\
      jacobi_value r (-1) 1 f = jacobi_mass1 (param_get pa) (param_get pb) / M * v.
Proof.
  intros t ext pa pb r M Ha Hb Nd H HM. assert (E := jacobi_one_inv t ext pa pb r Nd H).
  set (al := param_get pa : R) in *. set (be := param_get pb : R) in *.
  assert (En : @jacobi_one_node RA al be = (be - al) / (al + be + 2)) by (unfold jacobi_one_node; ra_simpl; ra_lits; reflexivity).
  assert (Ew : @jacobi_one_weight RA al be = jacobi_mass1 al be) by (unfold jacobi_one_weight, jacobi_mass1; ra_simpl; ra_lits; reflexivity).
  rewrite En, Ew in E. exists ((be - al) / (al + be + 2)). split; [exact E|]. split; [reflexivity|]. split; [|split].
  - split; apply (Rmult_lt_reg_r (al + be + 2)); try lra; unfold Rdiv; rewrite Rmult_assoc, Rinv_l; lra.
  - unfold jacobi_mass1. apply Rdiv_lt_0_compat; [|apply gamma_pos; lra].
    apply Rmult_lt_0_compat; [apply Rmult_lt_0_compat; [apply Rpower_gt0|apply gamma_pos; lra]|apply gamma_pos; lra].
  - intros f Hf. exists (jacobi_L al be f). split; [apply (jacobi_gen al be Ha Hb 1%nat f Hf)|].
    unfold jacobi_value. rewrite jacobi_R, gauss_on_unit, E. unfold apply_rule. simpl.
    assert (EM : jacobi_L al be (fun _ => 1) = M) by (apply is_RInt_gen_unique; exact HM).
    assert (Mp := jacobi_one_pos al be Ha Hb). assert (Fm := jacobi_first_moment al be Ha Hb). rewrite EM in *.
    destruct Hf as [c Hc]. rewrite Hc.
    replace f with (fun x => c O * 1 + c 1%nat * x) by (apply FunctionalExtensionality.functional_extensionality; intros x; rewrite Hc; simpl; ring).
    rewrite (jacobi_linear al be Ha Hb 1%nat (c O) (c 1%nat) (fun _ => 1) (fun x => x) (poly_const 1%nat 1) poly_id), EM.
    replace (jacobi_L al be (fun x => x)) with ((be - al) / (al + be + 2) * M).
    + simpl. field. lra.
    + apply (Rmult_eq_reg_l (al + be + 2)); [|lra]. replace ((al + be + 2) * jacobi_L al be (fun x => x)) with ((be - al) * M) by lra. field. lra.
Qed.

(** ** nodes inside the domain *)
Lemma laguerre_interior : forall (ext : Linalg RA) n (al : Param RA) (r : GaussLaguerre RA), (1 <= n)%Z -> -1 < param_get al -> sorts ext ->
  exact_on ext (Z.to_nat n) (@laguerre_diag RA (param_get al)) (@laguerre_off_diag RA (param_get al)) ->
  laguerre_new ext n al = Ok r ->
  List.Forall (fun xw : R * R => 0 < fst xw /\ 0 < snd xw) (laguerre_pairs r) /\ StronglySorted (fun p q : R * R => fst p < fst q) (laguerre_pairs r).
Proof.
  intros ext n pa r Hn Hal So Ex Hr. assert (HG := laguerre_new_inv ext n pa r Hr).
  set (al := param_get pa : R) in *. destruct (laguerre_coeffs al Hal) as (Ca & Cb & Cz).
  split; [|exact (gwx_ascending ext (Z.to_nat n) _ _ _ (laguerre_pairs r) ltac:(lia) (fun i _ => Cz i) So Ex HG)].
  assert (Rt := gwx_roots ext (Z.to_nat n) _ _ _ (laguerre_pairs r) ltac:(lia) (fun i _ => Cz i) So Ex HG).
  assert (Ps := gwx_pos ext (Z.to_nat n) _ _ _ ltac:(lia) (fun i _ => Cz i) So Ex (laguerre_pairs r) HG (gamma_pos (al + 1) ltac:(lra))).
  rewrite List.Forall_forall in *. intros p Hp. split; [|apply Ps, Hp].
  destruct (Rlt_or_le 0 (fst p)) as [|Le]; [assumption|exfalso].
  apply (monic_below (@laguerre_diag RA al) (@laguerre_off_diag RA al) 0 (fun k => INR k + 1 + al) (fun k => INR k + 1)) with (k := Z.to_nat n) (x := fst p).
  - intros k. assert (Q := pos_INR k). lra.
  - intros k. assert (Q := pos_INR k). lra.
  - rewrite Ca. simpl. ring.
  - intros k. rewrite Ca, S_INR. ring.
  - intros k. rewrite Cb, S_INR. ring.
  - exact Le.
  - apply (proj1 (Rt p Hp)).
Qed.

(** factorisation of 1 - x and 1 + x *)
Definition jfac_d (p q : R) (k : nat) : R := match k with O => 2 * (p + 1) / (p + q + 2) | S _ =>
  2 * (INR k + p + q + 1) * (INR k + p + 1) / ((2 * INR k + p + q + 1) * (2 * INR k + p + q + 2)) end.
Definition jfac_e (p q : R) (k : nat) : R := 2 * (INR k + 1) * (INR k + 1 + q) / ((2 * INR k + p + q + 2) * (2 * INR k + p + q + 3)).
Lemma jfac_pos : forall p q, -1 < p -> -1 < q -> (forall k, 0 < jfac_d p q k) /\ (forall k, 0 <= jfac_e p q k).
Proof.
  intros p q Hp Hq. split.
  - intros [|j]; unfold jfac_d.
    + apply Rdiv_lt_0_compat; lra.
    + rewrite S_INR. assert (Q := pos_INR j). apply Rdiv_lt_0_compat; repeat apply Rmult_lt_0_compat; lra.
  - intros j. unfold jfac_e. assert (Q := pos_INR j). apply Rlt_le. apply Rdiv_lt_0_compat; repeat apply Rmult_lt_0_compat; lra.
Qed.

Lemma jacobi_roots_inside : forall al be, -1 < al -> -1 < be -> al + be <> -1 -> forall k x,
  monic (@jacobi_diag RA al be) (@jacobi_off_diag RA al be) k x = 0 -> -1 < x < 1.
Proof.
  intros al be Hal Hbe Hab k x Hx. destruct (jacobi_coeffs al be Hal Hbe Hab) as (Ca0 & CaS & Cb0 & CbS & Cz).
  split.
  - destruct (Rlt_or_le (-1) x) as [|Le]; [assumption|exfalso].
    destruct (jfac_pos be al Hbe Hal) as [Dp Ep].
    apply (monic_below (@jacobi_diag RA al be) (@jacobi_off_diag RA al be) (-1) _ _ Dp Ep) with (k := k) (x := x); [| | |exact Le|exact Hx].
    + rewrite Ca0. unfold jfac_d. field. lra.
    + intros j. rewrite CaS. unfold jfac_d, jfac_e. rewrite !S_INR. assert (Q := pos_INR j). field. repeat split; lra.
    + intros [|j].
      * rewrite Cb0. unfold jfac_d, jfac_e. simpl INR. field. lra.
      * rewrite CbS. unfold jfac_d, jfac_e. rewrite !S_INR. assert (Q := pos_INR j). field. repeat split; lra.
  - destruct (Rlt_or_le x 1) as [|Le]; [assumption|exfalso].
    destruct (jfac_pos al be Hal Hbe) as [Dp Ep].
    assert (P := monic_above (@jacobi_diag RA al be) (@jacobi_off_diag RA al be) 1 _ _ Dp Ep).
    enough (0 < monic (@jacobi_diag RA al be) (@jacobi_off_diag RA al be) k x) by lra.
    apply P; [| | |exact Le].
    + rewrite Ca0. unfold jfac_d. field. lra.
    + intros j. rewrite CaS. unfold jfac_d, jfac_e. rewrite !S_INR. assert (Q := pos_INR j). field. repeat split; lra.
    + intros [|j].
      * rewrite Cb0. unfold jfac_d, jfac_e. simpl INR. field. lra.
      * rewrite CbS. unfold jfac_d, jfac_e. rewrite !S_INR. assert (Q := pos_INR j). field. repeat split; lra.
Qed.

Lemma jacobi_interior : forall t (ext : Linalg RA) n (pa pb : Param RA) (r : GaussJacobi RA), (2 <= n)%Z ->
  -1 < param_get pa -> -1 < param_get pb -> param_get pa + param_get pb <> -1 -> ~ delegated (param_get pa) (param_get pb) -> sorts ext ->
  exact_on ext (Z.to_nat n) (@jacobi_diag RA (param_get pa) (param_get pb)) (@jacobi_off_diag RA (param_get pa) (param_get pb)) ->
  jacobi_new t ext n pa pb = Ok r ->
  List.Forall (fun xw : R * R => -1 < fst xw < 1 /\ 0 < snd xw) (jacobi_pairs r) /\
  ((n mod 2 = 0)%Z \/ param_get pa = param_get pb -> StronglySorted (fun p q : R * R => fst p < fst q) (jacobi_pairs r)).
Proof.
  intros t ext n pa pb r Hn Ha Hb Hab Nd So Ex Hr.
  destruct (jacobi_inv t ext n pa pb r Hn Nd Hr) as (ps & H1 & H2).
  set (al := param_get pa : R) in *. set (be := param_get pb : R) in *.
  destruct (jacobi_coeffs al be Ha Hb Hab) as (Ca0 & CaS & _ & _ & Cz).
  assert (Rt := gwx_roots ext (Z.to_nat n) _ _ _ ps ltac:(lia) (fun i _ => Cz i) So Ex H1).
  assert (Ps := gwx_pos ext (Z.to_nat n) _ _ _ ltac:(lia) (fun i _ => Cz i) So Ex ps H1 (jacobi_mass_pos al be Ha Hb Hab)).
  assert (As := gwx_ascending ext (Z.to_nat n) _ _ _ ps ltac:(lia) (fun i _ => Cz i) So Ex H1).
  assert (L := gwx_length ext (Z.to_nat n) _ _ _ ps ltac:(lia) So Ex H1).
  assert (F : List.Forall (fun xw : R * R => -1 < fst xw < 1 /\ 0 < snd xw) ps).
  { rewrite List.Forall_forall in *. intros p Hp. split; [|apply Ps, Hp]. apply (jacobi_roots_inside al be Ha Hb Hab (Z.to_nat n)). apply Rt, Hp. }
  destruct (Z.eqb_spec (n mod 2) 1) as [Od|Ev].
  - assert (Hh := odd_half n Od ltac:(lia)). assert (Hk : (Z.to_nat (n / 2) < length ps)%nat) by (rewrite L; lia).
    destruct (zero_node_rule ps (jacobi_pairs r) (Z.to_nat (n / 2)) H2 Hk) as (Lq & N & _). split.
    + apply List.Forall_forall. intros p Hp. apply (In_nth _ _ (0, 0)) in Hp. destruct Hp as (j & Hj & <-). 
      assert (G : forall i, (i < length ps)%nat -> -1 < fst (nth i ps (0, 0)) < 1 /\ 0 < snd (nth i ps (0, 0))).
      { intros i Hi. rewrite List.Forall_forall in F. apply F, nth_In, Hi. }
      rewrite N. rewrite Lq in Hj. destruct (Nat.eqb j (Z.to_nat (n / 2))); cbn [fst snd]; [|apply G, Hj].
      split; [lra|]. apply (proj2 (G _ Hk)).
    + intros [Ev|Eab]; [lia|]. replace (jacobi_pairs r) with ps; [exact As|].
      assert (Mid := gwx_middle ext (Z.to_nat n) _ _ _ ps ltac:(lia) (fun i _ => Cz i)
        ltac:(intros [|i]; [rewrite Ca0|rewrite CaS]; rewrite Eab; unfold Rdiv; ring) So Ex H1 (Z.to_nat (n / 2)) Hh).
      apply (nth_ext ps (jacobi_pairs r) (0, 0) (0, 0)); [symmetry; exact Lq|]. intros j Hj. rewrite N.
      destruct (Nat.eqb_spec j (Z.to_nat (n / 2))) as [->|]; [|reflexivity].
      assert (Mid' : fst (nth (Z.to_nat (n / 2)) ps (0, 0)) = 0) by exact (eq_trans (eq_sym (map_nth fst ps (0, 0) (Z.to_nat (n / 2)))) Mid).
      destruct (nth (Z.to_nat (n / 2)) ps (0, 0)) as [x w]. simpl in *. rewrite Mid'. reflexivity.
  - injection H2; intros <-. split; [exact F|]. intros _. exact As.
Qed.

Lemma hermite_interior : forall (ext : Linalg RA) n (r : GaussHermite RA), (1 <= n)%Z -> sorts ext ->
  exact_on ext (Z.to_nat n) (@hermite_diag RA) (@hermite_off_diag RA) -> hermite_new ext n = Ok r ->
  symmetric_rule (hermite_pairs r) /\ StronglySorted (fun p q : R * R => fst p < fst q) (hermite_pairs r) /\
  List.Forall (fun xw : R * R => 0 < snd xw) (hermite_pairs r).
Proof.
  intros ext n r Hn So Ex Hr. destruct hermite_coeffs as (Ca & Cb & Cz). assert (HG := hermite_new_inv ext n r Hr).
  split; [|split].
  - exact (gwx_symmetric ext (Z.to_nat n) _ _ _ (hermite_pairs r) ltac:(lia) (fun i _ => Cz i) Ca So Ex HG).
  - exact (gwx_ascending ext (Z.to_nat n) _ _ _ (hermite_pairs r) ltac:(lia) (fun i _ => Cz i) So Ex HG).
  - apply (gwx_pos ext (Z.to_nat n) _ _ _ ltac:(lia) (fun i _ => Cz i) So Ex (hermite_pairs r) HG). apply sqrt_lt_R0, PI_RGT_0.
Qed.

(** ** what the correction of the middle node breaks *)
Lemma P3_at : forall (a b : nat -> R) x,
  monic a b 3 x = (x - a 2%nat) * ((x - a 1%nat) * (x - a O) - b O * b O) - b 1%nat * b 1%nat * (x - a O).
Proof. intros. rewrite (monic_SS a b 1), (monic_SS a b 0), monic_1. simpl. ring. Qed.

(** degree 3, alpha = 1, beta = 0: not exact on f(x) = x, whatever the normalisation *)
Lemma jacobi_odd_wrong : forall t (ext : Linalg RA) (r : GaussJacobi RA), sorts ext ->
  exact_on ext 3 (@jacobi_diag RA 1 0) (@jacobi_off_diag RA 1 0) ->
  jacobi_new t ext 3 (@MkParam RA 1) (@MkParam RA 0) = Ok r ->
  exists M m1, jacobi_integral 1 0 (fun _ => 1) M /\ jacobi_integral 1 0 (fun x => x) m1 /\
    jacobi_value r (-1) 1 (fun x => x) * M <> jacobi_value r (-1) 1 (fun _ => 1) * m1.
Proof.
  intros t ext r So Ex Hr.
  assert (HM := jacobi_gen 1 0 ltac:(lra) ltac:(lra) O (fun _ => 1) (poly_const O 1)).
  assert (Hm := jacobi_gen 1 0 ltac:(lra) ltac:(lra) 1%nat (fun x => x) poly_id).
  assert (Mp := jacobi_one_pos 1 0 ltac:(lra) ltac:(lra)).
  set (M := jacobi_L 1 0 (fun _ => 1)) in *. set (m1 := jacobi_L 1 0 (fun x => x)) in *. exists M, m1. split; [exact HM|]. split; [exact Hm|].
  assert (Nd : ~ delegated 1 0) by (unfold delegated; intros [[? ?]|[[? ?]|[? ?]]]; lra).
  destruct (jacobi_odd_defect t ext 3 (@MkParam RA 1) (@MkParam RA 0) r ltac:(lia) ltac:(simpl; lra) ltac:(simpl; lra) ltac:(simpl; lra) Nd So Ex Hr eq_refl M HM)
    as (x & w & Rx & Wp & _ & D).
  destruct (D (fun _ => 1) (poly_const _ 1)) as (v1 & V1 & E1).
  destruct (D (fun x => x) (poly_weaken 1%nat (2 * Z.to_nat 3 - 1)%nat (fun x => x) ltac:(lia) poly_id)) as (v2 & V2 & E2).
  assert (v1 = M) by (unfold M, jacobi_L, wint; symmetry; apply is_RInt_gen_unique; exact V1).
  assert (v2 = m1) by (unfold m1, jacobi_L, wint; symmetry; apply is_RInt_gen_unique; exact V2). subst v1 v2.
  assert (E1' : jacobi_value r (-1) 1 (fun _ => 1) = jacobi_mass 1 0 / M * M + w * (1 - 1)) by exact E1.
  assert (E2' : jacobi_value r (-1) 1 (fun x => x) = jacobi_mass 1 0 / M * m1 + w * (0 - x)) by exact E2.
  assert (Rx' : monic (@jacobi_diag RA 1 0) (@jacobi_off_diag RA 1 0) 3 x = 0) by exact Rx. clear Rx. rename Rx' into Rx.
  rewrite E1', E2'. intros E.
  assert (Z : w * x * M = 0).
  { apply (f_equal (fun z => jacobi_mass 1 0 * m1 - z)) in E. 
    replace (jacobi_mass 1 0 * m1 - (jacobi_mass 1 0 / M * m1 + w * (0 - x)) * M) with (w * x * M) in E by (field; lra).
    rewrite E. field. lra. }
  assert (X0 : x = 0).
  { apply Rmult_integral in Z. destruct Z as [Z|Z]; [|lra]. apply Rmult_integral in Z. destruct Z as [Z|Z]; lra. }
  subst x. rewrite P3_at in Rx.
  destruct (jacobi_coeffs 1 0 ltac:(lra) ltac:(lra) ltac:(lra)) as (Ca0 & CaS & Cb0 & CbS & _).
  rewrite Ca0, !CaS, Cb0, CbS in Rx. simpl INR in Rx. lra.
Qed.

(** degree 3, alpha = 42, beta = 0: not in ascending order *)
Lemma jacobi_odd_unsorted : forall t (ext : Linalg RA) (r : GaussJacobi RA), sorts ext ->
  exact_on ext 3 (@jacobi_diag RA 42 0) (@jacobi_off_diag RA 42 0) ->
  jacobi_new t ext 3 (@MkParam RA 42) (@MkParam RA 0) = Ok r -> ~ @ascending RA (jacobi_pairs r).
Proof.
  intros t ext r So Ex Hr As. assert (Nd : ~ delegated 42 0) by (unfold delegated; intros [[? ?]|[[? ?]|[? ?]]]; lra).
  destruct (jacobi_inv t ext 3 (@MkParam RA 42) (@MkParam RA 0) r ltac:(lia) Nd Hr) as (ps & H1 & H2).
  cbn [param_get] in *. change (Z.to_nat 3) with 3%nat in *. simpl Z.modulo in H2. simpl Z.eqb in H2. cbv iota in H2.
  change (Z.to_nat (3 / 2)) with 1%nat in H2.
  destruct (jacobi_coeffs 42 0 ltac:(lra) ltac:(lra) ltac:(lra)) as (Ca0 & CaS & Cb0 & CbS & Cz).
  assert (L := gwx_length ext 3 _ _ _ ps ltac:(lia) So Ex H1).
  assert (Rt := gwx_roots ext 3 _ _ _ ps ltac:(lia) (fun i _ => Cz i) So Ex H1).
  destruct (zero_node_rule ps (jacobi_pairs r) 1 H2 ltac:(lia)) as (Lq & N & _).
  assert (R2 : monic (@jacobi_diag RA 42 0) (@jacobi_off_diag RA 42 0) 3 (fst (nth 2 ps (0, 0))) = 0).
  { rewrite List.Forall_forall in Rt. apply Rt, nth_In. lia. }
  set (x := fst (nth 2 ps (0, 0))) in *.
  assert (X : x < 0).
  { destruct (Rlt_or_le x 0) as [|Hx]; [assumption|exfalso]. rewrite P3_at in R2. rewrite Ca0, !CaS, Cb0, CbS in R2. simpl INR in R2.
    assert (0 <= x * x) by nra. assert (0 <= x * x * x) by nra. nra. }
  assert (As' := cmp_le (jacobi_pairs r) As).
  destruct (jacobi_pairs r) as [|p0 [|p1 [|p2 [|]]]] eqn:Ep; try (simpl in Lq; rewrite L in Lq; discriminate).
  assert (N1 := N 1%nat). assert (N2 := N 2%nat). simpl in N1, N2.
  apply StronglySorted_inv in As'. destruct As' as [S1 _]. apply StronglySorted_inv in S1. destruct S1 as [_ F2].
  apply List.Forall_inv in F2. rewrite N1, N2 in F2. assert (F3 : 0 <= x) by exact F2. lra.
Qed.

(** ** the hypotheses can be met *)
Lemma hermite_solver : forall n, (1 <= n)%Z -> exists (ext : Linalg RA) (r : GaussHermite RA), sorts ext /\
  exact_on ext (Z.to_nat n) (@hermite_diag RA) (@hermite_off_diag RA) /\ hermite_new ext n = Ok r.
Proof.
  intros n Hn. destruct hermite_coeffs as (_ & _ & Cz).
  destruct (exact_solver_exists (Z.to_nat n) (@hermite_diag RA) (@hermite_off_diag RA) ltac:(lia) (fun i _ => Cz i)) as (ext & So & Ex).
  destruct (gwx_ok ext (Z.to_nat n) _ _ (sqrt PI) ltac:(lia) Ex) as [ps H].
  exists ext, {| hermite_pairs := ps |}. split; [exact So|]. split; [exact Ex|]. unfold hermite_new. simpl npi. simpl nsqrt. rewrite H. reflexivity.
Qed.
Lemma laguerre_solver : forall n (al : Param RA), (1 <= n)%Z -> -1 < param_get al ->
  exists (ext : Linalg RA) (r : GaussLaguerre RA) (G : R), sorts ext /\
  exact_on ext (Z.to_nat n) (@laguerre_diag RA (param_get al)) (@laguerre_off_diag RA (param_get al)) /\
  laguerre_new ext n al = Ok r /\ is_Gamma (param_get al + 1) G.
Proof.
  intros n al Hn Ha. destruct (laguerre_coeffs (param_get al) Ha) as (_ & _ & Cz).
  destruct (exact_solver_exists (Z.to_nat n) (@laguerre_diag RA (param_get al)) (@laguerre_off_diag RA (param_get al)) ltac:(lia) (fun i _ => Cz i)) as (ext & So & Ex).
  destruct (gwx_ok ext (Z.to_nat n) _ _ (@gamma RA (@nadd RA (param_get al) lit1)) ltac:(lia) Ex) as [ps H].
  destruct (gamma_exists (param_get al) Ha) as (G & _ & HG).
  exists ext, {| laguerre_pairs := ps; laguerre_alpha := al |}, G. split; [exact So|]. split; [exact Ex|]. split; [|exact HG].
  unfold laguerre_new. rewrite H. reflexivity.
Qed.
Lemma jacobi_solver : forall t n (pa pb : Param RA), (2 <= n)%Z -> -1 < param_get pa -> -1 < param_get pb ->
  param_get pa + param_get pb <> -1 -> ~ delegated (param_get pa) (param_get pb) ->
  exists (ext : Linalg RA) (r : GaussJacobi RA) (M : R), sorts ext /\
  exact_on ext (Z.to_nat n) (@jacobi_diag RA (param_get pa) (param_get pb)) (@jacobi_off_diag RA (param_get pa) (param_get pb)) /\
  jacobi_new t ext n pa pb = Ok r /\ jacobi_integral (param_get pa) (param_get pb) (fun _ => 1) M.
Proof.
  intros t n pa pb Hn Ha Hb Hab Nd. destruct (jacobi_coeffs (param_get pa) (param_get pb) Ha Hb Hab) as (_ & _ & _ & _ & Cz).
  destruct (exact_solver_exists (Z.to_nat n) (@jacobi_diag RA (param_get pa) (param_get pb)) (@jacobi_off_diag RA (param_get pa) (param_get pb))
     ltac:(lia) (fun i _ => Cz i)) as (ext & So & Ex).
  destruct (gwx_ok ext (Z.to_nat n) _ _ (@jacobi_scale RA (param_get pa) (param_get pb)) ltac:(lia) Ex) as [ps H].
  assert (L := gwx_length ext (Z.to_nat n) _ _ _ ps ltac:(lia) So Ex H).
  assert (R1 : exists r, jacobi_new t ext n pa pb = Ok r).
  { unfold jacobi_new. destruct (not_delegated _ _ Nd) as (D1 & D2 & D3). rewrite D1, D2, D3.
    replace (n =? 1)%Z with false by (symmetry; apply Z.eqb_neq; lia). rewrite H. cbn [bind].
    destruct (Z.eqb_spec (n mod 2) 1) as [Od|Ev].
    - assert (Hh := odd_half n Od ltac:(lia)).
      assert (Hk : (Z.to_nat (n / 2) < Z.to_nat n)%nat) by lia. rewrite <- L in Hk.
      destruct (@zero_node_ok RA ps (Z.to_nat (n / 2)) Hk) as (qs & E & _). rewrite E. eexists. reflexivity.
    - eexists. reflexivity. }
  destruct R1 as [r Hr]. exists ext, r, (jacobi_L (param_get pa) (param_get pb) (fun _ => 1)).
  split; [exact So|]. split; [exact Ex|]. split; [exact Hr|]. exact (jacobi_gen (param_get pa) (param_get pb) Ha Hb O (fun _ => 1) (poly_const O 1)).
Qed.
