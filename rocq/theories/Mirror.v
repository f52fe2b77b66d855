(** Substitution and reflection in the integrals. *)
From Coq Require Import Reals Lra Lia List Arith ZArith Sorted FunctionalExtensionality.
From Coquelicot Require Import Coquelicot.
From Verif Require Import Arith RInst RInstProof Machine Param Rules RSum PolySpec PolyProof GolubWelsch GWSpec EigenSpec EigenProof Spectral
  Gamma Hermite Laguerre Legendre Chebyshev Jacobi RuleSpec NCSpec NCReal NCExact WeightSpec MassSpec GaussProof GWRoots GaussExact JacobiMore.
Import ListNotations.
Local Open Scope R_scope.

Definition flip (p : R * R) : R * R := (- fst p, snd p).

Section Reflect.
Variables (e1 e2 : Linalg RA) (n : nat) (a b : nat -> R) (s : R) (ps qs : list (R * R)).
Hypothesis Hn : (1 <= n)%nat.
Hypothesis Hb : forall i, (i < n - 1)%nat -> b i <> 0.
Hypothesis S1 : sorts e1.
Hypothesis S2 : sorts e2.
Hypothesis X1 : exact_on e1 n a b.
Hypothesis X2 : exact_on e2 n (fun i => - a i) b.
Hypothesis G1 : @golub_welsch RA e1 n a b s = Ok ps.
Hypothesis G2 : @golub_welsch RA e2 n (fun i => - a i) b s = Ok qs.

Lemma ksum_reflect : forall x, ksum n (fun i => - a i) b (- x) = ksum n a b x.
Proof.
  intros x. unfold ksum. apply rsum_ext. intros i _. rewrite monic_reflect.
  assert (E : (-1) ^ i * (-1) ^ i = 1) by (rewrite <- Rpow_mult_distr; replace (-1 * -1) with 1 by ring; apply pow1).
  unfold Rdiv. transitivity (((-1) ^ i * (-1) ^ i) * (monic a b i x * / bprod b i * (monic a b i x * / bprod b i))); [ring|]. rewrite E. ring.
Qed.
Lemma reflect_root : forall x, monic (fun i => - a i) b n (- x) = 0 <-> monic a b n x = 0.
Proof.
  intros x. rewrite monic_reflect. assert ((-1) ^ n <> 0) by (apply pow_nonzero; lra). split; intros Q.
  - apply Rmult_integral in Q. tauto.
  - rewrite Q. ring.
Qed.
Lemma reflect_nodes : map fst qs = rev (map Ropp (map fst ps)).
Proof.
  assert (R1 := gwx_roots e1 n a b s ps Hn Hb S1 X1 G1). assert (R2 := gwx_roots e2 n _ b s qs Hn Hb S2 X2 G2).
  rewrite List.Forall_forall in R1, R2.
  apply sorted_unique.
  - exact (sorted_fst qs (gwx_ascending e2 n _ b s qs Hn Hb S2 X2 G2)).
  - assert (G := sorted_fst ps (gwx_ascending e1 n a b s ps Hn Hb S1 X1 G1)).
    rewrite <- map_rev. apply sorted_rev in G. induction G as [|x l Sl IH F]; simpl; constructor; [exact IH|].
    apply List.Forall_forall. intros y Hy. apply in_map_iff in Hy. destruct Hy as (z & <- & Hz). rewrite List.Forall_forall in F.
    specialize (F z Hz). lra.
  - intros x. rewrite <- in_rev. split; intros Hx.
    + rewrite <- (Ropp_involutive x). apply in_map. apply in_map_iff in Hx. destruct Hx as (p & <- & Hp).
      apply (gwx_all_roots e1 n a b s ps Hn Hb S1 X1 G1). apply reflect_root. rewrite Ropp_involutive. apply (R2 p Hp).
    + apply in_map_iff in Hx. destruct Hx as (y & <- & Hy). apply in_map_iff in Hy. destruct Hy as (p & <- & Hp).
      apply (gwx_all_roots e2 n _ b s qs Hn Hb S2 X2 G2). apply reflect_root. apply (R1 p Hp).
Qed.
Lemma weights_of : forall (a' : nat -> R) (l : list (R * R)), List.Forall (fun xw => monic a' b n (fst xw) = 0 /\ snd xw = s / ksum n a' b (fst xw)) l -> l = map (fun x => (x, s / ksum n a' b x)) (map fst l).
Proof. intros a' l Hl. induction Hl as [|[x w] l [_ W] Hl IH]; [reflexivity|]. simpl in *. rewrite W, <- IH. reflexivity. Qed.
Lemma reflect_pairs : qs = rev (map flip ps).
Proof.
  assert (R1 := weights_of a ps (gwx_roots e1 n a b s ps Hn Hb S1 X1 G1)). assert (R2 := weights_of _ qs (gwx_roots e2 n _ b s qs Hn Hb S2 X2 G2)).
  rewrite R2, reflect_nodes, <- map_rev, map_map, map_rev. f_equal. rewrite R1 at 2. rewrite !map_map. apply map_ext. intros [x w]. unfold flip. cbn [fst snd].
  rewrite ksum_reflect. reflexivity.
Qed.
End Reflect.

(** ** Jacobi with the parameters exchanged *)
Lemma diag_swap : forall al be, @jacobi_diag RA be al = (fun i => - @jacobi_diag RA al be i).
Proof.
  intros al be. extensionality i. destruct i as [|i]; unfold jacobi_diag; ra_simpl; ra_lits.
  - assert (G : forall x y : R, (x - y) / (2 + x + y) = - ((y - x) / (2 + y + x))) by (intros x y; replace (2 + y + x) with (2 + x + y) by ring; unfold Rdiv; ring). apply G.
  - assert (G : forall k x y : R, (x * x - y * y) / ((2 * k + y + x) * (2 * k + y + x + 2)) = - ((y * y - x * x) / ((2 * k + x + y) * (2 * k + x + y + 2))))
      by (intros k x y; replace (2 * k + y + x) with (2 * k + x + y) by ring; unfold Rdiv; ring). apply G.
Qed.
Lemma off_diag_swap : forall al be, @jacobi_off_diag RA be al = @jacobi_off_diag RA al be.
Proof.
  intros al be. extensionality i. unfold jacobi_off_diag. ra_simpl. ra_lits.
  assert (G : forall k x y : R, 2 / (2 * k + y + x) * sqrt (k * (k + y) * (k + x) * (k + y + x) / ((2 * k + y + x + 1) * (2 * k + y + x - 1))) =
    2 / (2 * k + x + y) * sqrt (k * (k + x) * (k + y) * (k + x + y) / ((2 * k + x + y + 1) * (2 * k + x + y - 1)))).
  { intros k x y. replace (2 * k + y + x) with (2 * k + x + y) by ring. f_equal. f_equal. unfold Rdiv. f_equal. ring. }
  apply G.
Qed.
Lemma mass_swap : forall al be, jacobi_mass be al = jacobi_mass al be.
Proof. intros al be. unfold jacobi_mass. rewrite (Rplus_comm be al). unfold Rdiv. ring. Qed.
Lemma mass1_swap : forall al be : R, jacobi_mass1 be al = jacobi_mass1 al be.
Proof. intros al be. unfold jacobi_mass1. rewrite (Rplus_comm be al). unfold Rdiv. ring. Qed.
Lemma delegated_swap : forall al be, delegated al be -> delegated be al.
Proof. intros al be. unfold delegated. tauto. Qed.

Lemma flip_nth : forall (l : list (R * R)) j, (j < length l)%nat -> nth j (rev (map flip l)) (0, 0) = flip (nth (length l - S j) l (0, 0)).
Proof.
  intros l j Hj. rewrite rev_nth by (rewrite map_length; exact Hj). rewrite map_length.
  rewrite (nth_indep _ (0, 0) (flip (0, 0))) by (rewrite map_length; lia). apply map_nth.
Qed.
Lemma one_node_R : forall al be, @jacobi_one_node RA al be = (be - al) / (al + be + 2).
Proof. intros. unfold jacobi_one_node. ra_simpl. ra_lits. reflexivity. Qed.
Lemma one_weight_R : forall al be, @jacobi_one_weight RA al be = jacobi_mass1 al be.
Proof. intros. unfold jacobi_one_weight, jacobi_mass1. ra_simpl. ra_lits. reflexivity. Qed.
Lemma jacobi_swapped : forall t (e1 e2 : Linalg RA) n (pa pb : Param RA) (r q : GaussJacobi RA), (1 <= n)%Z ->
  -1 < param_get pa -> -1 < param_get pb -> param_get pa + param_get pb <> -1 -> ~ delegated (param_get pa) (param_get pb) ->
  sorts e1 -> exact_on e1 (Z.to_nat n) (@jacobi_diag RA (param_get pa) (param_get pb)) (@jacobi_off_diag RA (param_get pa) (param_get pb)) ->
  sorts e2 -> exact_on e2 (Z.to_nat n) (@jacobi_diag RA (param_get pb) (param_get pa)) (@jacobi_off_diag RA (param_get pb) (param_get pa)) ->
  jacobi_new t e1 n pa pb = Ok r -> jacobi_new t e2 n pb pa = Ok q ->
  jacobi_pairs q = rev (map flip (jacobi_pairs r)).
Proof.
  intros t e1 e2 n pa pb r q Hn Hal Hbe Hab Nd S1 X1 S2 X2 Hr Hq.
  assert (Nd2 : ~ delegated (param_get pb) (param_get pa)) by (intros D; apply Nd, delegated_swap, D).
  destruct (Z.eq_dec n 1) as [->|N1].
  { rewrite (jacobi_one_inv t e1 pa pb r Nd Hr), (jacobi_one_inv t e2 pb pa q Nd2 Hq). cbn [map rev app]. unfold flip. cbn [fst snd].
    rewrite !one_node_R, !one_weight_R. f_equal. f_equal.
    - assert (G : forall x y : R, (x - y) / (y + x + 2) = - ((y - x) / (x + y + 2))) by (intros x y; replace (y + x + 2) with (x + y + 2) by ring; unfold Rdiv; ring). apply G.
    - apply mass1_swap. }
  destruct (jacobi_inv t e1 n pa pb r ltac:(lia) Nd Hr) as (ps & A1 & A2).
  destruct (jacobi_inv t e2 n pb pa q ltac:(lia) Nd2 Hq) as (qs & B1 & B2).
  destruct (jacobi_coeffs _ _ Hal Hbe Hab) as (_ & _ & _ & _ & Cz).
  rewrite diag_swap, off_diag_swap in X2, B1. rewrite mass_swap in B1.
  assert (E : qs = rev (map flip ps)).
  { apply (reflect_pairs e1 e2 (Z.to_nat n) (@jacobi_diag RA (param_get pa) (param_get pb)) (@jacobi_off_diag RA (param_get pa) (param_get pb)) (jacobi_mass (param_get pa) (param_get pb))); try assumption; [lia|]. intros i _. apply Cz. }
  assert (L := gwx_length e1 (Z.to_nat n) _ _ _ ps ltac:(lia) S1 X1 A1).
  destruct (Z.eqb_spec (n mod 2) 1) as [Od|Ev].
  2:{ injection A2; intros <-. injection B2; intros <-. exact E. }
  assert (Hh := odd_half n Od ltac:(lia)). set (k := Z.to_nat (n / 2)) in *.
  assert (Lq : length qs = length ps) by (rewrite E, rev_length, map_length; reflexivity).
  destruct (zero_node_rule ps (jacobi_pairs r) k A2 ltac:(lia)) as (L1 & N1' & _).
  destruct (zero_node_rule qs (jacobi_pairs q) k B2 ltac:(lia)) as (L2 & N2' & _).
  apply (nth_ext _ _ (0, 0) (0, 0)); [rewrite rev_length, map_length; congruence|]. intros j Hj. assert (Hj' : (j < length ps)%nat) by (rewrite <- Lq, <- L2; exact Hj).
  rewrite N2', E. match goal with |- ?lhs = nth j (rev (map flip ?l)) (0, 0) => transitivity (flip (nth (length l - S j) l (0, 0))); [|symmetry; apply flip_nth; congruence] end.
  rewrite N1'. replace (length (jacobi_pairs r)) with (length ps) by (symmetry; exact L1).
  rewrite !flip_nth by lia.
  destruct (Nat.eqb_spec j k) as [->|Njk].
  - replace (length ps - S k)%nat with k by lia. rewrite Nat.eqb_refl. unfold flip. cbn [fst snd]. rewrite Ropp_0. reflexivity.
  - destruct (Nat.eqb_spec (length ps - S j) k) as [C|_]; [lia|]. reflexivity.
Qed.
(** ** values *)
Lemma gauss_flip : forall l a b g, gauss_on (rev (map flip l)) a b g = gauss_on l a b (fun x => g (a + b - x)).
Proof.
  intros l a b g. unfold gauss_on. f_equal. rewrite map_rev, lsum_rev, map_map. apply lsum_map_ext. intros [x w] _. unfold flip. cbn [fst snd]. f_equal. f_equal. field.
Qed.
Lemma gauss_bounds : forall l a b g, gauss_on l b a g = - gauss_on (rev (map flip l)) a b g.
Proof.
  intros l a b g. unfold gauss_on. rewrite map_rev, lsum_rev, map_map. rewrite <- Ropp_mult_distr_l_reverse. f_equal; [field|].
  apply lsum_map_ext. intros [x w] _. unfold flip. cbn [fst snd]. f_equal. f_equal. field.
Qed.
Lemma gauss_affine : forall l a b c d g, gauss_on l (c * a + d) (c * b + d) g = c * gauss_on l a b (fun x => g (c * x + d)).
Proof.
  intros l a b c d g. unfold gauss_on. rewrite <- Rmult_assoc. f_equal; [field|]. apply lsum_map_ext. intros [x w] _. cbn [fst snd]. f_equal. f_equal. field.
Qed.
Lemma param_eq : forall p q : Param RA, param_get p = param_get q -> p = q.
Proof. intros [x] [y] H. cbn in H. rewrite H. reflexivity. Qed.
Lemma jacobi_symmetric : forall t (e : Linalg RA) n (pa pb : Param RA) (r : GaussJacobi RA), (1 <= n)%Z ->
  -1 < param_get pa -> param_get pa = param_get pb -> param_get pa + param_get pb <> -1 -> ~ delegated (param_get pa) (param_get pb) ->
  sorts e -> exact_on e (Z.to_nat n) (@jacobi_diag RA (param_get pa) (param_get pb)) (@jacobi_off_diag RA (param_get pa) (param_get pb)) ->
  jacobi_new t e n pa pb = Ok r -> symmetric_rule (jacobi_pairs r).
Proof.
  intros t e n pa pb r Hn Ha E Hab Nd Sr X Hr. apply param_eq in E. subst pb.
  assert (M := jacobi_swapped t e e n pa pa r r Hn Ha Ha Hab Nd Sr X Sr X Hr Hr).
  unfold symmetric_rule. change (map flip (jacobi_pairs r) = rev (jacobi_pairs r)). rewrite M at 2. rewrite rev_involutive. reflexivity.
Qed.
Lemma jacobi_swapped_value : forall t (e1 e2 : Linalg RA) n (pa pb : Param RA) (r q : GaussJacobi RA), (1 <= n)%Z ->
  -1 < param_get pa -> -1 < param_get pb -> param_get pa + param_get pb <> -1 -> ~ delegated (param_get pa) (param_get pb) ->
  sorts e1 -> exact_on e1 (Z.to_nat n) (@jacobi_diag RA (param_get pa) (param_get pb)) (@jacobi_off_diag RA (param_get pa) (param_get pb)) ->
  sorts e2 -> exact_on e2 (Z.to_nat n) (@jacobi_diag RA (param_get pb) (param_get pa)) (@jacobi_off_diag RA (param_get pb) (param_get pa)) ->
  jacobi_new t e1 n pa pb = Ok r -> jacobi_new t e2 n pb pa = Ok q ->
  forall a b f, jacobi_value q a b f = jacobi_value r a b (fun x => f (a + b - x)) /\ jacobi_value q a b f = - jacobi_value r b a f.
Proof.
  intros t e1 e2 n pa pb r q Hn Hal Hbe Hab Nd S1 X1 S2 X2 Hr Hq a b f. assert (M := jacobi_swapped t e1 e2 n pa pb r q Hn Hal Hbe Hab Nd S1 X1 S2 X2 Hr Hq).
  unfold jacobi_value. rewrite !jacobi_R. rewrite M. split; [apply gauss_flip|]. rewrite (gauss_bounds (jacobi_pairs r) a b). rewrite Ropp_involutive. reflexivity.
Qed.
Lemma legendre_affine : forall r a b c d f, legendre_value r (c * a + d) (c * b + d) f = c * legendre_value r a b (fun x => f (c * x + d)).
Proof. intros. unfold legendre_value. rewrite !legendre_R. apply gauss_affine. Qed.
Lemma jacobi_affine : forall r a b c d f, jacobi_value r (c * a + d) (c * b + d) f = c * jacobi_value r a b (fun x => f (c * x + d)).
Proof. intros. unfold jacobi_value. rewrite !jacobi_R. apply gauss_affine. Qed.
Lemma chebyshev1_affine : forall r a b c d f, chebyshev1_value r (c * a + d) (c * b + d) f = c * chebyshev1_value r a b (fun x => f (c * x + d)).
Proof. intros. unfold chebyshev1_value. rewrite !chebyshev1_R. apply gauss_affine. Qed.
Lemma chebyshev2_affine : forall r a b c d f, chebyshev2_value r (c * a + d) (c * b + d) f = c * chebyshev2_value r a b (fun x => f (c * x + d)).
Proof. intros. unfold chebyshev2_value. rewrite !chebyshev2_R. apply gauss_affine. Qed.
Lemma nc_affine : forall n a b c d f, (1 <= n)%nat ->
  midpoint_value n (c * a + d) (c * b + d) f = c * midpoint_value n a b (fun x => f (c * x + d)) /\
  trapezoid_value n (c * a + d) (c * b + d) f = c * trapezoid_value n a b (fun x => f (c * x + d)) /\
  simpson_value n (c * a + d) (c * b + d) f = c * simpson_value n a b (fun x => f (c * x + d)).
Proof.
  intros n a b c d f Hn. assert (N0 : INR n <> 0) by (apply not_0_INR; lia).
  rewrite !midpoint_panels, !trapezoid_panels, !simpson_panels by exact Hn. cbv zeta.
  assert (P : forall t, c * a + d + (c * b + d - (c * a + d)) / INR n * t = c * (a + (b - a) / INR n * t) + d) by (intros t; field; exact N0).
  assert (E : (c * b + d - (c * a + d)) / INR n = c * ((b - a) / INR n)) by (field; exact N0).
  repeat split; rewrite <- rsum_scal; apply rsum_ext; intros i _; rewrite !P, E; unfold Rdiv; ring.
Qed.
Lemma mirror_solvers : forall t n (pa pb : Param RA), (2 <= n)%Z -> -1 < param_get pa -> -1 < param_get pb ->
  param_get pa + param_get pb <> -1 -> ~ delegated (param_get pa) (param_get pb) -> exists (e1 e2 : Linalg RA) (r q : GaussJacobi RA),
  sorts e1 /\ exact_on e1 (Z.to_nat n) (@jacobi_diag RA (param_get pa) (param_get pb)) (@jacobi_off_diag RA (param_get pa) (param_get pb)) /\
  sorts e2 /\ exact_on e2 (Z.to_nat n) (@jacobi_diag RA (param_get pb) (param_get pa)) (@jacobi_off_diag RA (param_get pb) (param_get pa)) /\
  jacobi_new t e1 n pa pb = Ok r /\ jacobi_new t e2 n pb pa = Ok q.
Proof.
  intros t n pa pb Hn Ha Hb Hab Nd.
  destruct (jacobi_solver t n pa pb Hn Ha Hb Hab Nd) as (e1 & r & _ & S1 & X1 & R1 & _).
  destruct (jacobi_solver t n pb pa Hn Hb Ha) as (e2 & q & _ & S2 & X2 & R2 & _).
  { intros C. apply Hab. rewrite Rplus_comm. exact C. }
  { intros D. apply Nd, delegated_swap, D. }
  exists e1, e2, r, q. refine (conj S1 (conj X1 (conj S2 (conj X2 (conj R1 R2))))) .
Qed.
