(** Error bounds of the Gauss-Chebyshev rules. *)
From Coq Require Import Reals Lra Lia List Arith ZArith FunctionalExtensionality.
From Coquelicot Require Import Coquelicot.
From Verif Require Import Arith RInst RInstProof Machine Rules RSum PolySpec PolyProof EigenProof Spectral
  Improper Gaussian JacobiWeight Legendre Chebyshev RuleSpec
  GaussProof MassSpec ErrorSpec Interp TransferSpec TransferProof GaussErr GaussExact ChebSpec ChebExact ChebRule ErrRules.
Import ListNotations.
Local Open Scope R_scope.

Lemma comp_acos_gen : forall (G g f : R -> R), (forall t, is_derive G t (g t)) -> (forall x, unit_open x -> continuous f x) ->
  (forall x, unit_open x -> f x = - g (acos x) / sqrt (1 - x * x)) -> is_RInt_gen f (at_right (-1)) (at_left 1) (G 0 - G PI).
Proof.
  intros G g f HG Hc E. apply (has_int_gen unit_open _ _ unit_convex unit_a unit_b); [exact Hc|].
  apply (has_int_ext _ _ _ (fun x => - g (acos x) / sqrt (1 - x * x))); [intros x Hx; symmetry; apply E, Hx|].
  apply comp_acos. exact HG.
Qed.
Lemma square_cont : forall w c k x, continuous w x -> continuous (fun x => w x * (ch c k x * ch c k x)) x.
Proof. intros w c k x H. apply cont_mult; [exact H|]. apply (poly_cont (k + k)). apply poly_mul; apply ch_poly. Qed.
Lemma cheb1_square : forall n, (1 <= n)%nat -> is_RInt_gen (fun x => w1 x * (ch 1 n x * ch 1 n x)) (at_right (-1)) (at_left 1) (PI / 2).
Proof.
  intros n Hn. assert (0 < INR n) by (apply lt_0_INR; lia).
  replace (PI / 2) with ((fun t => - (t / 2 + sin (INR (2 * n) * t) / (4 * INR n))) 0 - (fun t => - (t / 2 + sin (INR (2 * n) * t) / (4 * INR n))) PI).
  2:{ cbv beta. rewrite Rmult_0_r, sin_0, sin_INR_PI. field. lra. }
  apply (comp_acos_gen (fun t => - (t / 2 + sin (INR (2 * n) * t) / (4 * INR n))) (fun t => - (cos (INR n * t) * cos (INR n * t)))).
  - intros t. rewrite mult_INR. simpl (INR 2). set (u := INR n) in *. auto_derive; [lra|].
    replace ((1 + 1) * u * t) with (2 * (u * t)) by ring. rewrite cos_2a_cos. field. lra.
  - intros x Hx. apply square_cont, w1_cont, Hx.
  - intros x Hx. pose proof (T_cos n (acos x)) as E. assert (Hx' := Hx). unfold unit_open in Hx'. rewrite cos_acos in E by lra.
    rewrite E. unfold w1. field. pose proof (sqrt_unit x Hx). lra.
Qed.
Lemma cheb2_square : forall n, is_RInt_gen (fun x => w2 x * (ch 2 n x * ch 2 n x)) (at_right (-1)) (at_left 1) (PI / 2).
Proof.
  intros n. assert (0 < INR (S n)) by (apply lt_0_INR; lia).
  replace (PI / 2) with ((fun t => - (t / 2 - sin (INR (2 * S n) * t) / (4 * INR (S n)))) 0 - (fun t => - (t / 2 - sin (INR (2 * S n) * t) / (4 * INR (S n)))) PI).
  2:{ cbv beta. rewrite Rmult_0_r, sin_0, sin_INR_PI. field. lra. }
  apply (comp_acos_gen (fun t => - (t / 2 - sin (INR (2 * S n) * t) / (4 * INR (S n)))) (fun t => - (sin (INR (S n) * t) * sin (INR (S n) * t)))).
  - intros t. rewrite mult_INR. simpl (INR 2). set (u := INR (S n)) in *. auto_derive; [lra|].
    replace ((1 + 1) * u * t) with (2 * (u * t)) by ring. rewrite cos_2a_sin. field. lra.
  - intros x Hx. apply square_cont, sq_cont.
  - intros x Hx. pose proof (U_sin n (acos x)) as E. assert (Hx' := Hx). unfold unit_open in Hx'. rewrite cos_acos in E by lra.
    rewrite <- E, sin_acos_unit by exact Hx. unfold w2. field. pose proof (sqrt_unit x Hx). lra.
Qed.

Lemma scaled_square : forall (w : R -> R) c k s N, is_RInt_gen (fun x => w x * (ch c k x * ch c k x)) (at_right (-1)) (at_left 1) N ->
  is_RInt_gen (fun x => w x * ((s * ch c k x) * (s * ch c k x))) (at_right (-1)) (at_left 1) (s * s * N).
Proof.
  intros w c k s N H.
  refine (eq_ind _ (fun h => is_RInt_gen h (at_right (-1)) (at_left 1) (s * s * N)) (gen_scal (at_right (-1)) (at_left 1) w (s * s) (fun x => ch c k x * ch c k x) N H) _ _).
  extensionality x. ring.
Qed.
Lemma inv_pow_neq : forall k, 2 ^ k <> 0. Proof. intros. apply pow_nonzero. lra. Qed.

(** the nodes are the zeros *)
Lemma T_node : forall n i, (1 <= n)%nat -> ch 1 n (cos (PI * (2 * INR (S i) - 1) / (2 * INR n))) = 0.
Proof.
  intros n i Hn. assert (0 < INR n) by (apply lt_0_INR; lia). rewrite T_cos.
  replace (INR n * (PI * (2 * INR (S i) - 1) / (2 * INR n))) with (INR i * PI + PI / 2) by (rewrite S_INR; field; lra).
  rewrite cos_plus, cos_PI2, sin_INR_PI. ring.
Qed.
Lemma U_node : forall n i, (i < n)%nat -> ch 2 n (cos (PI * INR (S i) * (1 / (INR n + 1)))) = 0.
Proof.
  intros n i Hi. assert (0 < INR n) by (apply lt_0_INR; lia). assert (HP := PI_RGT_0).
  set (t := PI * INR (S i) * (1 / (INR n + 1))).
  assert (Q := U_sin n t). replace (INR (S n) * t) with (INR (S i) * PI) in Q by (unfold t; rewrite (S_INR n); field; lra).
  rewrite sin_INR_PI in Q. apply Rmult_integral in Q. destruct Q as [Q|Q]; [exact Q|exfalso].
  assert (I1 : INR (S i) <= INR n) by (apply le_INR; lia). assert (I0 : 1 <= INR (S i)) by (rewrite S_INR; pose proof (pos_INR i); lra).
  assert (0 < t) by (unfold t; apply Rmult_lt_0_compat; [apply Rmult_lt_0_compat; lra|apply Rdiv_lt_0_compat; lra]).
  assert (t < PI).
  { apply (Rmult_lt_reg_r (INR n + 1)); [lra|]. unfold t.
    replace (PI * INR (S i) * (1 / (INR n + 1)) * (INR n + 1)) with (PI * INR (S i)) by (field; lra). apply Rmult_lt_compat_l; lra. }
  pose proof (sin_gt_0 t). lra.
Qed.
Lemma cheb1_norm : forall t n (r : GaussChebyshevFirstKind RA), (1 <= n < usize_max t)%Z -> chebyshev1_new t n = Ok r ->
  let m := Z.to_nat n in length (chebyshev1_pairs r) = m /\
  is_RInt_gen (fun x => w1 x * (rprod m (node (chebyshev1_pairs r)) x * rprod m (node (chebyshev1_pairs r)) x)) (at_right (-1)) (at_left 1) (PI / 2 ^ (2 * m - 1)).
Proof.
  intros t n r Hn Hr m. destruct (cheb1_shape t n r Hn Hr) as (As & _ & In_ & _).
  assert (Pr := cheb1_pairs t n r Hn Hr). fold m in Pr.
  assert (Hm : (1 <= m)%nat) by (unfold m; lia). assert (Nd := ascending_nodup _ As).
  assert (L : length (chebyshev1_pairs r) = m) by (rewrite Pr, rev_length, map_length, seq_length; reflexivity).
  split; [exact L|]. clearbody m.
  destruct m as [|k] eqn:Em; [lia|]. clear Em.
  assert (Er : forall x, rprod (S k) (node (chebyshev1_pairs r)) x = / 2 ^ k * ch 1 (S k) x).
  { apply node_poly; [exact Nd|exact L| |].
    - apply (poly_ext k (fun x => / 2 ^ k * (ch 1 (S k) x - 1 * 2 ^ k * x ^ S k))); [intros; field; apply inv_pow_neq|].
      apply poly_scal, ch_lead.
    - intros x Hx. rewrite Pr in Hx. apply in_map_iff in Hx. destruct Hx as (p & <- & Ip). apply in_rev, in_map_iff in Ip.
      destruct Ip as (i & <- & Ii). unfold pair1. cbn [fst]. rewrite T_node by lia. ring. }
  replace (PI / 2 ^ (2 * S k - 1)) with (/ 2 ^ k * / 2 ^ k * (PI / 2)).
  + refine (eq_ind _ (fun h => is_RInt_gen h (at_right (-1)) (at_left 1) _) (scaled_square w1 1 (S k) (/ 2 ^ k) (PI / 2) (cheb1_square (S k) Hm)) _ _).
    extensionality x. rewrite Er. reflexivity.
  + replace (2 * S k - 1)%nat with (S (k + k)) by lia. simpl pow. rewrite pow_add. field. apply inv_pow_neq.
Qed.
Lemma chebyshev1_error : forall t n (r : GaussChebyshevFirstKind RA), (1 <= n < usize_max t)%Z -> chebyshev1_new t n = Ok r ->
  let m := Z.to_nat n in
  forall a b (F : nat -> R -> R) M v, a <> b -> has_derivatives (open_between a b) (2 * m) F ->
  (forall x, open_between a b x -> Rabs (F (2 * m)%nat x) <= M) ->
  weighted_integral (fun x => / sqrt (1 - x * x)) a b (F O) v ->
  Rabs (chebyshev1_value r a b (F O) - v) <= M * (Rabs (b - a) / 2) ^ (2 * m + 1) / INR (fact (2 * m)) * (PI / 2 ^ (2 * m - 1)).
Proof.
  intros t n r Hn Hr m a b F M v E HF HM Hv.
  destruct (cheb1_shape t n r Hn Hr) as (As & _ & In_ & _).
  assert (Pr := cheb1_pairs t n r Hn Hr). fold m in Pr.
  assert (Hm : (1 <= m)%nat) by (unfold m; lia). assert (Nd := ascending_nodup _ As).
  destruct (cheb1_norm t n r Hn Hr) as (L & HN). fold m in L, HN.
  unfold chebyshev1_value. rewrite chebyshev1_R. replace v with (1 * v) by ring. rewrite <- (Rmult_1_l (PI / 2 ^ (2 * m - 1))).
  apply (interval_error w1 (chebyshev1_pairs r) 1 m); try assumption.
  - intros x Hx. unfold w1. left. apply Rinv_0_lt_compat, sqrt_unit, Hx.
  - lra.
  - intros p Hp. exists (L_1 p). split; [apply (wint_gen unit_open _ _ unit_convex unit_a unit_b w1 w1_cont mom1 _ p Hp)|].
    rewrite Rmult_1_l, Pr. apply cheb1_rule_L; [lia|exact Hp].
Qed.
Lemma cheb2_norm : forall t n (r : GaussChebyshevSecondKind RA), (1 <= n < usize_max t)%Z -> chebyshev2_new t n = Ok r ->
  let m := Z.to_nat n in length (chebyshev2_pairs r) = m /\
  is_RInt_gen (fun x => w2 x * (rprod m (node (chebyshev2_pairs r)) x * rprod m (node (chebyshev2_pairs r)) x)) (at_right (-1)) (at_left 1) (PI / 2 ^ (2 * m + 1)).
Proof.
  intros t n r Hn Hr m. destruct (cheb2_shape t n r Hn Hr) as (As & _ & In_ & _).
  assert (Pr := cheb2_pairs t n r Hn Hr). fold m in Pr.
  assert (Hm : (1 <= m)%nat) by (unfold m; lia). assert (Nd := ascending_nodup _ As).
  assert (L : length (chebyshev2_pairs r) = m) by (rewrite Pr, rev_length, map_length, seq_length; reflexivity).
  split; [exact L|]. clearbody m.
  destruct m as [|k] eqn:Em; [lia|]. clear Em.
  assert (Er : forall x, rprod (S k) (node (chebyshev2_pairs r)) x = / 2 ^ S k * ch 2 (S k) x).
  { apply node_poly; [exact Nd|exact L| |].
    - apply (poly_ext k (fun x => / 2 ^ S k * (ch 2 (S k) x - 2 * 2 ^ k * x ^ S k))); [intros; simpl (2 ^ S k); field; apply inv_pow_neq|].
      apply poly_scal, ch_lead.
    - intros x Hx. rewrite Pr in Hx. apply in_map_iff in Hx. destruct Hx as (p & <- & Ip). apply in_rev, in_map_iff in Ip.
      destruct Ip as (i & <- & Ii). apply in_seq in Ii. unfold pair2. cbn [fst]. rewrite U_node by lia. ring. }
  replace (PI / 2 ^ (2 * S k + 1)) with (/ 2 ^ S k * / 2 ^ S k * (PI / 2)).
  + refine (eq_ind _ (fun h => is_RInt_gen h (at_right (-1)) (at_left 1) _) (scaled_square w2 2 (S k) (/ 2 ^ S k) (PI / 2) (cheb2_square (S k))) _ _).
    extensionality x. rewrite Er. reflexivity.
  + replace (2 * S k + 1)%nat with (S (S k + S k)) by lia. rewrite <- (tech_pow_Rmult 2 (S k + S k)), pow_add. assert (Q := inv_pow_neq (S k)). set (q := 2 ^ S k) in *. clearbody q. field. exact Q.
Qed.
Lemma chebyshev2_error : forall t n (r : GaussChebyshevSecondKind RA), (1 <= n < usize_max t)%Z -> chebyshev2_new t n = Ok r ->
  let m := Z.to_nat n in
  forall a b (F : nat -> R -> R) M v, a <> b -> has_derivatives (open_between a b) (2 * m) F ->
  (forall x, open_between a b x -> Rabs (F (2 * m)%nat x) <= M) ->
  weighted_integral (fun x => sqrt (1 - x * x)) a b (F O) v ->
  Rabs (chebyshev2_value r a b (F O) - v) <= M * (Rabs (b - a) / 2) ^ (2 * m + 1) / INR (fact (2 * m)) * (PI / 2 ^ (2 * m + 1)).
Proof.
  intros t n r Hn Hr m a b F M v E HF HM Hv.
  destruct (cheb2_shape t n r Hn Hr) as (As & _ & In_ & _).
  assert (Pr := cheb2_pairs t n r Hn Hr). fold m in Pr.
  assert (Hm : (1 <= m)%nat) by (unfold m; lia). assert (Nd := ascending_nodup _ As).
  destruct (cheb2_norm t n r Hn Hr) as (L & HN). fold m in L, HN.
  unfold chebyshev2_value. rewrite chebyshev2_R. replace v with (1 * v) by ring. rewrite <- (Rmult_1_l (PI / 2 ^ (2 * m + 1))).
  apply (interval_error w2 (chebyshev2_pairs r) 1 m); try assumption.
  - intros x Hx. unfold w2. apply sqrt_pos.
  - lra.
  - intros p Hp. exists (L_2 p). split; [apply (wint_gen unit_open _ _ unit_convex unit_a unit_b w2 (fun x _ => sq_cont x) mom2 _ p Hp)|].
    rewrite Rmult_1_l, Pr. apply cheb2_rule_L; [lia|exact Hp].
Qed.
