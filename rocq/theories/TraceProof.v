(** Where and how often integrate calls the integrand. *)
From Coq Require Import Reals ZArith Lra Lia List.
From Verif Require Import Arith RInst RInstProof RSum Machine Iter Rules Par NewtonCotes Chebyshev GolubWelsch
  Hermite Laguerre Legendre Jacobi
  IntegrateSpec RuleSpec IntegrateProof IterProof NCSpec NCReal NCExact GaussSpec GaussProof.
Import ListNotations.
Local Open Scope R_scope.

Lemma call_all_traced : forall P V (g : P -> V) pts tr,
  call_all (traced g) pts tr = (map g pts, tr ++ pts).
Proof.
  intros P V g pts. induction pts as [|x pts IH]; intros tr; simpl.
  - rewrite app_nil_r. reflexivity.
  - rewrite IH, <- app_assoc. reflexivity.
Qed.

Lemma midpoint_count : forall (A : Arith) (g : A -> A) n a b, (1 <= n)%Z ->
  length (snd (midpoint_integrate (traced g) (midpoint_new n) a b [])) = Z.to_nat n.
Proof.
  intros. rewrite midpoint_calls by assumption. rewrite call_all_traced. cbn [snd].
  rewrite app_length, map_length. unfold ints. rewrite map_length, seq_length. reflexivity.
Qed.
Lemma trapezoid_count : forall (A : Arith) (g : A -> A) n a b, (1 <= n)%Z ->
  length (snd (trapezoid_integrate (traced g) (trapezoid_new n) a b [])) = Z.to_nat (n + 1).
Proof.
  intros. rewrite trapezoid_calls by assumption. rewrite !call_all_traced. cbn [snd].
  rewrite !app_length, map_length. unfold ints. rewrite map_length, seq_length. simpl. lia.
Qed.
Lemma simpson_count : forall (A : Arith) (g : A -> A) n a b, (1 <= n)%Z ->
  length (snd (simpson_integrate (traced g) (simpson_new n) a b [])) = Z.to_nat (2 * n + 1).
Proof.
  intros. rewrite simpson_calls by assumption. rewrite !call_all_traced. cbn [snd].
  rewrite !app_length, !map_length. unfold ints. rewrite map_length, seq_length. simpl length. lia.
Qed.

Lemma ints_in : forall lo n z, In z (ints lo n) -> exists i, (i < n)%nat /\ z = (lo + Z.of_nat i)%Z.
Proof.
  intros lo n z H. unfold ints in H. apply in_map_iff in H. destruct H as (i & <- & Hi).
  apply in_seq in Hi. exists i. split; [lia|reflexivity].
Qed.

Lemma between_ends : forall a b, between a b a /\ between a b b.
Proof. intros. unfold between. split; split; auto using Rmin_l, Rmin_r, Rmax_l, Rmax_r. Qed.

Section NC.
Variables (g : R -> R) (n : Z) (a b : R).
Hypothesis Hn : (1 <= n)%Z.
Let N := Z.to_nat n.
Lemma N_pos : (1 <= N)%nat. Proof. unfold N. lia. Qed.
Lemma N_IZR : IZR n = INR N. Proof. unfold N. rewrite INR_IZR_INZ, Z2Nat.id by lia. reflexivity. Qed.

Lemma mid_pt : forall i, (i < N)%nat -> between a b (a + (b - a) / IZR n * (/ 2 + INR i)).
Proof.
  intros i Hi. rewrite N_IZR, (Rplus_comm (/ 2)). apply panel_in; [apply N_pos|exact Hi|lra].
Qed.
Lemma edge_pt : forall i, (i <= N)%nat -> between a b (a + INR i * ((b - a) / IZR n)).
Proof. intros i Hi. rewrite N_IZR, (Rmult_comm (INR i)). apply edge_in; [apply N_pos|exact Hi]. Qed.
Lemma simpson_mid_pt : forall i, (i < N)%nat ->
  between a b (a + (2 * (INR i + 1) - 1) * ((b - a) / IZR n) / 2).
Proof.
  intros i Hi. pose proof (mid_pt i Hi) as H.
  replace ((2 * (INR i + 1) - 1) * ((b - a) / IZR n) / 2) with ((b - a) / IZR n * (/ 2 + INR i)); [exact H|].
  field. rewrite N_IZR. apply not_0_INR. pose proof N_pos. lia.
Qed.

Lemma midpoint_inside : Forall (between a b) (snd (midpoint_integrate (A := RA) (traced g) (midpoint_new n) a b [])).
Proof.
  rewrite midpoint_calls by assumption. rewrite (call_all_traced R R g). cbn [snd]. rewrite app_nil_l.
  apply Forall_forall. intros x Hx. apply in_map_iff in Hx. destruct Hx as (z & <- & Hz).
  apply ints_in in Hz. destruct Hz as (i & Hi & ->). ra_simpl. ra_lits.
  rewrite Z.add_0_l, <- INR_IZR_INZ. apply mid_pt. exact Hi.
Qed.
Lemma trapezoid_inside : Forall (between a b) (snd (trapezoid_integrate (A := RA) (traced g) (trapezoid_new n) a b [])).
Proof.
  rewrite trapezoid_calls by assumption. rewrite !(call_all_traced R R g). cbn [snd]. rewrite app_nil_l.
  apply Forall_app. split.
  - apply Forall_cons; [apply between_ends|apply Forall_cons; [apply between_ends|apply Forall_nil]].
  - apply Forall_forall. intros x Hx. apply in_map_iff in Hx. destruct Hx as (z & <- & Hz).
    apply ints_in in Hz. destruct Hz as (i & Hi & ->). ra_simpl.
    replace (1 + Z.of_nat i)%Z with (Z.of_nat (S i)) by lia.
    rewrite <- INR_IZR_INZ. apply edge_pt. unfold N. lia.
Qed.
Lemma simpson_inside : Forall (between a b) (snd (simpson_integrate (A := RA) (traced g) (simpson_new n) a b [])).
Proof.
  rewrite simpson_calls by assumption. rewrite !(call_all_traced R R g). cbn [snd]. rewrite app_nil_l.
  apply Forall_app; split; [apply Forall_app; split|].
  - apply Forall_forall. intros x Hx. apply in_map_iff in Hx. destruct Hx as (z & <- & Hz).
    apply ints_in in Hz. destruct Hz as (i & Hi & ->). ra_simpl.
    replace (1 + Z.of_nat i)%Z with (Z.of_nat (S i)) by lia.
    rewrite <- INR_IZR_INZ. apply edge_pt. unfold N. lia.
  - apply Forall_forall. intros x Hx. apply in_map_iff in Hx. destruct Hx as (z & <- & Hz).
    apply ints_in in Hz. destruct Hz as (i & Hi & ->). ra_simpl. ra_lits.
    replace (1 + Z.of_nat i)%Z with (Z.of_nat (S i)) by lia.
    rewrite <- INR_IZR_INZ, S_INR. apply simpson_mid_pt. unfold N. lia.
  - constructor; [|apply Forall_cons; [apply between_ends|apply Forall_cons; [apply between_ends|apply Forall_nil]]].
    ra_simpl. ra_lits. pose proof (simpson_mid_pt (N - 1)) as H.
    replace (INR (N - 1) + 1) with (IZR n) in H; [apply H; pose proof N_pos; lia|].
    rewrite N_IZR, minus_INR by apply N_pos. simpl. ring.
Qed.
End NC.

(** Gauss rules on an interval: nodes in [-1,1] are mapped into [a,b]. *)
Lemma to_interval_in : forall a b x : R, -1 <= x <= 1 -> between a b (@to_interval RA a b x).
Proof.
  intros a b x Hx. rewrite to_interval_R.
  replace ((b - a) / 2 * x + (a + b) / 2) with (a + (b - a) * ((x + 1) / 2)) by field.
  apply between_convex. lra.
Qed.
Lemma gauss_inside : forall (g : R -> R) (l : list (R * R)) a b,
  Forall (fun xw => -1 <= fst xw <= 1) l ->
  Forall (between a b) (snd (call_all (traced g) (map (@to_interval RA a b) (map fst l)) [])).
Proof.
  intros g l a b H. rewrite call_all_traced. cbn [snd]. rewrite app_nil_l, map_map.
  apply Forall_forall. intros x Hx. apply in_map_iff in Hx. destruct Hx as (xw & <- & Hi).
  apply to_interval_in. rewrite Forall_forall in H. apply (H xw Hi).
Qed.
Lemma legendre_inside : forall (g : R -> R) (r : GaussLegendre RA) a b, Forall (fun xw : R * R => -1 <= fst xw <= 1) (legendre_pairs r) ->
  Forall (between a b) (snd (legendre_integrate (A := RA) (traced g) r a b [])).
Proof.
  intros g r a b H. rewrite legendre_calls. pose proof (gauss_inside g _ a b H) as G.
  destruct (call_all _ _ _). exact G.
Qed.
Lemma jacobi_inside : forall (g : R -> R) (r : GaussJacobi RA) a b, Forall (fun xw : R * R => -1 <= fst xw <= 1) (jacobi_pairs r) ->
  Forall (between a b) (snd (jacobi_integrate (A := RA) (traced g) r a b [])).
Proof.
  intros g r a b H. rewrite jacobi_calls. pose proof (gauss_inside g _ a b H) as G.
  destruct (call_all _ _ _). exact G.
Qed.
Lemma chebyshev1_inside : forall (g : R -> R) (r : GaussChebyshevFirstKind RA) a b, Forall (fun xw : R * R => -1 <= fst xw <= 1) (chebyshev1_pairs r) ->
  Forall (between a b) (snd (chebyshev1_integrate (A := RA) (traced g) r a b [])).
Proof.
  intros g r a b H. rewrite chebyshev1_calls. pose proof (gauss_inside g _ a b H) as G.
  destruct (call_all _ _ _). exact G.
Qed.
Lemma chebyshev2_inside : forall (g : R -> R) (r : GaussChebyshevSecondKind RA) a b, Forall (fun xw : R * R => -1 <= fst xw <= 1) (chebyshev2_pairs r) ->
  Forall (between a b) (snd (chebyshev2_integrate (A := RA) (traced g) r a b [])).
Proof.
  intros g r a b H. rewrite chebyshev2_calls. pose proof (gauss_inside g _ a b H) as G.
  destruct (call_all _ _ _). exact G.
Qed.

(** ** Gauss rules: linearity, antisymmetry *)
Lemma gauss_on_linear : forall l a b c d f g,
  gauss_on l a b (fun x => c * f x + d * g x) = c * gauss_on l a b f + d * gauss_on l a b g.
Proof.
  intros. unfold gauss_on. induction l as [|[x w] l IH]; simpl in *; [ring|].
  rewrite !Rmult_plus_distr_l. rewrite IH. ring.
Qed.
Lemma gauss_plain_linear : forall l c d f g,
  gauss_plain l (fun x => c * f x + d * g x) = c * gauss_plain l f + d * gauss_plain l g.
Proof.
  intros. unfold gauss_plain. induction l as [|[x w] l IH]; simpl in *; [ring|]. rewrite IH. ring.
Qed.

(** a rule is symmetric if reversing it negates the nodes *)
Lemma lsum_rev : forall l, lsum (rev l) = lsum l.
Proof. induction l; simpl; [reflexivity|]. rewrite lsum_app, IHl. simpl. ring. Qed.
Lemma gauss_on_antisym : forall l a b g, symmetric_rule l -> gauss_on l b a g = - gauss_on l a b g.
Proof.
  intros l a b g H. unfold gauss_on.
  replace (lsum (map (fun xw => g ((b - a) / 2 * fst xw + (a + b) / 2) * snd xw) l)) with
    (lsum (map (fun xw => g ((a - b) / 2 * fst xw + (b + a) / 2) * snd xw) l)); [field|].
  rewrite <- (lsum_rev (map _ l)), <- map_rev, <- H, map_map. f_equal. apply map_ext.
  intros [x w]. cbn [fst snd]. f_equal. f_equal. field.
Qed.
Lemma gauss_on_empty : forall l a g, gauss_on l a a g = 0.
Proof. intros. unfold gauss_on. replace ((a - a) / 2) with 0 by field. ring. Qed.

(** ** Summaries over all Gauss rules *)
Lemma gauss_linear : forall (c d : R) (f g : R -> R),
  (forall r a b, legendre_value r a b (fun x => c * f x + d * g x) =
     c * legendre_value r a b f + d * legendre_value r a b g) /\
  (forall r a b, jacobi_value r a b (fun x => c * f x + d * g x) =
     c * jacobi_value r a b f + d * jacobi_value r a b g) /\
  (forall r a b, chebyshev1_value r a b (fun x => c * f x + d * g x) =
     c * chebyshev1_value r a b f + d * chebyshev1_value r a b g) /\
  (forall r a b, chebyshev2_value r a b (fun x => c * f x + d * g x) =
     c * chebyshev2_value r a b f + d * chebyshev2_value r a b g) /\
  (forall r, hermite_value r (fun x => c * f x + d * g x) = c * hermite_value r f + d * hermite_value r g) /\
  (forall r, laguerre_value r (fun x => c * f x + d * g x) = c * laguerre_value r f + d * laguerre_value r g).
Proof.
  intros c d f g.
  unfold legendre_value, jacobi_value, chebyshev1_value, chebyshev2_value, hermite_value, laguerre_value.
  repeat split; intros;
  rewrite ?legendre_R, ?jacobi_R, ?chebyshev1_R, ?chebyshev2_R, ?hermite_R, ?laguerre_R;
  apply gauss_on_linear || apply gauss_plain_linear.
Qed.
Lemma gauss_antisym : forall (a b : R) (g : R -> R),
  (forall r : GaussLegendre RA, symmetric_rule (legendre_pairs r) -> legendre_value r b a g = - legendre_value r a b g) /\
  (forall r : GaussJacobi RA, symmetric_rule (jacobi_pairs r) -> jacobi_value r b a g = - jacobi_value r a b g) /\
  (forall r : GaussChebyshevFirstKind RA, symmetric_rule (chebyshev1_pairs r) -> chebyshev1_value r b a g = - chebyshev1_value r a b g) /\
  (forall r : GaussChebyshevSecondKind RA, symmetric_rule (chebyshev2_pairs r) -> chebyshev2_value r b a g = - chebyshev2_value r a b g).
Proof.
  intros a b g. unfold legendre_value, jacobi_value, chebyshev1_value, chebyshev2_value.
  repeat split; intros; rewrite ?legendre_R, ?jacobi_R, ?chebyshev1_R, ?chebyshev2_R;
  apply gauss_on_antisym; assumption.
Qed.
Lemma gauss_empty : forall (a : R) (g : R -> R),
  (forall r, legendre_value r a a g = 0) /\ (forall r, jacobi_value r a a g = 0) /\
  (forall r, chebyshev1_value r a a g = 0) /\ (forall r, chebyshev2_value r a a g = 0).
Proof.
  intros a g. unfold legendre_value, jacobi_value, chebyshev1_value, chebyshev2_value.
  repeat split; intros; rewrite ?legendre_R, ?jacobi_R, ?chebyshev1_R, ?chebyshev2_R; apply gauss_on_empty.
Qed.
Lemma symmetric_example : symmetric_rule [(-1, 3); (0, 4); (1, 3)].
Proof.
  unfold symmetric_rule. simpl. repeat f_equal; lra.
Qed.
Lemma gauss_unit_inside : forall (g : R -> R) (a b : R),
  (forall r : GaussLegendre RA, nodes_in_unit (legendre_pairs r) ->
     Forall (between a b) (snd (legendre_integrate (A := RA) (traced g) r a b []))) /\
  (forall r : GaussJacobi RA, nodes_in_unit (jacobi_pairs r) ->
     Forall (between a b) (snd (jacobi_integrate (A := RA) (traced g) r a b []))) /\
  (forall r : GaussChebyshevFirstKind RA, nodes_in_unit (chebyshev1_pairs r) ->
     Forall (between a b) (snd (chebyshev1_integrate (A := RA) (traced g) r a b []))) /\
  (forall r : GaussChebyshevSecondKind RA, nodes_in_unit (chebyshev2_pairs r) ->
     Forall (between a b) (snd (chebyshev2_integrate (A := RA) (traced g) r a b []))).
Proof.
  intros g a b. split; [intros; apply legendre_inside; assumption|].
  split; [intros; apply jacobi_inside; assumption|].
  split; intros; [apply chebyshev1_inside|apply chebyshev2_inside]; assumption.
Qed.
