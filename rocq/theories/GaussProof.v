(** Calls made by [integrate] of the Gauss rules; parallel variants. *)
From Coq Require Import ZArith List Lia Reals.
From Verif Require Import Arith RInst RInstProof RSum Machine Iter IterProof Rules Par Chebyshev GolubWelsch Hermite
  Laguerre Legendre Jacobi NewtonCotes IntegrateSpec IntegrateProof GaussSpec NCSpec.
Import ListNotations.
Local Open Scope num_scope.

Section Calls.
Context {A : Arith}.

Lemma gauss_sum : forall S (f : S -> A -> A * S) (p : A -> A) (l : Pairs A) s,
  iter_sum (fun s '(x, w) => let '(v, s) := f s (p x) in (v [*] w, s)) l s =
  let '(vs, s') := call_all f (map p (map fst l)) s in
  (weighted_sum vs (map snd l), s').
Proof.
  intros S f p l s. unfold iter_sum.
  transitivity (sum_from (fun s (xw : A * A) => let '(v, s) := f s (p (fst xw)) in (v [*] snd xw, s)) nnegzero l s).
  - revert s. generalize (@nnegzero A). induction l as [|[x w] l IH]; intros acc s; [reflexivity|].
    simpl. destruct (f s (p x)) as [v s1]. apply IH.
  - rewrite (sum_from_call_w (A * A) S f (fun xw => p (fst xw)) snd). rewrite map_map. reflexivity.
Qed.

Lemma legendre_calls : forall S (f : S -> A -> A * S) r a b s,
  legendre_integrate f r a b s =
  let '(vs, s') := call_all f (map (to_interval a b) (map fst (legendre_pairs r))) s in
  (half_width a b [*] weighted_sum vs (map snd (legendre_pairs r)), s').
Proof.
  intros. unfold legendre_integrate.
  rewrite (gauss_sum S f (fun x => legendre_argument_transformation x a b)).
  change (fun x => legendre_argument_transformation x a b) with (to_interval a b).
  destruct (call_all f _ s). reflexivity.
Qed.
Lemma jacobi_calls : forall S (f : S -> A -> A * S) r a b s,
  jacobi_integrate f r a b s =
  let '(vs, s') := call_all f (map (to_interval a b) (map fst (jacobi_pairs r))) s in
  (half_width a b [*] weighted_sum vs (map snd (jacobi_pairs r)), s').
Proof.
  intros. unfold jacobi_integrate.
  rewrite (gauss_sum S f (fun x => jacobi_argument_transformation x a b)).
  change (fun x => jacobi_argument_transformation x a b) with (to_interval a b).
  destruct (call_all f _ s). reflexivity.
Qed.
Lemma chebyshev1_calls : forall S (f : S -> A -> A * S) r a b s,
  chebyshev1_integrate f r a b s =
  let '(vs, s') := call_all f (map (to_interval a b) (map fst (chebyshev1_pairs r))) s in
  (weighted_sum vs (map snd (chebyshev1_pairs r)) [*] half_width a b, s').
Proof.
  intros. unfold chebyshev1_integrate.
  rewrite (gauss_sum S f (fun x => chebyshev_argument_transformation x a b)).
  change (fun x => chebyshev_argument_transformation x a b) with (to_interval a b).
  destruct (call_all f _ s). reflexivity.
Qed.
Lemma chebyshev2_calls : forall S (f : S -> A -> A * S) r a b s,
  chebyshev2_integrate f r a b s =
  let '(vs, s') := call_all f (map (to_interval a b) (map fst (chebyshev2_pairs r))) s in
  (weighted_sum vs (map snd (chebyshev2_pairs r)) [*] half_width a b, s').
Proof.
  intros. unfold chebyshev2_integrate.
  rewrite (gauss_sum S f (fun x => chebyshev_argument_transformation x a b)).
  change (fun x => chebyshev_argument_transformation x a b) with (to_interval a b).
  destruct (call_all f _ s). reflexivity.
Qed.
Lemma hermite_calls : forall S (f : S -> A -> A * S) r s,
  hermite_integrate f r s =
  let '(vs, s') := call_all f (map fst (hermite_pairs r)) s in
  (weighted_sum vs (map snd (hermite_pairs r)), s').
Proof.
  intros. unfold hermite_integrate. rewrite (gauss_sum S f (fun x => x)). rewrite map_id.
  destruct (call_all f _ s). reflexivity.
Qed.
Lemma laguerre_calls : forall S (f : S -> A -> A * S) r s,
  laguerre_integrate f r s =
  let '(vs, s') := call_all f (map fst (laguerre_pairs r)) s in
  (weighted_sum vs (map snd (laguerre_pairs r)), s').
Proof.
  intros. unfold laguerre_integrate. rewrite (gauss_sum S f (fun x => x)). rewrite map_id.
  destruct (call_all f _ s). reflexivity.
Qed.
End Calls.

(** ** Exact values *)
Local Open Scope R_scope.

Lemma combine_map_l : forall X Y Z (f : X -> Y) (g : X -> Z) l,
  combine (map f l) (map g l) = map (fun x => (f x, g x)) l.
Proof. intros. induction l; simpl; congruence. Qed.

Lemma weighted_sum_R : forall (g p : R -> R) (l : Pairs RA),
  @weighted_sum RA (map g (map p (map fst l))) (map snd l) =
  lsum (map (fun xw => g (p (fst xw)) * snd xw) l).
Proof.
  intros g p l. unfold weighted_sum. rewrite float_sum_R. rewrite !map_map.
  rewrite (combine_map_l (R * R) R R), map_map. reflexivity.
Qed.
Lemma weighted_sum_R0 : forall (g : R -> R) (l : Pairs RA),
  @weighted_sum RA (map g (map fst l)) (map snd l) = lsum (map (fun xw => g (fst xw) * snd xw) l).
Proof. intros. rewrite <- (weighted_sum_R g (fun x => x)), map_id. reflexivity. Qed.

Lemma to_interval_R : forall a b x : R, @to_interval RA a b x = (b - a) / 2 * x + (a + b) / 2.
Proof. intros. unfold to_interval. ra_simpl. ra_lits. field. Qed.
Lemma half_width_R : forall a b : R, @half_width RA a b = (b - a) / 2.
Proof. intros. unfold half_width. ra_simpl. ra_lits. field. Qed.

(** the exact-arithmetic value of a rule on [a,b] *)
Definition gauss_on (l : list (R * R)) (a b : R) (g : R -> R) : R :=
  (b - a) / 2 * lsum (map (fun xw => g ((b - a) / 2 * fst xw + (a + b) / 2) * snd xw) l).
Definition gauss_plain (l : list (R * R)) (g : R -> R) : R :=
  lsum (map (fun xw => g (fst xw) * snd xw) l).

Lemma gauss_on_eq : forall (l : Pairs RA) a b g,
  (b - a) / 2 * lsum (map (fun xw : RA * RA => g (@to_interval RA a b (fst xw)) * snd xw) l) = gauss_on l a b g.
Proof.
  intros. unfold gauss_on. f_equal. f_equal. apply map_ext. intros. rewrite to_interval_R. reflexivity.
Qed.

Lemma legendre_R : forall g r a b,
  fst (legendre_integrate (A := RA) (pure g) r a b tt) = gauss_on (legendre_pairs r) a b g.
Proof.
  intros. rewrite legendre_calls, (call_all_pure R R g). cbn [fst].
  rewrite weighted_sum_R, half_width_R, <- gauss_on_eq. reflexivity.
Qed.
Lemma jacobi_R : forall g r a b,
  fst (jacobi_integrate (A := RA) (pure g) r a b tt) = gauss_on (jacobi_pairs r) a b g.
Proof.
  intros. rewrite jacobi_calls, (call_all_pure R R g). cbn [fst].
  rewrite weighted_sum_R, half_width_R, <- gauss_on_eq. reflexivity.
Qed.
Lemma chebyshev1_R : forall g r a b,
  fst (chebyshev1_integrate (A := RA) (pure g) r a b tt) = gauss_on (chebyshev1_pairs r) a b g.
Proof.
  intros. rewrite chebyshev1_calls, (call_all_pure R R g). cbn [fst].
  rewrite weighted_sum_R, half_width_R, <- gauss_on_eq. apply Rmult_comm.
Qed.
Lemma chebyshev2_R : forall g r a b,
  fst (chebyshev2_integrate (A := RA) (pure g) r a b tt) = gauss_on (chebyshev2_pairs r) a b g.
Proof.
  intros. rewrite chebyshev2_calls, (call_all_pure R R g). cbn [fst].
  rewrite weighted_sum_R, half_width_R, <- gauss_on_eq. apply Rmult_comm.
Qed.
Lemma hermite_R : forall g r,
  fst (hermite_integrate (A := RA) (pure g) r tt) = gauss_plain (hermite_pairs r) g.
Proof.
  intros. rewrite hermite_calls, (call_all_pure R R g). cbn [fst].
  rewrite weighted_sum_R0. reflexivity.
Qed.
Lemma laguerre_R : forall g r,
  fst (laguerre_integrate (A := RA) (pure g) r tt) = gauss_plain (laguerre_pairs r) g.
Proof.
  intros. rewrite laguerre_calls, (call_all_pure R R g). cbn [fst].
  rewrite weighted_sum_R0. reflexivity.
Qed.

(** ** Parallel integration *)
Lemma gauss_par : forall (l : Pairs RA) t a b (g : R -> R),
  (b - a) / 2 * @par_sum RA _ t (fun '(x, w) => g (@to_interval RA a b x) * w) l = gauss_on l a b g.
Proof.
  intros. rewrite par_sum_R. rewrite <- gauss_on_eq. f_equal. f_equal. apply map_ext.
  intros [x w]. reflexivity.
Qed.
Lemma legendre_par_R : forall t g r a b,
  legendre_par_integrate (A := RA) t g r a b = fst (legendre_integrate (A := RA) (pure g) r a b tt).
Proof. intros. rewrite legendre_R, <- (gauss_par _ t), <- half_width_R. reflexivity. Qed.
Lemma jacobi_par_R : forall t g r a b,
  jacobi_par_integrate (A := RA) t g r a b = fst (jacobi_integrate (A := RA) (pure g) r a b tt).
Proof. intros. rewrite jacobi_R, <- (gauss_par _ t), <- half_width_R. reflexivity. Qed.
Lemma chebyshev1_par_R : forall t g r a b,
  chebyshev1_par_integrate (A := RA) t g r a b = fst (chebyshev1_integrate (A := RA) (pure g) r a b tt).
Proof. intros. rewrite chebyshev1_R, <- (gauss_par _ t), <- half_width_R. apply Rmult_comm. Qed.
Lemma chebyshev2_par_R : forall t g r a b,
  chebyshev2_par_integrate (A := RA) t g r a b = fst (chebyshev2_integrate (A := RA) (pure g) r a b tt).
Proof. intros. rewrite chebyshev2_R, <- (gauss_par _ t), <- half_width_R. apply Rmult_comm. Qed.
Lemma hermite_par_R : forall t g r,
  hermite_par_integrate (A := RA) t g r = fst (hermite_integrate (A := RA) (pure g) r tt).
Proof.
  intros. rewrite hermite_R. unfold hermite_par_integrate. rewrite par_sum_R. unfold gauss_plain.
  f_equal. apply map_ext. intros [x w]. reflexivity.
Qed.
Lemma laguerre_par_R : forall t g r,
  laguerre_par_integrate (A := RA) t g r = fst (laguerre_integrate (A := RA) (pure g) r tt).
Proof.
  intros. rewrite laguerre_R. unfold laguerre_par_integrate. rewrite par_sum_R. unfold gauss_plain.
  f_equal. apply map_ext. intros [x w]. reflexivity.
Qed.

Lemma midpoint_par_R : forall t g n a b,
  midpoint_par_integrate (A := RA) g t (midpoint_new n) a b
  = fst (midpoint_integrate (A := RA) (pure g) (midpoint_new n) a b tt).
Proof.
  intros. unfold midpoint_par_integrate, midpoint_integrate. rewrite par_sum_R. simpl midpoint_degree.
  rewrite node_rule_items_eq. rewrite (iter_sum_call R unit (pure g) (fun node => a + (b - a) / IZR n * (@lit_half RA + node))).
  rewrite call_all_pure. simpl fst. rewrite float_sum_R, !map_map. reflexivity.
Qed.
Lemma trapezoid_par_R : forall t g n a b, (1 <= n)%Z ->
  trapezoid_par_integrate (A := RA) g t (trapezoid_new n) a b
  = fst (trapezoid_integrate (A := RA) (pure g) (trapezoid_new n) a b tt).
Proof.
  intros. rewrite trapezoid_calls by assumption. unfold trapezoid_par_integrate. rewrite !par_sum_R. simpl trapezoid_degree.
  rewrite !(call_all_pure R R g). cbn [fst]. rewrite !float_sum_R, !map_map.
  rewrite <- !zrange_ints. simpl nth. reflexivity.
Qed.
Lemma simpson_par_R : forall t1 t2 g n a b, (1 <= n)%Z ->
  simpson_par_integrate (A := RA) g t1 t2 (simpson_new n) a b
  = fst (simpson_integrate (A := RA) (pure g) (simpson_new n) a b tt).
Proof.
  intros. rewrite simpson_calls by assumption. unfold simpson_par_integrate. rewrite !par_sum_R. simpl simpson_degree.
  rewrite !(call_all_pure R R g). simpl fst. rewrite !float_sum_R, !map_map.
  rewrite <- !zrange_ints. simpl nth. reflexivity.
Qed.

(** ** Parallel construction *)
Lemma collect_res_app : forall X Y (f : X -> Res Y) l m,
  collect_res f (l ++ m) =
  let! ys := collect_res f l in let! zs := collect_res f m in Ok (ys ++ zs).
Proof.
  intros X Y f l m. induction l as [|x l IH]; simpl.
  - destruct (collect_res f m); reflexivity.
  - destruct (f x) as [y|]; simpl; [|reflexivity]. rewrite IH.
    destruct (collect_res f l); simpl; [|reflexivity]. destruct (collect_res f m); reflexivity.
Qed.
Lemma par_collect_eq : forall X Y t (f : X -> Res Y) l, par_collect_res t f l = collect_res f l.
Proof.
  intros X Y t f. induction t; intros l; simpl; [reflexivity|].
  rewrite IHt1, IHt2, <- collect_res_app, firstn_skipn. reflexivity.
Qed.
Lemma collect_res_pure : forall X Y (f : X -> Y) l, collect_res (fun x => Ok (f x)) l = Ok (map f l).
Proof. intros. induction l as [|x l IH]; simpl; [reflexivity|]. rewrite IH. reflexivity. Qed.

Lemma legendre_par_new_eq : forall (A : Arith) t sch n, legendre_par_new (A := A) t sch n = legendre_new t n.
Proof.
  intros. unfold legendre_par_new, legendre_new. destruct (usize_add t n 1); simpl; [|reflexivity].
  rewrite par_collect_eq. reflexivity.
Qed.
Lemma chebyshev1_par_new_eq : forall (A : Arith) t sch n, chebyshev1_par_new (A := A) t sch n = chebyshev1_new t n.
Proof.
  intros. unfold chebyshev1_par_new, chebyshev1_new. destruct (usize_add t n 1); simpl; [|reflexivity].
  rewrite par_collect_eq, collect_res_pure. reflexivity.
Qed.
Lemma chebyshev2_par_new_eq : forall (A : Arith) t sch n, chebyshev2_par_new (A := A) t sch n = chebyshev2_new t n.
Proof.
  intros. unfold chebyshev2_par_new, chebyshev2_new. destruct (usize_add t n 1); simpl; [|reflexivity].
  rewrite par_collect_eq, collect_res_pure. reflexivity.
Qed.

(** Every item is processed by exactly one worker, in order within the list. *)
Lemma par_chunks_concat : forall X t (l : list X), concat (par_chunks t l) = l.
Proof.
  intros X t. induction t; intros l; simpl; [apply app_nil_r|].
  rewrite concat_app, IHt1, IHt2, firstn_skipn. reflexivity.
Qed.
