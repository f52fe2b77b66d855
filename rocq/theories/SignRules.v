(** Non-negative integrands, empty intervals: the rules in double arithmetic. *)
From Coq Require Import Reals ZArith List Lra Lia Bool.
From Flocq Require Import Core IEEE754.Binary.
From Verif Require Import Arith F64 F64Spec F64Proof Machine Iter Param Rules Par NewtonCotes Chebyshev GolubWelsch Hermite Laguerre Legendre Jacobi
  IterProof IntegrateSpec SignSpec SignProof.
Import ListNotations.
Local Open Scope R_scope.

Section Rules.
Variable be : Backend.
Notation A := (F64 be).

Lemma nn_sum_from : forall X S (f : S -> X -> A * S) (l : list X) (acc : A) (s : S),
  List.Forall (fun x => forall s, nn (fst (f s x))) l -> nn acc -> nn (fst (sum_from f acc l s)).
Proof.
  intros X S f l. induction l as [|x l IH]; intros acc s Hl Ha; [exact Ha|].
  inversion Hl; subst. simpl. destruct (f s x) as [v s'] eqn:E. apply IH; [assumption|]. apply nn_add; [exact Ha|].
  specialize (H1 s). rewrite E in H1. exact H1.
Qed.
Lemma nn_iter_sum : forall X S (f : S -> X -> A * S) (l : list X) (s : S),
  List.Forall (fun x => forall s, nn (fst (f s x))) l -> nn (fst (iter_sum f l s)).
Proof. intros. apply nn_sum_from; [assumption|exact I]. Qed.
Lemma nn_iter_sum_all : forall X S (f : S -> X -> A * S) (l : list X) (s : S),
  (forall x s, nn (fst (f s x))) -> nn (fst (iter_sum f l s)).
Proof. intros. apply nn_iter_sum. apply List.Forall_forall. intros; apply H. Qed.
Lemma nn_par_sum : forall X (t : Sched) (f : X -> A) (l : list X),
  List.Forall (fun x => nn (f x)) l -> nn (par_sum t f l).
Proof.
  intros X t f. induction t as [|m t1 IH1 t2 IH2]; intros l Hl.
  - simpl. unfold rayon_add. apply nn_add; [apply nn_add; exact I|]. apply nn_iter_sum.
    eapply List.Forall_impl; [|exact Hl]. intros x Hx _. exact Hx.
  - simpl. unfold rayon_add. apply nn_add; [apply nn_add; [exact I|]|].
    + apply IH1. apply List.Forall_forall. intros x Hx. eapply List.Forall_forall in Hl; [exact Hl|].
      rewrite <- (firstn_skipn m l). apply in_or_app. left; exact Hx.
    + apply IH2. apply List.Forall_forall. intros x Hx. eapply List.Forall_forall in Hl; [exact Hl|].
      rewrite <- (firstn_skipn m l). apply in_or_app. right; exact Hx.
Qed.
Lemma nn_par_sum_all : forall X (t : Sched) (f : X -> A) (l : list X),
  (forall x, nn (f x)) -> nn (par_sum t f l).
Proof. intros. apply nn_par_sum. apply List.Forall_forall. intros; apply H. Qed.

(** small literals *)
Lemma lit_pos : forall m, (0 <= m <= 2 ^ 53)%Z -> nn (@nlit A m 0).
Proof. intros m Hm. destruct (lit_int_exact m) as [H1 H2]; [lia|]. apply nn_val; [exact H1|]. refine (eq_ind_r (fun z => 0 <= z) _ H2). apply IZR_le. lia. Qed.
Lemma half_nn : nn (@lit_half A).
Proof. destruct half_exact as [H1 H2]. apply nn_val; [exact H1|]. refine (eq_ind_r (fun z => 0 <= z) _ H2). lra. Qed.
Lemma width_nn : forall (a b : A) n, nonzero_u32 n -> nlt b a = false -> nn (ndiv (nsub b a) (@nofZ A n)).
Proof.
  intros a b n [Hn Hn2] H. destruct (ofZ_exact n) as [H1 H2]; [lia|].
  apply nn_div; [now apply nn_sub|exact H1|]. refine (eq_ind_r (fun z => 0 < z) _ H2). apply IZR_lt. lia.
Qed.
Lemma sf_nn : forall (a b : A), nlt b a = false -> nn (nmul lit_half (nsub b a)).
Proof. intros a b H. apply nn_mul; [apply half_nn|now apply nn_sub]. Qed.
Lemma pairs_nn : forall S (f : S -> A -> A * S) (g : A -> A) (p : Pairs A),
  (forall s x, nn (fst (f s x))) -> List.Forall (fun q => nn (snd q)) p ->
  List.Forall (fun q => forall s, nn (fst ((fun s '(x, w) => let '(v, s) := f s (g x) in (nmul v w, s)) s q))) p.
Proof.
  intros S f g p Hf Hp. eapply List.Forall_impl; [|exact Hp]. intros [x w] Hw s. simpl in *.
  pose proof (Hf s (g x)) as Hv. destruct (f s (g x)) as [v s']. apply nn_mul; assumption.
Qed.

Lemma fst_let : forall X Y Z (p : X * Y) (h : X -> Z), fst (let '(r, s) := p in (h r, s)) = h (fst p).
Proof. intros. destruct p; reflexivity. Qed.

Section Seq.
Variable S : Type.
Variable f : S -> A -> A * S.
Hypothesis Hf : forall s x, nn (fst (f s x)).
Variables a b : A.
Hypothesis Hab : nlt b a = false.

Lemma midpoint_nn : forall r s, nonzero_u32 (midpoint_degree r) -> nn (fst (midpoint_integrate f r a b s)).
Proof.
  intros r s Hr. unfold midpoint_integrate. cbv zeta.
  match goal with |- nn (fst (let '(x, y) := ?p in _)) => assert (H : nn (fst p)) by (apply nn_iter_sum_all; intros; apply Hf); destruct p as [v s'] end.
  apply nn_mul; [assumption|]. apply width_nn; assumption.
Qed.
Lemma trapezoid_nn : forall r s, nonzero_u32 (trapezoid_degree r) -> nn (fst (trapezoid_integrate f r a b s)).
Proof.
  intros r s Hr. unfold trapezoid_integrate. cbv zeta.
  pose proof (Hf s a) as H1. destruct (f s a) as [fa s1]. pose proof (Hf s1 b) as H2. destruct (f s1 b) as [fb s2].
  match goal with |- nn (fst (let '(x, y) := ?p in _)) => assert (H : nn (fst p)) by (apply nn_iter_sum_all; intros; apply Hf); destruct p as [v s'] end.
  simpl fst in *. apply nn_mul; [|now apply width_nn].
  apply nn_add; [|exact H]. destruct (lit_int_exact 2) as [L1 L2]; [lia|].
  apply nn_div; [now apply nn_add|exact L1|]. refine (eq_ind_r (fun z => 0 < z) _ L2). lra.
Qed.
Lemma simpson_nn : forall r s, nonzero_u32 (simpson_degree r) -> nn (fst (simpson_integrate f r a b s)).
Proof.
  intros r s Hr. unfold simpson_integrate. cbv zeta.
  assert (C : Z.of_nat (it_count (NodeRuleIter (@nofZ A)) (node_rule_iter (simpson_degree r))) = simpson_degree r).
  { destruct Hr. unfold node_rule_iter. rewrite node_rule_count. lia. }
  rewrite C.
  match goal with |- nn (fst (let '(x, y) := ?p in _)) => assert (H : nn (fst p)) by (apply nn_iter_sum_all; intros; apply Hf); destruct p as [v s'] end.
  match goal with |- nn (fst (let '(x, y) := ?p in _)) => assert (H' : nn (fst p)) by (apply nn_iter_sum_all; intros; apply Hf); destruct p as [v' s''] end.
  match goal with |- nn (fst (let '(x, y) := ?p in _)) => assert (H1 : nn (fst p)) by apply Hf; destruct p as [v1 s1] end.
  match goal with |- nn (fst (let '(x, y) := ?p in _)) => assert (H2 : nn (fst p)) by apply Hf; destruct p as [v2 s2] end.
  match goal with |- nn (fst (let '(x, y) := ?p in _)) => assert (H3 : nn (fst p)) by apply Hf; destruct p as [v3 s3] end.
  cbn [fst] in *.
  destruct (lit_int_exact 6) as [L1 L2]; [lia|].
  apply nn_mul.
  - apply nn_div; [now apply width_nn|exact L1|]. refine (eq_ind_r (fun z => 0 < z) _ L2). lra.
  - repeat apply nn_add; try assumption; apply nn_mul; try assumption; apply lit_pos; lia.
Qed.

Lemma legendre_nn : forall (r : GaussLegendre A) s, List.Forall (fun q => nn (snd q)) (legendre_pairs r) -> nn (fst (legendre_integrate f r a b s)).
Proof.
  intros r s Hr. unfold legendre_integrate.
  match goal with |- nn (fst (let '(x, y) := ?p in _)) => assert (H : nn (fst p)) by (apply nn_iter_sum; apply (pairs_nn S f (fun x => _ x a b)); assumption); destruct p as [v s'] end.
  apply nn_mul; [now apply sf_nn|exact H].
Qed.
Lemma jacobi_nn : forall (r : GaussJacobi A) s, List.Forall (fun q => nn (snd q)) (jacobi_pairs r) -> nn (fst (jacobi_integrate f r a b s)).
Proof.
  intros r s Hr. unfold jacobi_integrate.
  match goal with |- nn (fst (let '(x, y) := ?p in _)) => assert (H : nn (fst p)) by (apply nn_iter_sum; apply (pairs_nn S f (fun x => _ x a b)); assumption); destruct p as [v s'] end.
  apply nn_mul; [now apply sf_nn|exact H].
Qed.
Lemma chebyshev1_nn : forall (r : GaussChebyshevFirstKind A) s, List.Forall (fun q => nn (snd q)) (chebyshev1_pairs r) -> nn (fst (chebyshev1_integrate f r a b s)).
Proof.
  intros r s Hr. unfold chebyshev1_integrate.
  match goal with |- nn (fst (let '(x, y) := ?p in _)) => assert (H : nn (fst p)) by (apply nn_iter_sum; apply (pairs_nn S f (fun x => _ x a b)); assumption); destruct p as [v s'] end.
  apply nn_mul; [exact H|now apply sf_nn].
Qed.
Lemma chebyshev2_nn : forall (r : GaussChebyshevSecondKind A) s, List.Forall (fun q => nn (snd q)) (chebyshev2_pairs r) -> nn (fst (chebyshev2_integrate f r a b s)).
Proof.
  intros r s Hr. unfold chebyshev2_integrate.
  match goal with |- nn (fst (let '(x, y) := ?p in _)) => assert (H : nn (fst p)) by (apply nn_iter_sum; apply (pairs_nn S f (fun x => _ x a b)); assumption); destruct p as [v s'] end.
  apply nn_mul; [exact H|now apply sf_nn].
Qed.
Lemma hermite_nn : forall (r : GaussHermite A) s, List.Forall (fun q => nn (snd q)) (hermite_pairs r) -> nn (fst (hermite_integrate f r s)).
Proof.
  intros r s Hr. unfold hermite_integrate.
  match goal with |- nn (fst (let '(x, y) := ?p in _)) => assert (H : nn (fst p)) by (apply nn_iter_sum; apply (pairs_nn S f (fun x => x)); assumption); destruct p as [v s'] end.
  exact H.
Qed.
Lemma laguerre_nn : forall (r : GaussLaguerre A) s, List.Forall (fun q => nn (snd q)) (laguerre_pairs r) -> nn (fst (laguerre_integrate f r s)).
Proof.
  intros r s Hr. unfold laguerre_integrate.
  match goal with |- nn (fst (let '(x, y) := ?p in _)) => assert (H : nn (fst p)) by (apply nn_iter_sum; apply (pairs_nn S f (fun x => x)); assumption); destruct p as [v s'] end.
  exact H.
Qed.
End Seq.

Section ParRules.
Variable g : A -> A.
Hypothesis Hg : forall x, nn (g x).
Variables a b : A.
Hypothesis Hab : nlt b a = false.
Lemma midpoint_par_nn : forall t r, nonzero_u32 (midpoint_degree r) -> nn (midpoint_par_integrate g t r a b).
Proof.
  intros t r Hr. unfold midpoint_par_integrate. cbv zeta. apply nn_mul; [|now apply width_nn].
  apply nn_par_sum_all. intros; apply Hg.
Qed.
Lemma trapezoid_par_nn : forall t r, nonzero_u32 (trapezoid_degree r) -> nn (trapezoid_par_integrate g t r a b).
Proof.
  intros t r Hr. unfold trapezoid_par_integrate. cbv zeta. apply nn_mul; [|now apply width_nn].
  apply nn_add; [|apply nn_par_sum_all; intros; apply Hg].
  destruct (lit_int_exact 2) as [L1 L2]; [lia|].
  apply nn_div; [now apply nn_add|exact L1|]. refine (eq_ind_r (fun z => 0 < z) _ L2). lra.
Qed.
Lemma simpson_par_nn : forall t1 t2 r, nonzero_u32 (simpson_degree r) -> nn (simpson_par_integrate g t1 t2 r a b).
Proof.
  intros t1 t2 r Hr. unfold simpson_par_integrate. cbv zeta. destruct (lit_int_exact 6) as [L1 L2]; [lia|].
  apply nn_mul.
  - apply nn_div; [now apply width_nn|exact L1|]. refine (eq_ind_r (fun z => 0 < z) _ L2). lra.
  - repeat apply nn_add; try apply Hg; apply nn_mul; try apply Hg; try (apply lit_pos; lia); apply nn_par_sum_all; intros; apply Hg.
Qed.
Lemma ppairs_nn : forall (h : A -> A) (p : Pairs A), List.Forall (fun q => nn (snd q)) p ->
  List.Forall (fun q => nn ((fun '(x, w) => nmul (g (h x)) w) q)) p.
Proof. intros h p Hp. eapply List.Forall_impl; [|exact Hp]. intros [x w] Hw. simpl in *. apply nn_mul; [apply Hg|exact Hw]. Qed.
Lemma legendre_par_nn : forall t (r : GaussLegendre A), List.Forall (fun q => nn (snd q)) (legendre_pairs r) -> nn (legendre_par_integrate t g r a b).
Proof.
  intros t r Hr. unfold legendre_par_integrate. apply nn_mul; [now apply sf_nn|]. apply nn_par_sum. apply (ppairs_nn (fun x => _ x a b)). exact Hr.
Qed.
Lemma jacobi_par_nn : forall t (r : GaussJacobi A), List.Forall (fun q => nn (snd q)) (jacobi_pairs r) -> nn (jacobi_par_integrate t g r a b).
Proof.
  intros t r Hr. unfold jacobi_par_integrate. apply nn_mul; [now apply sf_nn|]. apply nn_par_sum. apply (ppairs_nn (fun x => _ x a b)). exact Hr.
Qed.
Lemma chebyshev1_par_nn : forall t (r : GaussChebyshevFirstKind A), List.Forall (fun q => nn (snd q)) (chebyshev1_pairs r) -> nn (chebyshev1_par_integrate t g r a b).
Proof.
  intros t r Hr. unfold chebyshev1_par_integrate. apply nn_mul; [|now apply sf_nn]. apply nn_par_sum. apply (ppairs_nn (fun x => _ x a b)). exact Hr.
Qed.
Lemma chebyshev2_par_nn : forall t (r : GaussChebyshevSecondKind A), List.Forall (fun q => nn (snd q)) (chebyshev2_pairs r) -> nn (chebyshev2_par_integrate t g r a b).
Proof.
  intros t r Hr. unfold chebyshev2_par_integrate. apply nn_mul; [|now apply sf_nn]. apply nn_par_sum. apply (ppairs_nn (fun x => _ x a b)). exact Hr.
Qed.
Lemma hermite_par_nn : forall t (r : GaussHermite A), List.Forall (fun q => nn (snd q)) (hermite_pairs r) -> nn (hermite_par_integrate t g r).
Proof. intros t r Hr. unfold hermite_par_integrate. apply nn_par_sum. apply (ppairs_nn (fun x => x)). exact Hr. Qed.
Lemma laguerre_par_nn : forall t (r : GaussLaguerre A), List.Forall (fun q => nn (snd q)) (laguerre_pairs r) -> nn (laguerre_par_integrate t g r).
Proof. intros t r Hr. unfold laguerre_par_integrate. apply nn_par_sum. apply (ppairs_nn (fun x => x)). exact Hr. Qed.
End ParRules.

(** the statements with [not_negative] *)
Lemma weights_nn_iff : forall p, weights_not_negative p -> List.Forall (fun q : A * A => nn (snd q)) p.
Proof. intros p Hp. eapply List.Forall_impl; [|exact Hp]. intros q Hq. apply nn_iff, Hq. Qed.
Theorem sign_integrate : forall S (f : S -> A -> A * S), (forall s x, not_negative (fst (f s x))) ->
  forall a b : A, nlt b a = false -> forall s,
  (forall r, nonzero_u32 (midpoint_degree r) -> not_negative (fst (midpoint_integrate f r a b s))) /\
  (forall r, nonzero_u32 (trapezoid_degree r) -> not_negative (fst (trapezoid_integrate f r a b s))) /\
  (forall r, nonzero_u32 (simpson_degree r) -> not_negative (fst (simpson_integrate f r a b s))) /\
  (forall r : GaussLegendre A, weights_not_negative (legendre_pairs r) -> not_negative (fst (legendre_integrate f r a b s))) /\
  (forall r : GaussJacobi A, weights_not_negative (jacobi_pairs r) -> not_negative (fst (jacobi_integrate f r a b s))) /\
  (forall r : GaussChebyshevFirstKind A, weights_not_negative (chebyshev1_pairs r) -> not_negative (fst (chebyshev1_integrate f r a b s))) /\
  (forall r : GaussChebyshevSecondKind A, weights_not_negative (chebyshev2_pairs r) -> not_negative (fst (chebyshev2_integrate f r a b s))) /\
  (forall r : GaussHermite A, weights_not_negative (hermite_pairs r) -> not_negative (fst (hermite_integrate f r s))) /\
  (forall r : GaussLaguerre A, weights_not_negative (laguerre_pairs r) -> not_negative (fst (laguerre_integrate f r s))).
Proof.
  intros S f Hf a b Hab s.
  assert (Hf' : forall s x, nn (fst (f s x))) by (intros; apply nn_iff, Hf).
  repeat split; intros r Hr; apply nn_iff.
  - now apply midpoint_nn. - now apply trapezoid_nn. - now apply simpson_nn.
  - apply legendre_nn; try assumption; now apply weights_nn_iff.
  - apply jacobi_nn; try assumption; now apply weights_nn_iff.
  - apply chebyshev1_nn; try assumption; now apply weights_nn_iff.
  - apply chebyshev2_nn; try assumption; now apply weights_nn_iff.
  - apply hermite_nn; try assumption; now apply weights_nn_iff.
  - apply laguerre_nn; try assumption; now apply weights_nn_iff.
Qed.
Theorem sign_par_integrate : forall g : A -> A, (forall x, not_negative (g x)) ->
  forall a b : A, nlt b a = false -> forall t t',
  (forall r, nonzero_u32 (midpoint_degree r) -> not_negative (midpoint_par_integrate g t r a b)) /\
  (forall r, nonzero_u32 (trapezoid_degree r) -> not_negative (trapezoid_par_integrate g t r a b)) /\
  (forall r, nonzero_u32 (simpson_degree r) -> not_negative (simpson_par_integrate g t t' r a b)) /\
  (forall r : GaussLegendre A, weights_not_negative (legendre_pairs r) -> not_negative (legendre_par_integrate t g r a b)) /\
  (forall r : GaussJacobi A, weights_not_negative (jacobi_pairs r) -> not_negative (jacobi_par_integrate t g r a b)) /\
  (forall r : GaussChebyshevFirstKind A, weights_not_negative (chebyshev1_pairs r) -> not_negative (chebyshev1_par_integrate t g r a b)) /\
  (forall r : GaussChebyshevSecondKind A, weights_not_negative (chebyshev2_pairs r) -> not_negative (chebyshev2_par_integrate t g r a b)) /\
  (forall r : GaussHermite A, weights_not_negative (hermite_pairs r) -> not_negative (hermite_par_integrate t g r)) /\
  (forall r : GaussLaguerre A, weights_not_negative (laguerre_pairs r) -> not_negative (laguerre_par_integrate t g r)).
Proof.
  intros g Hg a b Hab t t'.
  assert (Hg' : forall x, nn (g x)) by (intros; apply nn_iff, Hg).
  repeat split; intros r Hr; apply nn_iff.
  - now apply midpoint_par_nn. - now apply trapezoid_par_nn. - now apply simpson_par_nn.
  - apply legendre_par_nn; try assumption; now apply weights_nn_iff.
  - apply jacobi_par_nn; try assumption; now apply weights_nn_iff.
  - apply chebyshev1_par_nn; try assumption; now apply weights_nn_iff.
  - apply chebyshev2_par_nn; try assumption; now apply weights_nn_iff.
  - apply hermite_par_nn; try assumption; now apply weights_nn_iff.
  - apply laguerre_par_nn; try assumption; now apply weights_nn_iff.
Qed.
End Rules.
