(** The exact Gauss rule on [-1,1]: existence, uniqueness and its description by the zeros of
    the Legendre polynomials. *)
From Coq Require Import Reals ZArith List Lia Lra Psatz Sorting.Sorted FunctionalExtensionality.
From Coquelicot Require Import Coquelicot.
From Verif Require Import Arith RInst RInstProof RSum Machine Rules GolubWelsch GWSpec PolySpec PolyProof EigenSpec Spectral GWRoots MassSpec GaussRuleSpec
  Improper JacobiWeight WeightSpec GaussExact OrthoProof EigenProof EigenProof LegOde.
Import ListNotations.
Local Open Scope R_scope.

(** polynomials vanishing at the members of a list *)
Fixpoint nodal (l : list R) (x : R) : R := match l with [] => 1 | y :: r => (x - y) * nodal r x end.
Lemma nodal_poly : forall l, polynomial (length l) (nodal l).
Proof.
  induction l as [|y l IH]; cbn [nodal length]; [apply poly_const|].
  apply (poly_ext _ (fun x => (x - y) * nodal l x)); [reflexivity|]. apply (poly_mul 1 (length l) (fun x => x - y)); [|exact IH].
  apply (poly_ext _ (fun x => 1 * x + (- y) * 1)); [intros; ring|]. apply poly_lin; [exact poly_id|apply poly_const].
Qed.
Lemma nodal_zero : forall l x, nodal l x = 0 <-> In x l.
Proof.
  induction l as [|y l IH]; intros x; cbn [nodal In]; [split; [lra|tauto]|]. split.
  - intros H. apply Rmult_integral in H. destruct H as [H|H]; [left; lra|right; apply IH, H].
  - intros [-> |H]; [ring|]. rewrite (proj2 (IH x) H). ring.
Qed.
Lemma apply_app : forall (l m : list (R * R)) f, apply_rule (l ++ m) f = apply_rule l f + apply_rule m f.
Proof. intros l m f. unfold apply_rule. induction l as [|p l IH]; cbn [app map lsum]; [ring|]. rewrite IH. ring. Qed.
Lemma apply_zero : forall (l : list (R * R)) f, (forall x, In x (map fst l) -> f x = 0) -> apply_rule l f = 0.
Proof.
  intros l f H. unfold apply_rule. induction l as [|p l IH]; cbn [map lsum]; [reflexivity|]. rewrite IH by (intros x Hx; apply H; right; exact Hx).
  rewrite (H (fst p)) by (left; reflexivity). ring.
Qed.
Lemma apply_one : forall (l1 l2 : list (R * R)) p f, (forall x, In x (map fst (l1 ++ l2)) -> f x = 0) -> apply_rule (l1 ++ p :: l2) f = f (fst p) * snd p.
Proof.
  intros l1 l2 p f H. rewrite apply_app. change (p :: l2) with ([p] ++ l2). rewrite apply_app.
  rewrite (apply_zero l1), (apply_zero l2); try (intros x Hx; apply H; rewrite map_app; apply in_or_app; tauto). unfold apply_rule. simpl. ring.
Qed.

Lemma rule_unique : forall n l m, (1 <= n)%nat -> gauss_rule n l -> gauss_rule n m -> List.Forall (fun xw => 0 < snd xw) m -> l = m.
Proof.
  intros n l m Hn (L1 & S1 & E1) (L2 & S2 & E2) P2.
  assert (N2 : NoDup (map fst m)).
  { apply sorted_fst in S2. clear - S2. induction S2 as [|x r _ IH F]; constructor; [|exact IH]. intros H. rewrite List.Forall_forall in F. specialize (F x H). lra. }
  assert (AG : forall p, polynomial (2 * n - 1) p -> apply_rule l p = apply_rule m p) by (intros p Hp; rewrite E1, E2 by exact Hp; reflexivity).
  assert (I : incl (map fst m) (map fst l)).
  { intros x Hx. apply in_map_iff in Hx. destruct Hx as (q & <- & Hq). destruct (in_split q m Hq) as (m1 & m2 & Em).
    set (f := fun x => nodal (map fst l) x * nodal (map fst (m1 ++ m2)) x).
    assert (Pf : polynomial (2 * n - 1) f).
    { assert (Ln : (2 * n - 1 = length (map fst l) + length (map fst (m1 ++ m2)))%nat).
      { rewrite !map_length, L1. rewrite Em in L2. rewrite app_length in *. simpl in L2. lia. }
      rewrite Ln. apply poly_mul; apply nodal_poly. }
    pose proof (AG f Pf) as A. rewrite (apply_zero l) in A.
    2:{ intros y Hy. unfold f. rewrite (proj2 (nodal_zero _ y) Hy). ring. }
    rewrite Em, apply_one in A.
    2:{ intros y Hy. unfold f. rewrite (proj2 (nodal_zero _ y) Hy). ring. }
    rewrite List.Forall_forall in P2. specialize (P2 q Hq). symmetry in A. apply Rmult_integral in A. destruct A as [A|A]; [|lra].
    unfold f in A. apply Rmult_integral in A. destruct A as [A|A]; [apply nodal_zero; exact A|exfalso].
    apply nodal_zero in A. rewrite Em, map_app in N2. cbn [map] in N2. apply NoDup_remove_2 in N2. rewrite map_app in A. tauto. }
  assert (E : map fst l = map fst m).
  { apply sorted_unique; [apply sorted_fst, S1|apply sorted_fst, S2|]. intros x. split; [|apply I].
    apply (NoDup_length_incl N2); [rewrite !map_length; lia|exact I]. }
  assert (W : forall i, (i < n)%nat -> nth i l (0, 0) = nth i m (0, 0)).
  { intros i Hi.
    assert (F : nth i (map fst l) 0 = nth i (map fst m) 0) by (rewrite E; reflexivity). rewrite !(map_nth fst _ (0, 0) i : nth i (map fst _) 0 = _) in F.
    destruct (nth_split m (0, 0) (n := i) ltac:(lia)) as (m1 & m2 & Em & Lm1). destruct (nth_split l (0, 0) (n := i) ltac:(lia)) as (l1 & l2 & El & Ll1).
    set (q := nth i m (0, 0)) in *. set (p := nth i l (0, 0)) in *.
    assert (EE : map fst l1 = map fst m1 /\ map fst l2 = map fst m2).
    { rewrite El, Em, !map_app in E. cbn [map] in E. clear - E Lm1 Ll1. assert (Ln : length (map fst l1) = length (map fst m1)) by (rewrite !map_length; lia).
      revert E Ln. generalize (map fst l1) as u. generalize (map fst m1) as v. intros v u. revert v. induction u as [|x a IH]; intros [|y b] E Ln; try discriminate Ln; cbn [app] in E.
      - inversion E. split; reflexivity.
      - inversion E as [[E0 E1]]. destruct (IH b E1 ltac:(simpl in Ln; lia)) as [-> ->]. split; reflexivity. }
    destruct EE as [EA EB].
    set (f := nodal (map fst (m1 ++ m2))).
    assert (Pf : polynomial (2 * n - 1) f).
    { apply (poly_weaken (length (map fst (m1 ++ m2)))); [|apply nodal_poly]. rewrite map_length. rewrite Em in L2. rewrite app_length in *. simpl in L2. lia. }
    pose proof (AG f Pf) as A. rewrite El, Em in A. rewrite !apply_one in A.
    2:{ intros y Hy. apply nodal_zero. exact Hy. }
    2:{ intros y Hy. apply nodal_zero. rewrite map_app, <- EA, <- EB, <- map_app. exact Hy. }
    rewrite F in A. assert (NZ : f (fst q) <> 0).
    { intros C. apply nodal_zero in C. rewrite Em, map_app in N2. cbn [map] in N2. apply NoDup_remove_2 in N2. rewrite map_app in C. tauto. }
    apply Rmult_eq_reg_l in A; [|exact NZ]. destruct p, q. cbn [fst snd] in *. congruence. }
  apply (nth_ext _ _ (0, 0) (0, 0)); [lia|]. rewrite L1. exact W.
Qed.

(** the integral over [-1,1] of a polynomial is the weighted integral with weight 1 *)
Lemma unit_weight : forall d f, polynomial d f -> jacobi_L 0 0 f = RInt f (-1) 1.
Proof.
  intros d f Hf. assert (C : forall x, continuous f x) by (intros x; apply (poly_cont d), Hf).
  assert (XI : forall a b, ex_RInt f a b) by (intros a b; apply (ex_RInt_continuous (V := R_CompleteNormedModule)); intros x _; apply C).
  assert (D : forall x, is_derive (RInt f 0) x (f x)).
  { intros x. apply (is_derive_RInt (V := R_NormedModule) f (RInt f 0) 0 x); [|apply C]. exists (mkposreal 1 Rlt_0_1). intros y _. apply (RInt_correct (V := R_CompleteNormedModule)). apply XI. }
  assert (CF : forall x, continuous (RInt f 0) x) by (intros x; apply (ex_derive_continuous (V := R_NormedModule)); eexists; apply D).
  apply (wint_val unit_open _ _ unit_convex unit_a unit_b (jacw 0 0) (jacw_cont 0 0) d f); [exact Hf|].
  exists (RInt f 0), (RInt f 0 (-1)), (RInt f 0 1). split; [|split; [|split]].
  - intros x Hx. unfold jacw, Rpower. rewrite !Rmult_0_l, exp_0, !Rmult_1_l. apply D.
  - intros P HP. apply (filter_le_within (F := locally (-1)) (fun u => -1 < u)). apply (CF (-1) P HP).
  - intros P HP. apply (filter_le_within (F := locally 1) (fun u => u < 1)). apply (CF 1 P HP).
  - rewrite <- (RInt_Chasles (V := R_CompleteNormedModule) f (-1) 0 1) by apply XI. rewrite <- (opp_RInt_swap (V := R_CompleteNormedModule)) by apply XI.
    change plus with Rplus. change opp with Ropp. simpl. match goal with |- ?a = ?b => change (@eq R a b) end. ring.
Qed.

Lemma lb_nz : forall i, lb i <> 0. Proof. intros i. pose proof (lb_pos i). lra. Qed.
Lemma leg_orth : forall n, orthogonal_up_to n (fun f => RInt f (-1) 1) (monic la lb).
Proof.
  intros n i k Hik _. rewrite <- (unit_weight (i + k)) by (apply poly_mul; apply monic_poly).
  apply (jacobi_orth 0 0 ltac:(lra) ltac:(lra) la lb); [unfold la; field|intros j; unfold la, Rdiv; ring|rewrite lb_sq; simpl INR; field| |lia].
  intros j. rewrite lb_sq. rewrite !S_INR. pose proof (pos_INR j). field. repeat split; nra.
Qed.
Lemma int_linear : linear_on_polynomials (fun f => RInt f (-1) 1).
Proof.
  intros d c e f g Hf Hg. rewrite <- !(unit_weight d) by (try assumption; apply poly_lin; assumption). apply (jacobi_linear 0 0 ltac:(lra) ltac:(lra) d); assumption.
Qed.
Lemma rule_exists : forall n, (1 <= n)%nat -> exists ps, gauss_rule n ps /\ List.Forall (fun xw => monic la lb n (fst xw) = 0 /\ snd xw = 2 / ksum n la lb (fst xw)) ps /\
  (forall x, monic la lb n x = 0 -> In x (map fst ps)).
Proof.
  intros n Hn. destruct (exact_solver_exists n la lb Hn (fun i _ => lb_nz i)) as (ext & So & Ex).
  destruct (gwx_ok ext n la lb 2 Hn Ex) as [ps HG]. exists ps.
  pose proof (fun i (_ : (i < n - 1)%nat) => lb_nz i) as Hb.
  split; [split; [|split]|split].
  - exact (gwx_length ext n la lb 2 ps Hn So Ex HG).
  - exact (gwx_ascending ext n la lb 2 ps Hn Hb So Ex HG).
  - apply (gwx_gauss ext n la lb 2 Hn Hb So Ex ps (fun f => RInt f (-1) 1) HG int_linear); [|apply leg_orth].
    rewrite RInt_const. match goal with |- ?a = ?b => change (@eq R a b) end. change scal with Rmult. simpl. unfold scal, mult. simpl. ring.
  - exact (gwx_roots ext n la lb 2 ps Hn Hb So Ex HG).
  - exact (gwx_all_roots ext n la lb 2 ps Hn Hb So Ex HG).
Qed.
Lemma rule_pos : forall n ps, (1 <= n)%nat -> List.Forall (fun xw => monic la lb n (fst xw) = 0 /\ snd xw = 2 / ksum n la lb (fst xw)) ps -> List.Forall (fun xw => 0 < snd xw) ps.
Proof. intros n ps Hn. apply List.Forall_impl. intros [x w] [_ ->]. cbn [fst snd]. pose proof (ksum_pos n la lb x Hn). apply Rdiv_lt_0_compat; lra. Qed.
(** every Gauss rule has the Legendre zeros as its nodes *)
Lemma rule_roots : forall n l, (1 <= n)%nat -> gauss_rule n l ->
  List.Forall (fun xw => monic la lb n (fst xw) = 0 /\ snd xw = 2 / ksum n la lb (fst xw)) l /\ (forall x, monic la lb n x = 0 -> In x (map fst l)).
Proof.
  intros n l Hn G. destruct (rule_exists n Hn) as (ps & G' & R & A). rewrite (rule_unique n l ps Hn G G' (rule_pos n ps Hn R)). split; assumption.
Qed.
