(** Exceptional values: NaN, infinities and zeros. *)
From Coq Require Import ZArith List Lia Reals Lra.
From Flocq Require Import Core IEEE754.Binary.
From Verif Require Import Arith F64 F64Spec F64Proof Machine Iter Rules Par NewtonCotes Chebyshev Hermite Laguerre Legendre Jacobi
  IntegrateSpec IntegrateProof GaussSpec GaussProof TraceProof NestSpec NestProof ExcSpec.
Import ListNotations.
Local Open Scope num_scope.

Section Shape.
Context {A : Arith}.
Definition products (vs ws : list A) : list A := map (fun vw => fst vw [*] snd vw) (combine vs ws).
Definition pts_of (q : quadrature A) : list A :=
  match q with
  | QMidpoint n a b => map (fun i => a [+] (b [-] a) [/] nofZ n [*] (lit_half [+] nofZ i)) (ints 0 (Z.to_nat n))
  | QTrapezoid n a b => [a; b] ++ map (fun i => a [+] nofZ i [*] ((b [-] a) [/] nofZ n)) (ints 1 (Z.to_nat (n - 1)))
  | QSimpson n a b => map (fun i => a [+] nofZ i [*] ((b [-] a) [/] nofZ n)) (ints 1 (Z.to_nat (n - 1)))
      ++ map (fun i => a [+] (lit2 [*] nofZ i [-] lit1) [*] ((b [-] a) [/] nofZ n) [/] lit2) (ints 1 (Z.to_nat (n - 1)))
      ++ [a [+] (lit2 [*] nofZ n [-] lit1) [*] ((b [-] a) [/] nofZ n) [/] lit2; a; b]
  | QLegendre r a b => map (to_interval a b) (map fst (legendre_pairs r))
  | QJacobi r a b => map (to_interval a b) (map fst (jacobi_pairs r))
  | QChebyshev1 r a b => map (to_interval a b) (map fst (chebyshev1_pairs r))
  | QChebyshev2 r a b => map (to_interval a b) (map fst (chebyshev2_pairs r))
  | QHermite r => map fst (hermite_pairs r)
  | QLaguerre r => map fst (laguerre_pairs r)
  end.

Definition shape (q : quadrature A) (s1 s2 : list A -> A) (vs : list A) : A :=
  match q with
  | QMidpoint n a b => s1 vs [*] ((b [-] a) [/] nofZ n)
  | QTrapezoid n a b => ((nth 0 vs a [+] nth 1 vs a) [/] lit2 [+] s1 (skipn 2 vs)) [*] ((b [-] a) [/] nofZ n)
  | QSimpson n a b => let k := Z.to_nat (n - 1) in let ends := skipn k (skipn k vs) in
      (b [-] a) [/] nofZ n [/] nlit 6 0 [*] (lit2 [*] s1 (firstn k vs) [+] nlit 4 0 [*] s2 (firstn k (skipn k vs)) [+] nlit 4 0 [*] nth 0 ends a [+] nth 1 ends a [+] nth 2 ends a)
  | QLegendre r a b => half_width a b [*] s1 (products vs (map snd (legendre_pairs r)))
  | QJacobi r a b => half_width a b [*] s1 (products vs (map snd (jacobi_pairs r)))
  | QChebyshev1 r a b => s1 (products vs (map snd (chebyshev1_pairs r))) [*] half_width a b
  | QChebyshev2 r a b => s1 (products vs (map snd (chebyshev2_pairs r))) [*] half_width a b
  | QHermite r => s1 (products vs (map snd (hermite_pairs r)))
  | QLaguerre r => s1 (products vs (map snd (laguerre_pairs r)))
  end.
Lemma simp_lengths : forall (n : Z) (f1 f2 : Z -> A), let k := Z.to_nat (n - 1) in length (map f1 (ints 1 k)) = k /\ length (map f2 (ints 1 k)) = k.
Proof. intros n f1 f2 k. unfold ints. rewrite !map_length, !seq_length. split; reflexivity. Qed.
Lemma run_shape : forall q : quadrature A, usable q -> calls_then q (pts_of q) (shape q float_sum float_sum).
Proof.
  intros q Hq. destruct q as [n a b|n a b|n a b|r a b|r a b|r a b|r a b|r|r]; cbn [usable] in Hq; unfold calls_then; cbn [run pts_of shape]; intros S f s.
  - rewrite midpoint_calls by exact Hq; cbv zeta; rewrite let_pair; reflexivity.
  - rewrite trapezoid_calls by exact Hq. cbv zeta. rewrite call_all_app. cbn [call_all].
    destruct (f s a) as [fa s1]. destruct (f s1 b) as [fb s2]. destruct (call_all f _ s2) as [vs s3]. reflexivity.
  - rewrite simpson_calls by exact Hq. cbv zeta. set (h := (b [-] a) [/] nofZ n). set (k := Z.to_nat (n - 1)).
    destruct (simp_lengths n (fun i => a [+] nofZ i [*] h) (fun i => a [+] (lit2 [*] nofZ i [-] lit1) [*] h [/] lit2)) as [L1 L2]. fold k in L1, L2.
    set (p1 := map (fun i => a [+] nofZ i [*] h) (ints 1 k)) in *. set (p2 := map (fun i => a [+] (lit2 [*] nofZ i [-] lit1) [*] h [/] lit2) (ints 1 k)) in *.
    rewrite call_all_app.
    pose proof (call_all_length _ _ _ f p1 s) as E1. destruct (call_all f p1 s) as [v1 s1]. cbn [fst] in E1. rewrite call_all_app.
    pose proof (call_all_length _ _ _ f p2 s1) as E2. destruct (call_all f p2 s1) as [v2 s2]. cbn [fst] in E2.
    destruct (call_all f _ s2) as [v3 s3]. cbn [fst snd]. rewrite L1 in E1. rewrite L2 in E2.
    rewrite (skipn_front _ k v1), (firstn_front _ k v1), (skipn_front _ k v2), (firstn_front _ k v2) by assumption. reflexivity.
  - rewrite legendre_calls, let_pair; reflexivity.
  - rewrite jacobi_calls, let_pair; reflexivity.
  - rewrite chebyshev1_calls, let_pair; reflexivity.
  - rewrite chebyshev2_calls, let_pair; reflexivity.
  - rewrite hermite_calls, let_pair; reflexivity.
  - rewrite laguerre_calls, let_pair; reflexivity.
Qed.
Lemma points_pts : forall q : quadrature A, usable q -> points q = pts_of q.
Proof. intros q Hq. unfold points. rewrite (run_shape q Hq), call_all_traced. reflexivity. Qed.
Definition psum (t : Sched) (vs : list A) : A := par_sum t (fun v => v) vs.
Lemma iter_sum_vals : forall X (f : X -> A) (l : list X), fst (iter_sum (fun (_ : unit) x => (f x, tt)) l tt) = float_sum (map f l).
Proof.
  intros X f l. unfold iter_sum, float_sum. generalize (@nnegzero A). induction l as [|x l IH]; intros acc; [reflexivity|]. cbn [map fold_left]. rewrite <- IH. reflexivity.
Qed.
Lemma psum_map : forall X (f : X -> A) t (l : list X), par_sum t f l = psum t (map f l).
Proof.
  intros X f t. unfold psum. induction t as [|m tl IHl tr IHr]; intros l; cbn [par_sum].
  - rewrite !iter_sum_vals, map_id. reflexivity.
  - rewrite IHl, IHr, firstn_map, skipn_map. reflexivity.
Qed.
Lemma gauss_products : forall (g p : A -> A) (l : list (A * A)),
  map (fun xw : A * A => let (x, w) := xw in g (p x) [*] w) l = products (map g (map p (map fst l))) (map snd l).
Proof. intros g p l. unfold products. induction l as [|[x w] l IH]; [reflexivity|]. cbn [map combine fst snd]. rewrite IH. reflexivity. Qed.
Lemma par_shape : forall t1 t2 (q : quadrature A) g, usable q -> par_run t1 t2 q g = shape q (psum t1) (psum t2) (map g (pts_of q)).
Proof.
  intros t1 t2 q g Hq. destruct q as [n a b|n a b|n a b|r a b|r a b|r a b|r a b|r|r]; cbn [usable] in Hq; cbn [par_run pts_of shape].
  - unfold midpoint_par_integrate. rewrite psum_map, map_map, zrange_ints. cbn [midpoint_degree midpoint_new]. rewrite Z.sub_0_r. reflexivity.
  - unfold trapezoid_par_integrate. rewrite psum_map, zrange_ints. cbn [trapezoid_degree trapezoid_new app map nth skipn]. rewrite map_map. reflexivity.
  - unfold simpson_par_integrate. rewrite !psum_map, !zrange_ints. cbn [simpson_degree simpson_new]. cbv zeta.
    set (h := (b [-] a) [/] nofZ n). set (k := Z.to_nat (n - 1)).
    destruct (simp_lengths n (fun i => a [+] nofZ i [*] h) (fun i => a [+] (lit2 [*] nofZ i [-] lit1) [*] h [/] lit2)) as [L1 L2]. fold k in L1, L2.
    rewrite !map_app. rewrite (firstn_front _ k), (skipn_front _ k) by (rewrite map_length; exact L1).
    rewrite (firstn_front _ k), (skipn_front _ k) by (rewrite map_length; exact L2). rewrite !map_map. reflexivity.
  - unfold legendre_par_integrate. rewrite psum_map, (gauss_products g (fun x => legendre_argument_transformation x a b)). reflexivity.
  - unfold jacobi_par_integrate. rewrite psum_map, (gauss_products g (fun x => jacobi_argument_transformation x a b)). reflexivity.
  - unfold chebyshev1_par_integrate. rewrite psum_map, (gauss_products g (fun x => chebyshev_argument_transformation x a b)). reflexivity.
  - unfold chebyshev2_par_integrate. rewrite psum_map, (gauss_products g (fun x => chebyshev_argument_transformation x a b)). reflexivity.
  - unfold hermite_par_integrate. rewrite psum_map, (gauss_products g (fun x => x)), map_id. reflexivity.
  - unfold laguerre_par_integrate. rewrite psum_map, (gauss_products g (fun x => x)), map_id. reflexivity.
Qed.
Lemma simp_split : forall n a b (vs : list A), length vs = length (pts_of (QSimpson n a b)) ->
  let k := Z.to_nat (n - 1) in exists x y z, skipn k (skipn k vs) = [x; y; z].
Proof.
  intros n a b vs L k. cbn [pts_of] in L. rewrite !app_length, !map_length in L. unfold ints in L. rewrite !map_length, !seq_length in L. cbn [length] in L.
  assert (L3 : length (skipn k (skipn k vs)) = 3%nat) by (rewrite !skipn_length; unfold k; lia).
  destruct (skipn k (skipn k vs)) as [|x [|y [|z [|]]]]; try discriminate. exists x, y, z. reflexivity.
Qed.
Lemma Forall_part : forall (P : A -> Prop) k l, Forall P l -> Forall P (firstn k l) /\ Forall P (skipn k l).
Proof. intros P k l H. apply Forall_app. rewrite firstn_skipn. exact H. Qed.
Lemma shape_same : forall (P : A -> Prop) (s1 s2 s1' s2' : list A -> A) q vs, (forall l, Forall P l -> s1 l = s1' l) -> (forall l, Forall P l -> s2 l = s2' l) ->
  Forall P vs -> Forall P (products vs (weights q)) -> shape q s1 s2 vs = shape q s1' s2' vs.
Proof.
  intros P s1 s2 s1' s2' q vs H1 H2 H W. destruct q as [n a b|n a b|n a b|r a b|r a b|r a b|r a b|r|r]; cbn [shape weights] in *; cbv zeta.
  3:{ destruct (Forall_part _ (Z.to_nat (n - 1)) vs H) as [H3 H4]. destruct (Forall_part _ (Z.to_nat (n - 1)) _ H4) as [H5 H6]. rewrite (H1 _ H3), (H2 _ H5). reflexivity. }
  2:{ destruct (Forall_part _ 2 vs H) as [H3 H4]. rewrite (H1 _ H4). reflexivity. }
  1: rewrite (H1 _ H); reflexivity.
  all: rewrite (H1 _ W); reflexivity.
Qed.
End Shape.

Section Exc.
Variable be : Backend.
Notation A := (F64 be).

Lemma nan_add : forall x y : A, fnan x \/ fnan y -> fnan (x [+] y).
Proof.
  intros x y H. unfold fnan in *. change (x [+] y) with (Bplus 53 1024 prec53 prec53_emax (F64.nan_add be) BinarySingleNaN.mode_NE x y).
  destruct x, y; destruct H as [H|H]; try discriminate H; unfold Bplus; apply is_nan_build_nan.
Qed.
Lemma nan_mul : forall x y : A, fnan x \/ fnan y -> fnan (x [*] y).
Proof.
  intros x y H. unfold fnan in *. change (x [*] y) with (Bmult 53 1024 prec53 prec53_emax (F64.nan_mul be) BinarySingleNaN.mode_NE x y).
  destruct x, y; destruct H as [H|H]; try discriminate H; unfold Bmult; apply is_nan_build_nan.
Qed.
Lemma nan_div : forall x y : A, fnan x -> fnan (x [/] y).
Proof.
  intros x y H. unfold fnan in *. change (x [/] y) with (Bdiv 53 1024 prec53 prec53_emax (F64.nan_div be) BinarySingleNaN.mode_NE x y).
  destruct x, y; try discriminate H; unfold Bdiv; apply is_nan_build_nan.
Qed.
Lemma fold_nan : forall (l : list A) (acc : A), fnan acc \/ Exists fnan l -> fnan (fold_left nadd l acc).
Proof.
  induction l as [|x l IH]; intros acc H; simpl.
  - destruct H as [H|H]; [exact H|inversion H].
  - apply IH. destruct H as [H|H]; [left; apply nan_add; left; exact H|]. inversion H; subst; [left; apply nan_add; right; assumption|right; assumption].
Qed.
Lemma float_sum_nan : forall l : list A, Exists fnan l -> fnan (float_sum l).
Proof. intros l H. apply fold_nan. right. exact H. Qed.
Lemma fold_fin : forall (l : list A) (acc : A), ffin (fold_left nadd l acc) -> ffin acc /\ Forall ffin l.
Proof.
  induction l as [|x l IH]; intros acc H; simpl in H; [split; [exact H|constructor]|].
  destruct (IH _ H) as [H1 H2]. destruct (add_finite_inv be _ _ H1) as (H3 & H4 & _). split; [exact H3|constructor; assumption].
Qed.
Lemma float_sum_fin : forall l : list A, ffin (float_sum l) -> Forall ffin l.
Proof. intros l H. apply (fold_fin l nnegzero H). Qed.
Lemma products_nan : forall vs ws : list A, length vs = length ws -> Exists fnan vs -> Exists fnan (products vs ws).
Proof.
  intros vs ws L H. revert ws L. induction H as [v vs H|v vs H IH]; intros [|w ws] L; try discriminate; simpl.
  - left. apply nan_mul. left. exact H.
  - right. apply IH. apply eq_add_S. exact L.
Qed.
Lemma products_fin : forall vs ws : list A, length vs = length ws -> Forall ffin (products vs ws) -> Forall ffin vs /\ Forall ffin ws.
Proof.
  intros vs ws L H. revert ws L H. induction vs as [|v vs IH]; intros [|w ws] L H; try discriminate; [split; constructor|].
  simpl in H. inversion H; subst. destruct (mul_finite_inv be _ _ H2) as (H4 & H5 & _). destruct (IH ws (eq_add_S _ _ L) H3). split; constructor; assumption.
Qed.
Lemma half_fin : forall a b : A, ffin (half_width a b) -> ffin a /\ ffin b.
Proof. intros a b H. unfold half_width in H. destruct (mul_finite_inv be _ _ H) as (_ & H1 & _). destruct (sub_finite_inv be _ _ H1) as (H2 & H3 & _). split; assumption. Qed.
Lemma step_fin : forall a b d : A, ffin ((b [-] a) [/] d) -> ffin a /\ ffin b.
Proof. intros a b d H. destruct (div_finite_inv be _ _ H) as (H1 & _). destruct (sub_finite_inv be _ _ H1) as (H2 & H3 & _). split; assumption. Qed.

Lemma two : forall x y : A, ffin x -> ffin y -> Forall ffin [x; y]. Proof. intros; repeat constructor; assumption. Qed.

(** the shapes of the results *)
Lemma trap_nan : forall (fa fb s h : A), fnan fa \/ fnan fb \/ fnan s -> fnan (((fa [+] fb) [/] lit2 [+] s) [*] h).
Proof.
  intros fa fb s h H. apply nan_mul. left. apply nan_add. destruct H as [H|[H|H]].
  - left. apply nan_div, nan_add. left. exact H.
  - left. apply nan_div, nan_add. right. exact H.
  - right. exact H.
Qed.
Lemma trap_fin : forall (fa fb s h : A), ffin (((fa [+] fb) [/] lit2 [+] s) [*] h) -> ffin fa /\ ffin fb /\ ffin s /\ ffin h.
Proof.
  intros fa fb s h H. destruct (mul_finite_inv be _ _ H) as (H1 & H2 & _). destruct (add_finite_inv be _ _ H1) as (H3 & H4 & _).
  destruct (div_finite_inv be _ _ H3) as (H5 & _). destruct (add_finite_inv be _ _ H5) as (H6 & H7 & _). repeat split; assumption.
Qed.
Lemma simp_nan : forall (h s1 s2 l fa fb : A), fnan s1 \/ fnan s2 \/ fnan l \/ fnan fa \/ fnan fb ->
  fnan (h [/] nlit 6 0 [*] (lit2 [*] s1 [+] nlit 4 0 [*] s2 [+] nlit 4 0 [*] l [+] fa [+] fb)).
Proof.
  intros h s1 s2 l fa fb H. apply nan_mul. right. destruct H as [H|[H|[H|[H|H]]]].
  - apply nan_add; left. apply nan_add; left. apply nan_add; left. apply nan_add; left. apply nan_mul; right. exact H.
  - apply nan_add; left. apply nan_add; left. apply nan_add; left. apply nan_add; right. apply nan_mul; right. exact H.
  - apply nan_add; left. apply nan_add; left. apply nan_add; right. apply nan_mul; right. exact H.
  - apply nan_add; left. apply nan_add; right. exact H.
  - apply nan_add; right. exact H.
Qed.
Lemma simp_fin : forall (h s1 s2 l fa fb : A), ffin (h [/] nlit 6 0 [*] (lit2 [*] s1 [+] nlit 4 0 [*] s2 [+] nlit 4 0 [*] l [+] fa [+] fb)) ->
  ffin h /\ ffin s1 /\ ffin s2 /\ ffin l /\ ffin fa /\ ffin fb.
Proof.
  intros h s1 s2 l fa fb H. destruct (mul_finite_inv be _ _ H) as (H1 & H2 & _). destruct (div_finite_inv be _ _ H1) as (H3 & _).
  destruct (add_finite_inv be _ _ H2) as (H4 & H5 & _). destruct (add_finite_inv be _ _ H4) as (H6 & H7 & _). destruct (add_finite_inv be _ _ H6) as (H8 & H9 & _).
  destruct (add_finite_inv be _ _ H8) as (H10 & H11 & _). destruct (mul_finite_inv be _ _ H9) as (_ & H12 & _). destruct (mul_finite_inv be _ _ H10) as (_ & H13 & _). destruct (mul_finite_inv be _ _ H11) as (_ & H14 & _).
  repeat split; assumption.
Qed.
Lemma exists_three : forall (x y z : A), Exists fnan [x; y; z] -> fnan x \/ fnan y \/ fnan z.
Proof. intros x y z H. inversion H; subst; [tauto|]. inversion H1; subst; [tauto|]. inversion H2; subst; [tauto|]. inversion H3. Qed.


Definition noisy (s : list A -> A) : Prop := forall l, Exists fnan l -> fnan (s l).
Definition bounded (s : list A -> A) : Prop := forall l, ffin (s l) -> Forall ffin l.
Lemma rayon_nan : forall x y : A, fnan x \/ fnan y -> fnan (rayon_add x y).
Proof. intros x y [H|H]; unfold rayon_add; apply nan_add; [left; apply nan_add; right; exact H|right; exact H]. Qed.
Lemma rayon_fin : forall x y : A, ffin (rayon_add x y) -> ffin x /\ ffin y.
Proof. intros x y H. unfold rayon_add in H. destruct (add_finite_inv be _ _ H) as (H1 & H2 & _). destruct (add_finite_inv be _ _ H1) as (_ & H3 & _). split; assumption. Qed.
Lemma psum_noisy : forall t, noisy (psum t).
Proof.
  unfold psum. induction t as [|m tl IHl tr IHr]; intros l H; cbn [par_sum]; apply rayon_nan.
  - right. rewrite iter_sum_vals, map_id. apply float_sum_nan, H.
  - rewrite <- (firstn_skipn m l) in H. apply Exists_app in H. destruct H as [H|H]; [left; apply IHl, H|right; apply IHr, H].
Qed.
Lemma psum_bounded : forall t, bounded (psum t).
Proof.
  unfold psum. induction t as [|m tl IHl tr IHr]; intros l H; cbn [par_sum] in H; destruct (rayon_fin _ _ H) as [H1 H2].
  - rewrite iter_sum_vals, map_id in H2. apply float_sum_fin, H2.
  - rewrite <- (firstn_skipn m l). apply Forall_app. split; [apply IHl, H1|apply IHr, H2].
Qed.
Lemma shape_nan : forall q s1 s2 vs, noisy s1 -> noisy s2 -> length vs = length (pts_of q) -> Exists fnan vs -> fnan (shape q s1 s2 vs).
Proof.
  intros q s1 s2 vs N1 N2 L H. destruct q as [n a b|n a b|n a b|r a b|r a b|r a b|r a b|r|r].
  3:{ destruct (simp_split n a b vs L) as (x & y & z & E). cbn [shape]. cbv zeta. rewrite E. cbn [nth]. set (k := Z.to_nat (n - 1)) in *.
      apply simp_nan. rewrite <- (firstn_skipn k vs) in H. apply Exists_app in H. destruct H as [H|H]; [left; apply N1, H|].
      rewrite <- (firstn_skipn k (skipn k vs)) in H. apply Exists_app in H. destruct H as [H|H]; [right; left; apply N2, H|].
      assert (H' : Exists fnan [x; y; z]) by (rewrite <- E; exact H). apply exists_three in H'. tauto. }
  2:{ cbn [shape]. destruct vs as [|fa [|fb vs]]; try (simpl in L; discriminate). cbn [nth skipn].
      apply trap_nan. inversion H; subst; [tauto|]. inversion H1; subst; [tauto|]. right; right. apply N1. assumption. }
  - apply nan_mul; left. apply N1, H.
  - cbn [shape pts_of] in *. rewrite !map_length in L. apply nan_mul; right. apply N1, products_nan; [rewrite map_length; exact L|exact H].
  - cbn [shape pts_of] in *. rewrite !map_length in L. apply nan_mul; right. apply N1, products_nan; [rewrite map_length; exact L|exact H].
  - cbn [shape pts_of] in *. rewrite !map_length in L. apply nan_mul; left. apply N1, products_nan; [rewrite map_length; exact L|exact H].
  - cbn [shape pts_of] in *. rewrite !map_length in L. apply nan_mul; left. apply N1, products_nan; [rewrite map_length; exact L|exact H].
  - cbn [shape pts_of] in *. rewrite !map_length in L. apply N1, products_nan; [rewrite map_length; exact L|exact H].
  - cbn [shape pts_of] in *. rewrite !map_length in L. apply N1, products_nan; [rewrite map_length; exact L|exact H].
Qed.
Lemma shape_fin : forall q s1 s2 vs, bounded s1 -> bounded s2 -> length vs = length (pts_of q) -> ffin (shape q s1 s2 vs) ->
  Forall ffin vs /\ Forall ffin (bounds q) /\ Forall ffin (weights q).
Proof.
  intros q s1 s2 vs N1 N2 L H. destruct q as [n a b|n a b|n a b|r a b|r a b|r a b|r a b|r|r].
  3:{ destruct (simp_split n a b vs L) as (x & y & z & E). cbn [shape] in H. cbv zeta in H. rewrite E in H. cbn [nth] in H. set (k := Z.to_nat (n - 1)) in *.
      destruct (simp_fin _ _ _ _ _ _ H) as (H0 & H1 & H2 & H3 & H4 & H5). apply N1 in H1. apply N2 in H2. split; [|split; [apply two; apply (step_fin _ _ _ H0)|constructor]].
      rewrite <- (firstn_skipn k vs). apply Forall_app. split; [exact H1|]. rewrite <- (firstn_skipn k (skipn k vs)). apply Forall_app. split; [exact H2|].
      assert (H' : Forall ffin [x; y; z]) by (repeat constructor; assumption). rewrite <- E in H'. exact H'. }
  2:{ cbn [shape] in H. destruct vs as [|fa [|fb vs]]; try (simpl in L; discriminate). cbn [nth skipn] in H.
      destruct (trap_fin _ _ _ _ H) as (H1 & H2 & H3 & H4). apply N1 in H3. split; [repeat constructor; assumption|]. split; [apply two; apply (step_fin _ _ _ H4)|constructor]. }
  - cbn [shape bounds weights] in *. destruct (mul_finite_inv be _ _ H) as (H1 & H2 & _). split; [apply N1, H1|]. split; [apply two; apply (step_fin _ _ _ H2)|constructor].
  - cbn [shape pts_of bounds weights] in *. rewrite !map_length in L. destruct (mul_finite_inv be _ _ H) as (H1 & H2 & _). apply N1, products_fin in H2; [|rewrite map_length; exact L].
    split; [apply H2|]. split; [apply two; apply (half_fin _ _ H1)|apply H2].
  - cbn [shape pts_of bounds weights] in *. rewrite !map_length in L. destruct (mul_finite_inv be _ _ H) as (H1 & H2 & _). apply N1, products_fin in H2; [|rewrite map_length; exact L].
    split; [apply H2|]. split; [apply two; apply (half_fin _ _ H1)|apply H2].
  - cbn [shape pts_of bounds weights] in *. rewrite !map_length in L. destruct (mul_finite_inv be _ _ H) as (H2 & H1 & _). apply N1, products_fin in H2; [|rewrite map_length; exact L].
    split; [apply H2|]. split; [apply two; apply (half_fin _ _ H1)|apply H2].
  - cbn [shape pts_of bounds weights] in *. rewrite !map_length in L. destruct (mul_finite_inv be _ _ H) as (H2 & H1 & _). apply N1, products_fin in H2; [|rewrite map_length; exact L].
    split; [apply H2|]. split; [apply two; apply (half_fin _ _ H1)|apply H2].
  - cbn [shape pts_of bounds weights] in *. rewrite !map_length in L. apply N1, products_fin in H; [|rewrite map_length; exact L]. split; [apply H|]. split; [constructor|apply H].
  - cbn [shape pts_of bounds weights] in *. rewrite !map_length in L. apply N1, products_fin in H; [|rewrite map_length; exact L]. split; [apply H|]. split; [constructor|apply H].
Qed.

Lemma run_nan : forall (q : quadrature A) (S : Type) (f : S -> A -> A * S) s, usable q ->
  Exists fnan (fst (call_all f (points q) s)) -> fnan (fst (run q f s)).
Proof.
  intros q S f s Hq H. rewrite (points_pts q Hq) in H. rewrite (run_shape q Hq). cbn [fst].
  apply shape_nan; [intros l; apply float_sum_nan|intros l; apply float_sum_nan|apply call_all_length|exact H].
Qed.
Lemma run_finite : forall (q : quadrature A) (S : Type) (f : S -> A -> A * S) s, usable q -> ffin (fst (run q f s)) ->
  Forall ffin (fst (call_all f (points q) s)) /\ Forall ffin (bounds q) /\ Forall ffin (weights q).
Proof.
  intros q S f s Hq H. rewrite (points_pts q Hq). rewrite (run_shape q Hq) in H. cbn [fst] in H.
  apply (shape_fin q float_sum float_sum); [intros l; apply float_sum_fin|intros l; apply float_sum_fin|apply call_all_length|exact H].
Qed.
Lemma par_nan : forall t1 t2 (q : quadrature A) g, usable q -> Exists fnan (map g (points q)) -> fnan (par_run t1 t2 q g).
Proof.
  intros t1 t2 q g Hq H. rewrite (points_pts q Hq) in H. rewrite (par_shape _ _ q g Hq).
  apply shape_nan; [apply psum_noisy|apply psum_noisy|apply map_length|exact H].
Qed.
Lemma par_finite : forall t1 t2 (q : quadrature A) g, usable q -> ffin (par_run t1 t2 q g) ->
  Forall ffin (map g (points q)) /\ Forall ffin (bounds q) /\ Forall ffin (weights q).
Proof.
  intros t1 t2 q g Hq H. rewrite (points_pts q Hq). rewrite (par_shape _ _ q g Hq) in H.
  apply (shape_fin q (psum t1) (psum t2)); [apply psum_bounded|apply psum_bounded|apply map_length|exact H].
Qed.

(** zeros *)
Lemma fzero_sign : forall x : A, fzero x -> exists s, x = B754_zero 53 1024 s.
Proof.
  intros x [H1 H2]. destruct x as [s|s|s p H|s m e H]; try discriminate H1; [exists s; reflexivity|]. exfalso.
  unfold fval in H2. simpl in H2. apply Float_prop.eq_0_F2R in H2. destruct s; discriminate H2.
Qed.
Lemma zero_add : forall s t, @nadd A (B754_zero 53 1024 s) (B754_zero 53 1024 t) = B754_zero 53 1024 (s && t).
Proof. intros [] []; reflexivity. Qed.
Definition signs (l : list A) : bool := forallb (fun x => Bsign 53 1024 x) l.
Lemma fold_zero : forall (l : list A) s, Forall fzero l -> fold_left nadd l (B754_zero 53 1024 s : A) = B754_zero 53 1024 (s && signs l).
Proof.
  induction l as [|x l IH]; intros s H; [simpl; rewrite Bool.andb_true_r; reflexivity|]. inversion H; subst. destruct (fzero_sign x H2) as [t ->].
  cbn [fold_left]. rewrite zero_add, IH by assumption. cbn [signs forallb]. f_equal. rewrite <- Bool.andb_assoc. reflexivity.
Qed.
Lemma float_sum_zero : forall l : list A, Forall fzero l -> float_sum l = B754_zero 53 1024 (signs l).
Proof. intros l H. unfold float_sum. change (@nnegzero A) with (B754_zero 53 1024 true). rewrite (fold_zero l true H). reflexivity. Qed.
Lemma psum_zero : forall t (l : list A), Forall fzero l -> psum t l = B754_zero 53 1024 (signs l).
Proof.
  unfold psum. induction t as [|m tl IHl tr IHr]; intros l H; cbn [par_sum]; unfold rayon_add; change (@nnegzero A) with (B754_zero 53 1024 true).
  - rewrite iter_sum_vals, map_id, (float_sum_zero l H), !zero_add. reflexivity.
  - assert (H' : Forall fzero (firstn m l ++ skipn m l)) by (rewrite firstn_skipn; exact H). apply Forall_app in H'. destruct H' as [H1 H2].
    rewrite IHl, IHr by assumption. rewrite !zero_add. f_equal. rewrite <- (firstn_skipn m l) at 3. unfold signs. rewrite forallb_app. reflexivity.
Qed.
Lemma zero_mul : forall x y : A, fzero x -> ffin y -> fzero (x [*] y).
Proof.
  intros x y Hx Hy. destruct (fzero_sign x Hx) as [s ->]. destruct y as [t|t|t p H|t m e H]; try discriminate Hy; split; reflexivity.
Qed.
Lemma products_zero : forall vs ws : list A, Forall fzero vs -> Forall ffin ws -> Forall fzero (products vs ws).
Proof.
  unfold products. induction vs as [|v vs IH]; intros [|w ws] H1 H2; try constructor; inversion H1; inversion H2; subst; [apply zero_mul|apply IH]; assumption.
Qed.
Lemma zeros_same : forall t (l : list A), Forall fzero l -> psum t l = float_sum l.
Proof. intros t l H. rewrite (psum_zero t l H), (float_sum_zero l H). reflexivity. Qed.
Lemma par_zero : forall t1 t2 (q : quadrature A) g, usable q -> Forall fzero (map g (points q)) -> Forall ffin (weights q) -> par_run t1 t2 q g = value q g.
Proof.
  intros t1 t2 q g Hq H W. rewrite (points_pts q Hq) in H. rewrite (par_shape _ _ q g Hq). unfold value. rewrite (run_shape q Hq), call_all_pure. cbn [fst].
  apply (shape_same (A := A) fzero); [intros l; apply zeros_same|intros l; apply zeros_same|exact H|apply products_zero; assumption].
Qed.
End Exc.
