(** Double and higher integrals. *)
From Coq Require Import ZArith List Lia Reals Lra FunctionalExtensionality.
From Coquelicot Require Import Coquelicot.
From Verif Require Import Arith RInst RInstProof RSum Machine Iter Rules NewtonCotes Chebyshev Hermite Laguerre Legendre Jacobi
  IntegrateSpec IntegrateProof GaussSpec GaussProof NCSpec NCExact RuleSpec TraceProof PolySpec PolyProof OrthoProof TransferProof NestSpec
  LegShape LegPoly LegInt.
Import ListNotations.
Local Open Scope num_scope.

Lemma firstn_front : forall (X : Type) k (l m : list X), length l = k -> firstn k (l ++ m) = l.
Proof. intros X k l m <-. rewrite firstn_app, firstn_all, Nat.sub_diag. apply app_nil_r. Qed.
Lemma skipn_front : forall (X : Type) k (l m : list X), length l = k -> skipn k (l ++ m) = m.
Proof. intros X k l m <-. rewrite skipn_app, skipn_all, Nat.sub_diag. reflexivity. Qed.
Section Calls.
Context {A : Arith}.
Definition calls_then (q : quadrature A) (pts : list A) (comb : list A -> A) : Prop :=
  forall (S : Type) (f : S -> A -> A * S) s, run q f s = (comb (fst (call_all f pts s)), snd (call_all f pts s)).
Lemma let_pair : forall (X Y Z : Type) (p : X * Y) (h : X -> Z), (let '(x, y) := p in (h x, y)) = (h (fst p), snd p).
Proof. intros X Y Z [x y] h. reflexivity. Qed.
Lemma run_calls : forall q : quadrature A, usable q -> exists pts comb, calls_then q pts comb /\ length pts = evaluations q.
Proof.
  intros q Hq. destruct q as [n a b|n a b|n a b|r a b|r a b|r a b|r a b|r|r]; cbn [usable] in Hq; unfold calls_then; cbn [run evaluations].
  - eexists _, (fun vs => float_sum vs [*] ((b [-] a) [/] nofZ n)). split; [intros S f s; rewrite midpoint_calls by exact Hq; cbv zeta; rewrite let_pair; reflexivity|].
    rewrite map_length. unfold ints. rewrite map_length, seq_length. reflexivity.
  - exists ([a; b] ++ map (fun i => a [+] nofZ i [*] ((b [-] a) [/] nofZ n)) (ints 1 (Z.to_nat (n - 1)))).
    exists (fun vs => ((nth 0 vs a [+] nth 1 vs a) [/] lit2 [+] float_sum (skipn 2 vs)) [*] ((b [-] a) [/] nofZ n)). split.
    + intros S f s. rewrite trapezoid_calls by exact Hq. cbv zeta. rewrite call_all_app. cbn [call_all].
      destruct (f s a) as [fa s1]. destruct (f s1 b) as [fb s2]. destruct (call_all f _ s2) as [vs s3]. reflexivity.
    + rewrite app_length, map_length. unfold ints. rewrite map_length, seq_length. simpl length. lia.
  - set (h := (b [-] a) [/] nofZ n). set (k := Z.to_nat (n - 1)).
    set (p1 := map (fun i => a [+] nofZ i [*] h) (ints 1 k)). set (p2 := map (fun i => a [+] (lit2 [*] nofZ i [-] lit1) [*] h [/] lit2) (ints 1 k)).
    assert (L1 : length p1 = k) by (unfold p1, ints; rewrite !map_length, seq_length; reflexivity).
    assert (L2 : length p2 = k) by (unfold p2, ints; rewrite !map_length, seq_length; reflexivity).
    exists (p1 ++ p2 ++ [a [+] (lit2 [*] nofZ n [-] lit1) [*] h [/] lit2; a; b]).
    exists (fun vs => let ends := skipn k (skipn k vs) in h [/] nlit 6 0 [*] (lit2 [*] float_sum (firstn k vs) [+] nlit 4 0 [*] float_sum (firstn k (skipn k vs))
      [+] nlit 4 0 [*] nth 0 ends a [+] nth 1 ends a [+] nth 2 ends a)). split.
    + intros S f s. rewrite simpson_calls by exact Hq. cbv zeta. fold h k p1 p2. rewrite call_all_app.
      pose proof (call_all_length _ _ _ f p1 s) as E1. destruct (call_all f p1 s) as [v1 s1]. cbn [fst] in E1. rewrite call_all_app.
      pose proof (call_all_length _ _ _ f p2 s1) as E2. destruct (call_all f p2 s1) as [v2 s2]. cbn [fst] in E2.
      destruct (call_all f _ s2) as [v3 s3]. cbn [fst snd]. rewrite L1 in E1. rewrite L2 in E2.
      rewrite (skipn_front _ k v1), (firstn_front _ k v1), (skipn_front _ k v2), (firstn_front _ k v2) by assumption. reflexivity.
    + rewrite !app_length, L1, L2. simpl length. unfold k. lia.
  - eexists _, (fun vs => half_width a b [*] weighted_sum vs (map snd (legendre_pairs r))). split; [intros S f s; rewrite legendre_calls, let_pair; reflexivity|]. rewrite !map_length. reflexivity.
  - eexists _, (fun vs => half_width a b [*] weighted_sum vs (map snd (jacobi_pairs r))). split; [intros S f s; rewrite jacobi_calls, let_pair; reflexivity|]. rewrite !map_length. reflexivity.
  - eexists _, (fun vs => weighted_sum vs (map snd (chebyshev1_pairs r)) [*] half_width a b). split; [intros S f s; rewrite chebyshev1_calls, let_pair; reflexivity|]. rewrite !map_length. reflexivity.
  - eexists _, (fun vs => weighted_sum vs (map snd (chebyshev2_pairs r)) [*] half_width a b). split; [intros S f s; rewrite chebyshev2_calls, let_pair; reflexivity|]. rewrite !map_length. reflexivity.
  - eexists _, (fun vs => weighted_sum vs (map snd (hermite_pairs r))). split; [intros S f s; rewrite hermite_calls, let_pair; reflexivity|]. rewrite !map_length. reflexivity.
  - eexists _, (fun vs => weighted_sum vs (map snd (laguerre_pairs r))). split; [intros S f s; rewrite laguerre_calls, let_pair; reflexivity|]. rewrite !map_length. reflexivity.
Qed.
Lemma run_points : forall q : quadrature A, usable q -> exists comb, calls_then q (points q) comb /\ length (points q) = evaluations q.
Proof.
  intros q Hq. destruct (run_calls q Hq) as (pts & comb & H & L). exists comb.
  assert (E : points q = pts). { unfold points. rewrite H, call_all_traced. reflexivity. }
  rewrite E. split; assumption.
Qed.
Lemma call_all_pure : forall (g : A -> A) pts, call_all (pure g) pts tt = (map g pts, tt).
Proof. intros g pts. induction pts as [|x pts IH]; [reflexivity|]. cbn [call_all pure map]. rewrite IH. reflexivity. Qed.
Lemma points_length : forall q : quadrature A, usable q -> length (points q) = evaluations q.
Proof. intros q Hq. destruct (run_points q Hq) as (c & _ & L). exact L. Qed.

Definition all_usable (qs : list (list A -> quadrature A)) : Prop := forall q xs, In q qs -> usable (q xs).
Theorem nested_state : forall (S : Type) qs (f : S -> list A -> A * S) xs s, all_usable qs ->
  snd (nested qs f xs s) = snd (call_all f (grid qs xs) s).
Proof.
  intros S qs f. induction qs as [|q qs IH]; intros xs s U; cbn [nested grid].
  - cbn [call_all]. destruct (f s xs) as [v s']. reflexivity.
  - destruct (run_points (q xs) (U q xs (or_introl eq_refl))) as (comb & H & _). rewrite H. cbn [snd].
    assert (U' : all_usable qs) by (intros p ys Hp; apply U; right; exact Hp). generalize (points (q xs)). clear H comb. intros pts. revert s.
    induction pts as [|x pts IHp]; intros s; [reflexivity|]. cbn [call_all flat_map]. rewrite call_all_app.
    specialize (IH (xs ++ [x]) s U'). destruct (nested qs f (xs ++ [x]) s) as [v s1]. cbn [snd] in IH. destruct (call_all f (grid qs (xs ++ [x])) s) as [vs s1']. cbn [snd] in IH. subst s1'.
    specialize (IHp s1). destruct (call_all _ pts s1) as [us s2]. cbn [snd] in IHp. destruct (call_all f _ s1) as [ws s2']. cbn [snd] in *. exact IHp.
Qed.
Theorem nested_traced : forall qs (g : list A -> A) xs tr, all_usable qs ->
  nested qs (traced g) xs tr = (iterated qs g xs, tr ++ grid qs xs).
Proof.
  intros qs g. induction qs as [|q qs IH]; intros xs tr U; cbn [nested iterated grid]; [reflexivity|].
  destruct (run_points (q xs) (U q xs (or_introl eq_refl))) as (comb & H & _). unfold value. rewrite !H, call_all_pure. cbn [fst].
  assert (U' : all_usable qs) by (intros p ys Hp; apply U; right; exact Hp).
  assert (C : forall pts tr, call_all (fun s x => nested qs (traced g) (xs ++ [x]) s) pts tr =
    (map (fun x => iterated qs g (xs ++ [x])) pts, tr ++ flat_map (fun x => grid qs (xs ++ [x])) pts)).
  { induction pts as [|x pts IHp]; intros tr'; cbn [call_all map flat_map]; [rewrite app_nil_r; reflexivity|].
    rewrite (IH _ _ U'), IHp, app_assoc. reflexivity. }
  rewrite C. reflexivity.
Qed.
Theorem grid_length : forall qs (ms : list nat) xs, all_usable qs -> length ms = length qs ->
  (forall i ys, (i < length qs)%nat -> exists q, nth_error qs i = Some q /\ evaluations (q ys) = nth i ms 0%nat) ->
  length (grid qs xs) = fold_right Nat.mul 1%nat ms.
Proof.
  intros qs. induction qs as [|q qs IH]; intros [|m ms] xs U L H; try discriminate; cbn [grid fold_right]; [reflexivity|].
  assert (U' : all_usable qs) by (intros p ys Hp; apply U; right; exact Hp).
  destruct (H 0%nat xs ltac:(simpl; lia)) as (q0 & E0 & Em). cbn [nth_error nth] in E0, Em. injection E0 as <-.
  assert (IH' : forall ys, length (grid qs ys) = fold_right Nat.mul 1%nat ms).
  { intros ys. apply IH; [exact U'|injection L; auto|]. intros i zs Hi. apply (H (S i) zs). simpl. lia. }
  rewrite <- Em, <- (points_length (q xs) (U q xs (or_introl eq_refl))). generalize (points (q xs)). intros pts. induction pts as [|x pts IHp]; [reflexivity|].
  cbn [flat_map length]. rewrite app_length, IH', IHp. lia.
Qed.
End Calls.

Local Open Scope R_scope.
(** * Exact arithmetic *)
Ltac eqR := match goal with |- @eq _ ?a ?b => change (@eq R a b) end.
Ltac fext := let x := fresh "x" in extensionality x; eqR; ring.
Lemma value_linear : forall (q : quadrature RA) c d f g, usable q ->
  value q (fun x => c * f x + d * g x) = c * value q f + d * value q g.
Proof.
  intros q c d f g Hq. pose proof (gauss_linear c d f g) as (G1 & G2 & G3 & G4 & G5 & G6).
  destruct q as [n a b|n a b|n a b|r a b|r a b|r a b|r a b|r|r]; cbn [usable] in Hq; unfold value; cbn [run].
  - rewrite <- (Z2Nat.id n) by lia. apply (midpoint_linear (Z.to_nat n) a b c d f g). lia.
  - rewrite <- (Z2Nat.id n) by lia. apply (trapezoid_linear (Z.to_nat n) a b c d f g). lia.
  - rewrite <- (Z2Nat.id n) by lia. apply (simpson_linear (Z.to_nat n) a b c d f g). lia.
  - apply G1.
  - apply G2.
  - apply G3.
  - apply G4.
  - apply G5.
  - apply G6.
Qed.
Lemma value_scal : forall (q : quadrature RA) c f, usable q -> value q (fun x => c * f x) = c * value q f.
Proof.
  intros q c f Hq. pose proof (value_linear q c 0 f f Hq) as H. replace (fun x => c * f x + 0 * f x) with (fun x => c * f x) in H by fext. rewrite H. eqR. ring.
Qed.
Lemma value_plus : forall (q : quadrature RA) f g, usable q -> value q (fun x => f x + g x) = value q f + value q g.
Proof.
  intros q f g Hq. pose proof (value_linear q 1 1 f g Hq) as H. replace (fun x => 1 * f x + 1 * g x) with (fun x => f x + g x) in H by fext. rewrite H. eqR. ring.
Qed.
Lemma value_0 : forall (q : quadrature RA), usable q -> value q (fun _ => 0) = 0.
Proof. intros q Hq. transitivity (value q (fun _ => 0 * 0)); [f_equal; fext|]. rewrite (value_scal q 0 (fun _ => 0) Hq). eqR. ring. Qed.
Lemma value_rsum : forall (q : quadrature RA) k (f : nat -> R -> R), usable q -> value q (fun x => rsum k (fun i => f i x)) = rsum k (fun i => value q (f i)).
Proof.
  intros q k f Hq. induction k as [|k IH]; [apply value_0; exact Hq|]. rewrite rsum_S, <- IH.
  replace (fun x => rsum (S k) (fun i => f i x)) with (fun x => rsum k (fun i => f i x) + f k x) by (extensionality x; rewrite rsum_S; reflexivity).
  apply value_plus. exact Hq.
Qed.
Lemma iterated_plus : forall (qs : list (list RA -> quadrature RA)) f g xs, all_usable qs ->
  iterated qs (fun ys => f ys + g ys) xs = iterated qs f xs + iterated qs g xs.
Proof.
  intros qs f g. induction qs as [|q qs IH]; intros xs U; cbn [iterated]; [reflexivity|].
  rewrite <- value_plus by (apply U; left; reflexivity). f_equal. extensionality x. apply IH. intros p ys Hp. apply U. right. exact Hp.
Qed.
Lemma iterated_0 : forall (qs : list (list RA -> quadrature RA)) xs, all_usable qs -> iterated qs (fun _ => 0) xs = 0.
Proof.
  intros qs. induction qs as [|q qs IH]; intros xs U; cbn [iterated]; [reflexivity|].
  transitivity (value (q xs) (fun _ => 0)); [|apply value_0, U; left; reflexivity]. f_equal. extensionality x. apply IH. intros p ys Hp. apply U. right. exact Hp.
Qed.
Lemma fixed_usable : forall qs : list (quadrature RA), List.Forall usable qs -> all_usable (fixed qs).
Proof. intros qs H q xs Hq. unfold fixed in Hq. apply in_map_iff in Hq. destruct Hq as (p & <- & Hp). apply (proj1 (List.Forall_forall _ _) H). exact Hp. Qed.
Lemma combine_snoc : forall (X Y : Type) (l : list X) (m : list Y) x y, length l = length m -> combine (l ++ [x]) (m ++ [y]) = combine l m ++ [(x, y)].
Proof. intros X Y l. induction l as [|a l IH]; intros [|b m] x y L; try discriminate; [reflexivity|]. cbn [app combine]. f_equal. apply IH. injection L. auto. Qed.
Lemma product_app : forall l m, product (l ++ m) = product l * product m.
Proof. intros l m. unfold product. induction l as [|x l IH]; cbn [app fold_right]; [ring|rewrite IH; ring]. Qed.
Lemma combine_app_nil : forall (X Y : Type) (l m : list X) (n : list Y), length l = length n -> combine (l ++ m) n = combine l n.
Proof. intros X Y l. induction l as [|a l IH]; intros m [|b n] L; try discriminate; [destruct m; reflexivity|]. cbn [app combine]. f_equal. apply IH. injection L. auto. Qed.
Lemma product_function_snoc : forall ps p xs x, length ps = length xs -> product_function (ps ++ [p]) (xs ++ [x]) = product_function ps xs * p x.
Proof. intros ps p xs x L. unfold product_function. rewrite combine_snoc by exact L. rewrite map_app, product_app. unfold product at 2. cbn [map fold_right fst snd]. ring. Qed.
Lemma swap3 : forall a b c : R, a * b * c = a * c * b.
Proof. intros. ring. Qed.
Theorem iterated_product : forall (qs : list (quadrature RA)) (ps0 ps : list (R -> R)) xs, List.Forall usable qs -> length ps0 = length xs -> length ps = length qs ->
  iterated (fixed qs) (product_function (ps0 ++ ps)) xs = product_function ps0 xs * product (map (fun qp => value (fst qp) (snd qp)) (combine qs ps)).
Proof.
  intros qs. induction qs as [|q qs IH]; intros ps0 [|p ps] xs U L0 L; try discriminate.
  - cbn [fixed map iterated combine]. rewrite app_nil_r. unfold product at 1. cbn [fold_right]. eqR; ring.
  - inversion U as [|q' qs' U1 U2]; subst. cbn [fixed map iterated combine]. fold (fixed qs).
    assert (E : forall x, iterated (fixed qs) (product_function (ps0 ++ p :: ps)) (xs ++ [x]) =
      (product_function ps0 xs * product (map (fun qp => value (fst qp) (snd qp)) (combine qs ps))) * p x).
    { intros x. replace (ps0 ++ p :: ps) with ((ps0 ++ [p]) ++ ps) by (rewrite <- app_assoc; reflexivity).
      rewrite IH; [|exact U2|rewrite !app_length; cbn [length]; f_equal; exact L0|injection L; auto]. match goal with |- product_function _ _ * ?c = _ => exact (eq_trans (f_equal (fun z => z * c) (product_function_snoc ps0 p xs x L0)) (swap3 _ _ _)) end. }
    set (K := product_function ps0 xs) in *. set (P := product (map (fun qp => value (fst qp) (snd qp)) (combine qs ps))) in *.
    transitivity (value q (fun x => (K * P) * p x)); [f_equal; extensionality x; apply E|]. rewrite (value_scal q (K * P) p U1).
    unfold product. cbn [map fold_right fst snd]. exact (eq_trans (swap3 K P (value q p)) (Rmult_assoc K (value q p) P)).
Qed.
Theorem iterated_products : forall (qs : list (quadrature RA)) (terms : list (list (R -> R))), List.Forall usable qs ->
  List.Forall (fun ps => length ps = length qs) terms ->
  iterated (fixed qs) (fun xs => lsum (map (fun ps => product_function ps xs) terms)) [] =
  lsum (map (fun ps => product (map (fun qp => value (fst qp) (snd qp)) (combine qs ps))) terms).
Proof.
  intros qs terms U H. induction H as [|ps terms L _ IH]; cbn [map lsum]; [apply iterated_0, fixed_usable, U|].
  rewrite (iterated_plus (fixed qs) (product_function ps) (fun xs => lsum (map (fun ps => product_function ps xs) terms)) [] (fixed_usable qs U)), IH. f_equal.
  exact (eq_trans (iterated_product qs [] ps [] U eq_refl L) (Rmult_1_l _)).
Qed.

Lemma poly_row : forall d2 (c : nat -> nat -> R) d1 x, polynomial d2 (bivariate d1 d2 c x).
Proof.
  intros d2 c d1 x. exists (fun j => rsum (S d1) (fun i => c i j * x ^ i)). intros y. unfold bivariate. rewrite rsum_swap. apply rsum_ext. intros j _.
  rewrite <- rsum_scal_r. apply rsum_ext. intros i _. eqR; ring.
Qed.
Theorem nested_exact : forall (q1 q2 : quadrature RA) d1 d2 J1 J2 c, usable q1 -> usable q2 -> exact_rule q1 d1 J1 -> exact_rule q2 d2 J2 ->
  exists inner, (forall x, J2 (bivariate d1 d2 c x) (inner x)) /\ J1 inner (value q1 (fun x => value q2 (bivariate d1 d2 c x))).
Proof.
  intros q1 q2 d1 d2 J1 J2 c U1 U2 E1 E2. exists (fun x => value q2 (bivariate d1 d2 c x)). split; [intros x; apply E2, poly_row|].
  apply E1. exists (fun i => rsum (S d2) (fun j => c i j * value q2 (fun y => y ^ j))). intros x.
  transitivity (rsum (S d1) (fun i => value q2 (fun y => rsum (S d2) (fun j => c i j * x ^ i * y ^ j)))).
  { exact (value_rsum q2 (S d1) (fun i y => rsum (S d2) (fun j => c i j * x ^ i * y ^ j)) U2). }
  apply rsum_ext. intros i _. transitivity (rsum (S d2) (fun j => value q2 (fun y => c i j * x ^ i * y ^ j))).
  { exact (value_rsum q2 (S d2) (fun j y => c i j * x ^ i * y ^ j) U2). }
  rewrite <- rsum_scal_r. apply rsum_ext. intros j _. transitivity (c i j * x ^ i * value q2 (fun y => y ^ j)).
  - exact (value_scal q2 (c i j * x ^ i) (fun y => y ^ j) U2).
  - eqR. ring.
Qed.

(** * Newton-Cotes rules on regions with variable bounds *)
Lemma simpson_polynomial : forall n a b f, (1 <= n)%nat -> polynomial 3 f -> is_RInt f a b (simpson_value n a b f).
Proof.
  intros n a b f Hn [c E]. replace f with (fun x => c 0%nat + c 1%nat * x + c 2%nat * x ^ 2 + c 3%nat * x ^ 3).
  - apply simpson_exact. exact Hn.
  - extensionality x. rewrite E. cbn. ring.
Qed.
Lemma affine_polynomial : forall f, polynomial 1 f -> exists c0 c1, f = fun x => c0 + c1 * x.
Proof. intros f [c E]. exists (c 0%nat), (c 1%nat). extensionality x. rewrite E. cbn. ring. Qed.
Lemma midpoint_polynomial : forall n a b f, (1 <= n)%nat -> polynomial 1 f -> is_RInt f a b (midpoint_value n a b f).
Proof. intros n a b f Hn Hf. destruct (affine_polynomial f Hf) as (c0 & c1 & ->). apply midpoint_exact. exact Hn. Qed.
Lemma trapezoid_polynomial : forall n a b f, (1 <= n)%nat -> polynomial 1 f -> is_RInt f a b (trapezoid_value n a b f).
Proof. intros n a b f Hn Hf. destruct (affine_polynomial f Hf) as (c0 & c1 & ->). apply trapezoid_exact. exact Hn. Qed.
Theorem simpson_region : forall (n m : nat) a b (c d : R -> R) (g : R -> R -> R), (1 <= n)%nat -> (1 <= m)%nat ->
  (forall x, polynomial 3 (g x)) -> polynomial 3 (fun x => RInt (g x) (c x) (d x)) ->
  is_RInt (fun x => RInt (g x) (c x) (d x)) a b (simpson_value n a b (fun x => simpson_value m (c x) (d x) (g x))).
Proof.
  intros n m a b c d g Hn Hm Hg HI.
  replace (fun x => simpson_value m (c x) (d x) (g x)) with (fun x => RInt (g x) (c x) (d x)).
  - apply simpson_polynomial; assumption.
  - extensionality x. apply (is_RInt_unique (V := R_CompleteNormedModule)). apply simpson_polynomial; [exact Hm|apply Hg].
Qed.

(** * Gauss-Legendre on regions *)
Lemma int_bound : forall (f : R -> R) a b M, ex_RInt f a b -> (forall x, Rmin a b <= x <= Rmax a b -> Rabs (f x) <= M) -> Rabs (RInt f a b) <= M * Rabs (b - a).
Proof.
  intros f a b M EX HM. destruct (Rle_dec a b) as [O|O].
  - rewrite (Rabs_pos_eq (b - a)) by lra. rewrite Rmult_comm. apply abs_RInt_le_const; [exact O|exact EX|].
    intros x Hx. apply HM. rewrite Rmin_left, Rmax_right by lra. exact Hx.
  - rewrite <- (opp_RInt_swap (V := R_CompleteNormedModule)) by (apply ex_RInt_swap; exact EX). change (opp ?x) with (- x). rewrite Rabs_Ropp.
    rewrite (Rabs_left (b - a)) by lra. replace (- (b - a)) with (a - b) by ring. rewrite Rmult_comm. apply abs_RInt_le_const; [lra|apply ex_RInt_swap; exact EX|].
    intros x Hx. apply HM. rewrite Rmin_right, Rmax_left by lra. exact Hx.
Qed.
Section Leg.
Variables (t : Target) (n m : nat) (r r2 : GaussLegendre RA).
Hypothesis Hu : (100 <= usize_max t)%Z.
Hypothesis Hn : (1 <= n <= 100)%nat.
Hypothesis H2n : (2 * Z.of_nat n <= usize_max t)%Z.
Hypothesis Hr : legendre_new t (Z.of_nat n) = Ok r.
Hypothesis Hm : (1 <= m <= 100)%nat.
Hypothesis H2m : (2 * Z.of_nat m <= usize_max t)%Z.
Hypothesis Hr2 : legendre_new t (Z.of_nat m) = Ok r2.
Lemma value_close : forall a b f p E, 0 <= E -> (forall x, Rmin a b <= x <= Rmax a b -> Rabs (f x - p x) <= E) ->
  Rabs (legendre_value r a b f - legendre_value r a b p) <= Rabs (b - a) / 2 * (E * (2 + 15 / 10 ^ 17)).
Proof.
  intros a b f p E PE HE. set (h := Rabs (b - a) / 2).
  assert (Ph : 0 <= h) by (unfold h, Rdiv; apply Rmult_le_pos; [apply Rabs_pos|lra]).
  unfold legendre_value. rewrite !legendre_R, !gauss_pulled, <- Rmult_minus_distr_l, Rabs_mult.
  replace (Rabs ((b - a) / 2)) with h by (unfold h, Rdiv; rewrite Rabs_mult, (Rabs_pos_eq (/ 2)) by lra; reflexivity).
  apply Rmult_le_compat_l; [exact Ph|]. rewrite apply_minus. eapply Rle_trans; [apply (apply_bound _ _ E PE)|apply Rmult_le_compat_l; [exact PE|apply (weight_sum t n r Hu Hn H2n Hr)]].
  destruct (legendre_shape t (Z.of_nat n) r Hu ltac:(lia) H2n Hr) as [_ F]. eapply List.Forall_impl; [|exact F]. intros [x w] [H1 H2]. cbn [fst snd] in *.
  split; [|exact H2]. unfold pulled. apply HE, pull_between. lra.
Qed.
Theorem legendre_region : forall a b (c d : R -> R) (g : R -> R -> R) M L,
  (forall x, Rmin a b <= x <= Rmax a b -> polynomial (2 * m - 1) (g x)) -> polynomial (2 * n - 1) (fun x => RInt (g x) (c x) (d x)) ->
  (forall x y, Rmin a b <= x <= Rmax a b -> Rmin (c x) (d x) <= y <= Rmax (c x) (d x) -> Rabs (g x y) <= M) ->
  (forall x, Rmin a b <= x <= Rmax a b -> Rabs (d x - c x) <= L) ->
  Rabs (legendre_value r a b (fun x => legendre_value r2 (c x) (d x) (g x)) - RInt (fun x => RInt (g x) (c x) (d x)) a b) <= 31 / 10 ^ 15 * M * L * Rabs (b - a).
Proof.
  intros a b c d g M L Hg HI HM HL.
  assert (Ba : Rmin a b <= a <= Rmax a b) by (unfold Rmin, Rmax; destruct (Rle_dec a b); lra).
  assert (PL : 0 <= L) by (pose proof (HL a Ba); pose proof (Rabs_pos (d a - c a)); lra).
  assert (PM : 0 <= M). { pose proof (HM a (c a) Ba ltac:(unfold Rmin, Rmax; destruct (Rle_dec (c a) (d a)); lra)). pose proof (Rabs_pos (g a (c a))). lra. }
  assert (ML : 0 <= M * L) by (apply Rmult_le_pos; assumption).
  assert (IB : forall x, Rmin a b <= x <= Rmax a b -> Rabs (RInt (g x) (c x) (d x)) <= M * L).
  { intros x Hx. eapply Rle_trans; [apply (int_bound (g x) (c x) (d x) M)|].
    - apply (poly_int (2 * m - 1) (g x)). apply Hg, Hx.
    - intros y Hy. apply HM; assumption.
    - apply Rmult_le_compat_l; [exact PM|apply HL, Hx]. }
  assert (EB : forall x, Rmin a b <= x <= Rmax a b -> Rabs (legendre_value r2 (c x) (d x) (g x) - RInt (g x) (c x) (d x)) <= 15 / 10 ^ 15 * (M * L)).
  { intros x Hx. eapply Rle_trans; [apply (value_max t m r2 Hu Hm H2m Hr2 (c x) (d x) (g x) M (Hg x Hx)); intros y Hy; apply HM; assumption|].
    apply Rle_trans with (3 / 10 ^ 14 * M * (L / 2)); [|lra]. apply Rmult_le_compat_l; [apply Rmult_le_pos; lra|]. pose proof (HL x Hx). lra. }
  pose proof (value_close a b _ _ (15 / 10 ^ 15 * (M * L)) ltac:(apply Rmult_le_pos; lra) EB) as V1.
  pose proof (value_max t n r Hu Hn H2n Hr a b _ (M * L) HI IB) as V2.
  set (v := legendre_value r a b (fun x => legendre_value r2 (c x) (d x) (g x))) in *. set (u := legendre_value r a b (fun x => RInt (g x) (c x) (d x))) in *.
  replace (v - RInt (fun x => RInt (g x) (c x) (d x)) a b) with ((v - u) + (u - RInt (fun x => RInt (g x) (c x) (d x)) a b)) by ring.
  eapply Rle_trans; [apply Rabs_triang|]. pose proof (Rabs_pos (b - a)) as PB.
  assert (P3 : 0 <= M * L * Rabs (b - a)) by (apply Rmult_le_pos; assumption). set (P := M * L * Rabs (b - a)) in *.
  replace (Rabs (b - a) / 2 * (15 / 10 ^ 15 * (M * L) * (2 + 15 / 10 ^ 17))) with (15 / 10 ^ 15 / 2 * (2 + 15 / 10 ^ 17) * P) in V1 by (unfold P; field).
  replace (3 / 10 ^ 14 * (M * L) * (Rabs (b - a) / 2)) with (15 / 10 ^ 15 * P) in V2 by (unfold P; field).
  replace (31 / 10 ^ 15 * M * L * Rabs (b - a)) with (31 / 10 ^ 15 * P) by (unfold P; field). lra.
Qed.
End Leg.

(** The documented triangle: x^2 y for x in [0,1], y in [0,x]. *)
Lemma triangle_inner : forall x, is_RInt (fun y => x * x * y) 0 x (x ^ 4 / 2).
Proof.
  intros x. replace (x ^ 4 / 2) with (minus (x * x * x ^ 2 / 2) (x * x * 0 ^ 2 / 2)) by (unfold minus, plus, opp; simpl; field).
  apply (is_RInt_derive (V := R_CompleteNormedModule) (fun y => x * x * y ^ 2 / 2)).
  - intros y _. auto_derive; [exact I|]. field.
  - intros y _. apply (ex_derive_continuous (V := R_NormedModule)). auto_derive. exact I.
Qed.
Lemma triangle_outer : is_RInt (fun x => x ^ 4 / 2) 0 1 (1 / 10).
Proof.
  replace (1 / 10) with (minus (1 ^ 5 / 10) (0 ^ 5 / 10)) by (unfold minus, plus, opp; simpl; field).
  apply (is_RInt_derive (V := R_CompleteNormedModule) (fun x => x ^ 5 / 10)).
  - intros y _. auto_derive; [exact I|]. field.
  - intros y _. apply (ex_derive_continuous (V := R_NormedModule)). auto_derive. exact I.
Qed.
Lemma triangle_polynomial : forall n, (3 <= n)%nat -> polynomial (2 * n - 1) (fun x => x ^ 4 / 2).
Proof.
  intros n Hn. apply (poly_weaken 4); [lia|]. replace (fun x => x ^ 4 / 2) with (fun x => / 2 * x ^ 4) by (extensionality x; field). apply poly_scal, poly_pow.
Qed.
Theorem triangle : forall (t : Target) (n : nat) (r : GaussLegendre RA), (100 <= usize_max t)%Z -> (3 <= n <= 100)%nat ->
  (2 * Z.of_nat n <= usize_max t)%Z -> legendre_new t (Z.of_nat n) = Ok r ->
  Rabs (legendre_value r 0 1 (fun x => legendre_value r 0 x (fun y => x * x * y)) - 1 / 10) <= 31 / 10 ^ 15.
Proof.
  intros t n r Hu Hn H2 Hr.
  assert (EI : forall x, RInt (fun y => x * x * y) 0 x = x ^ 4 / 2) by (intros x; apply (is_RInt_unique (V := R_CompleteNormedModule)), triangle_inner).
  assert (EF : (fun x => RInt (fun y => x * x * y) 0 x) = fun x => x ^ 4 / 2) by (extensionality x; apply EI).
  pose proof (legendre_region t n n r r Hu ltac:(lia) H2 Hr ltac:(lia) H2 Hr 0 1 (fun _ => 0) (fun x => x) (fun x y => x * x * y) 1 1) as H. cbv beta in H. rewrite EF in H.
  rewrite (is_RInt_unique (V := R_CompleteNormedModule) _ _ _ _ triangle_outer) in H. rewrite !Rmult_1_r, Rminus_0_r, Rabs_R1, Rmult_1_r in H. apply H.
  - intros x _. apply (poly_weaken 1); [lia|]. apply poly_scal. replace (fun x => x) with (fun x => x ^ 1) by (extensionality z; ring). apply poly_pow.
  - apply triangle_polynomial. lia.
  - intros x y Hx Hy. rewrite Rmin_left, Rmax_right in Hx by lra. rewrite Rmin_left, Rmax_right in Hy by lra. rewrite Rabs_pos_eq; [|repeat apply Rmult_le_pos; lra].
    rewrite <- (Rmult_1_r 1). apply Rmult_le_compat; try lra; [apply Rmult_le_pos; lra|]. rewrite <- (Rmult_1_r 1). apply Rmult_le_compat; lra.
  - intros x Hx. rewrite Rmin_left, Rmax_right in Hx by lra. rewrite Rminus_0_r, Rabs_pos_eq; lra.
Qed.

(** * Rules that are exact *)
From Verif Require Import ChebSpec ChebRule TransferSpec WeightSpec EigenSpec GolubWelsch GWSpec Spectral GaussExact.
Theorem exact_rules : forall a b : R,
  (forall n, (1 <= n)%Z -> exact_rule (QMidpoint (A := RA) n a b) 1 (fun f v => is_RInt f a b v) /\
    exact_rule (QTrapezoid (A := RA) n a b) 1 (fun f v => is_RInt f a b v) /\ exact_rule (QSimpson (A := RA) n a b) 3 (fun f v => is_RInt f a b v)) /\
  (forall t n r, (1 <= n < usize_max t)%Z -> chebyshev1_new t n = Ok r -> a <> b ->
    exact_rule (QChebyshev1 (A := RA) r a b) (2 * Z.to_nat n - 1) (weighted_integral (fun x => / sqrt (1 - x * x)) a b)) /\
  (forall t n r, (1 <= n < usize_max t)%Z -> chebyshev2_new t n = Ok r ->
    exact_rule (QChebyshev2 (A := RA) r a b) (2 * Z.to_nat n - 1) (fun f v => is_RInt (fun x => sqrt (1 - to_unit a b x * to_unit a b x) * f x) a b v)) /\
  (forall (ext : Linalg RA) n r, (1 <= n)%Z -> sorts ext -> exact_on ext (Z.to_nat n) (@hermite_diag RA) (@hermite_off_diag RA) ->
    hermite_new ext n = Ok r -> exact_rule (QHermite r) (2 * Z.to_nat n - 1) hermite_integral).
Proof.
  intros a b. split; [|split; [|split]].
  - intros n Hn. rewrite <- (Z2Nat.id n) by lia. split; [|split]; intros f Hf.
    + apply (midpoint_polynomial (Z.to_nat n) a b f); [lia|exact Hf].
    + apply (trapezoid_polynomial (Z.to_nat n) a b f); [lia|exact Hf].
    + apply (simpson_polynomial (Z.to_nat n) a b f); [lia|exact Hf].
  - intros t n r Hn Hr Hab f Hf. exact (cheb1_interval t n r Hn Hr a b f Hab Hf).
  - intros t n r Hn Hr f Hf. exact (cheb2_interval t n r Hn Hr a b f Hf).
  - intros ext n r Hn Hs He Hr f Hf. exact (hermite_exact ext n r Hn Hs He Hr f Hf).
Qed.
