(** Triangle inequality, Cauchy-Schwarz and Jensen for the values of integrate. *)
From Coq Require Import Reals ZArith List Lra Lia FunctionalExtensionality.
From Flocq Require Import Core IEEE754.Binary.
From Verif Require Import Arith F64 F64Spec RInst Machine Rules NewtonCotes Chebyshev Hermite Laguerre Legendre Jacobi RSum IntegrateSpec GaussSpec GaussProof NCSpec NCExact NCReal NCMore
  NestSpec NestProof ExcSpec Exc OrderSpec Order OrderUse IneqSpec.
Import ListNotations.
Local Open Scope R_scope.

(** * Positive linear functionals *)
Section Functional.
Context {X : Type}.
Variable I : (X -> R) -> R.
Hypothesis lin : forall c d f g, I (fun x => c * f x + d * g x) = c * I f + d * I g.
Hypothesis pos : forall f, (forall x, 0 <= f x) -> 0 <= I f.
Lemma func_le : forall f g, (forall x, f x <= g x) -> I f <= I g.
Proof.
  intros f g H. assert (P := pos (fun x => 1 * g x + -1 * f x) ltac:(intros x; specialize (H x); lra)). rewrite lin in P. lra.
Qed.
Lemma func_abs : forall f, Rabs (I f) <= I (fun x => Rabs (f x)).
Proof.
  intros f. apply Rabs_le. split.
  - assert (Q := func_le (fun x => -1 * Rabs (f x) + 0 * f x) f ltac:(intros x; cbv beta; pose proof (Rle_abs (- f x)); rewrite Rabs_Ropp in H; lra)). rewrite lin in Q. lra.
  - apply func_le. intros x. apply Rle_abs.
Qed.
Lemma func_schwarz : forall f g, I (fun x => f x * g x) * I (fun x => f x * g x) <= I (fun x => f x * f x) * I (fun x => g x * g x).
Proof.
  intros f g. set (a := I (fun x => f x * f x)). set (b := I (fun x => f x * g x)). set (c := I (fun x => g x * g x)).
  assert (Q : forall s t, 0 <= s * s * a + 2 * s * t * b + t * t * c).
  { intros s t. assert (P := pos (fun x => 1 * (s * s * (f x * f x) + 2 * s * t * (f x * g x)) + t * t * (g x * g x)) ltac:(intros x; cbv beta; pose proof (Rle_0_sqr (s * f x + t * g x)) as Z; unfold Rsqr in Z; lra)).
    rewrite (lin 1 (t * t) (fun x => s * s * (f x * f x) + 2 * s * t * (f x * g x)) (fun x => g x * g x)) in P. rewrite (lin (s * s) (2 * s * t) (fun x => f x * f x) (fun x => f x * g x)) in P. fold a b c in P. lra. }
  assert (C0 : 0 <= c) by (specialize (Q 0 1); lra). assert (A0 : 0 <= a) by (specialize (Q 1 0); lra).
  destruct (Rle_lt_or_eq_dec 0 c C0) as [Cp|Cz].
  - specialize (Q c (- b)). assert (0 <= c * (a * c - b * b)) by lra. assert (0 <= a * c - b * b); [|lra]. apply Rmult_le_reg_l with c; lra.
  - rewrite <- Cz in *. assert (B0 : b = 0). { destruct (Req_dec b 0) as [Z|Z]; [exact Z|]. specialize (Q 1 (- (a + 1) / (2 * b))). replace (2 * 1 * (- (a + 1) / (2 * b)) * b) with (- (a + 1)) in Q by (field; exact Z). lra. } rewrite B0. lra.
Qed.
Lemma func_schwarz2 : forall f g, I (fun x => f x * g x) ^ 2 <= I (fun x => f x ^ 2) * I (fun x => g x ^ 2).
Proof.
  intros f g. assert (E : forall h : X -> R, I (fun x => h x ^ 2) = I (fun x => h x * h x)) by (intros h; f_equal; extensionality x; ring).
  rewrite !E. eapply Rle_trans; [|exact (func_schwarz f g)]. right. ring.
Qed.
End Functional.

(** * A convex function has a supporting line *)
Lemma slopes : forall phi x u y, convex phi -> x < u -> u < y -> (phi u - phi x) / (u - x) <= (phi y - phi u) / (y - u).
Proof.
  intros phi x u y H Hx Hy. assert (C := H x y ((y - u) / (y - x))).
  assert (T : 0 <= (y - u) / (y - x) <= 1).
  { split; [apply Rmult_le_pos; [lra|left; apply Rinv_0_lt_compat; lra]|]. apply Rmult_le_reg_r with (y - x); [lra|]. replace ((y - u) / (y - x) * (y - x)) with (y - u) by (field; lra). lra. }
  specialize (C T). replace ((y - u) / (y - x) * x + (1 - (y - u) / (y - x)) * y) with u in C by (field; lra).
  apply Rmult_le_compat_r with (r := y - x) in C; [|lra].
  replace (((y - u) / (y - x) * phi x + (1 - (y - u) / (y - x)) * phi y) * (y - x)) with ((y - u) * phi x + (u - x) * phi y) in C by (field; lra).
  apply Rmult_le_reg_r with ((u - x) * (y - u)); [apply Rmult_lt_0_compat; lra|].
  replace ((phi u - phi x) / (u - x) * ((u - x) * (y - u))) with ((phi u - phi x) * (y - u)) by (field; lra).
  replace ((phi y - phi u) / (y - u) * ((u - x) * (y - u))) with ((phi y - phi u) * (u - x)) by (field; lra). lra.
Qed.
Lemma supporting : forall phi u, convex phi -> exists s, forall x, phi u + s * (x - u) <= phi x.
Proof.
  intros phi u H. destruct (completeness (fun s => exists x, x < u /\ s = (phi u - phi x) / (u - x))) as [s [S1 S2]].
  - exists ((phi (u + 1) - phi u) / (u + 1 - u)). intros s (x & Hx & ->). apply slopes; [exact H|lra|lra].
  - exists ((phi u - phi (u - 1)) / (u - (u - 1))), (u - 1). split; [lra|reflexivity].
  - exists s. intros x. destruct (Rtotal_order x u) as [L|[->|G]].
    + assert (Q := S1 _ (ex_intro _ x (conj L eq_refl))). apply Rmult_le_compat_r with (r := u - x) in Q; [|lra]. replace ((phi u - phi x) / (u - x) * (u - x)) with (phi u - phi x) in Q by (field; lra). lra.
    + lra.
    + assert (Q : s <= (phi x - phi u) / (x - u)) by (apply S2; intros v (y & Hy & ->); apply slopes; assumption).
      apply Rmult_le_compat_r with (r := x - u) in Q; [|lra]. replace ((phi x - phi u) / (x - u) * (x - u)) with (phi x - phi u) in Q by (field; lra). lra.
Qed.
Section Jensen.
Context {X : Type}.
Variable I : (X -> R) -> R.
Hypothesis lin : forall c d f g, I (fun x => c * f x + d * g x) = c * I f + d * I g.
Hypothesis pos : forall f, (forall x, 0 <= f x) -> 0 <= I f.
Lemma func_jensen : forall phi f, convex phi -> 0 < I (fun _ => 1) -> phi (I f / I (fun _ => 1)) <= I (fun x => phi (f x)) / I (fun _ => 1).
Proof.
  intros phi f H T. set (t := I (fun _ => 1)) in *. set (u := I f / t). destruct (supporting phi u H) as [s Hs].
  assert (Q := func_le I lin pos (fun x => (phi u - s * u) * 1 + s * f x) (fun x => phi (f x)) ltac:(intros x; specialize (Hs (f x)); lra)).
  rewrite (lin (phi u - s * u) s (fun _ => 1) f) in Q. fold t in Q. apply Rmult_le_reg_r with t; [exact T|]. replace (I (fun x => phi (f x)) / t * t) with (I (fun x => phi (f x))) by (field; lra).
  assert (U : I f = u * t) by (unfold u; field; lra). rewrite U in Q. lra.
Qed.
End Jensen.

(** * The rules in exact arithmetic *)
Lemma rsum_pos : forall n f, (forall i, 0 <= f i) -> 0 <= rsum n f.
Proof. intros n f H. induction n; [apply Rle_refl|rewrite rsum_S; specialize (H n); lra]. Qed.
Lemma nc_pos : forall n a b g, (1 <= n)%nat -> a <= b -> (forall x, 0 <= g x) -> 0 <= midpoint_value n a b g /\ 0 <= trapezoid_value n a b g /\ 0 <= simpson_value n a b g.
Proof.
  intros n a b g Hn Hab Hg. assert (Hh : 0 <= (b - a) / INR n) by (apply Rmult_le_pos; [lra|left; apply Rinv_0_lt_compat, lt_0_INR; lia]).
  assert (M : 0 <= midpoint_value n a b g) by (rewrite midpoint_panels by exact Hn; apply rsum_pos; intros i; apply Rmult_le_pos; [exact Hh|apply Hg]).
  assert (T : 0 <= trapezoid_value n a b g).
  { rewrite trapezoid_panels by exact Hn. apply rsum_pos. intros i. apply Rmult_le_pos; [lra|]. apply Rplus_le_le_0_compat; apply Hg. }
  split; [exact M|]. split; [exact T|]. rewrite simpson_combination by exact Hn. lra.
Qed.
Lemma plain_pos : forall (l : list (R * R)) (h : R * R -> R), Forall (fun w => 0 <= w) (map snd l) -> (forall p, 0 <= h p) -> 0 <= lsum (map (fun p => h p * snd p) l).
Proof.
  intros l h Hl Hg. induction l as [|p l IH]; cbn [map lsum]; [apply Rle_refl|]. inversion_clear Hl. specialize (IH H0). assert (0 <= h p * snd p) by (apply Rmult_le_pos; [apply Hg|exact H]). lra.
Qed.
Lemma value_pos : forall (q : quadrature RA) f, forward_exact q -> (forall x, 0 <= f x) -> 0 <= value q f.
Proof.
  intros q f (Hu & Hb & Hw) Hf. destruct q as [n a b|n a b|n a b|r a b|r a b|r a b|r a b|r|r]; cbn [usable bounds weights] in *; unfold value; cbn [run].
  1-3: rewrite <- (Z2Nat.id n) by lia; destruct (nc_pos (Z.to_nat n) a b f ltac:(lia) Hb Hf) as (P1 & P2 & P3); assumption.
  1: rewrite legendre_R. 2: rewrite jacobi_R. 3: rewrite chebyshev1_R. 4: rewrite chebyshev2_R.
  1-4: unfold gauss_on; apply Rmult_le_pos; [lra|]; apply (plain_pos _ (fun xw : R * R => f ((b - a) / 2 * fst xw + (a + b) / 2))); [exact Hw|intros; apply Hf].
  1: rewrite hermite_R. 2: rewrite laguerre_R.
  all: unfold gauss_plain; apply (plain_pos _ (fun xw : R * R => f (fst xw))); [exact Hw|intros; apply Hf].
Qed.
Lemma iterated_linear : forall (qs : list (list R -> quadrature RA)) xs, Forall (fun q => forall xs, forward_exact (q xs)) qs -> forall c d f g,
  iterated (A := RA) qs (fun ys => c * f ys + d * g ys) xs = c * iterated (A := RA) qs f xs + d * iterated (A := RA) qs g xs.
Proof.
  intros qs xs H. revert xs. induction H as [|q qs Hq _ IH]; intros xs c d f g; cbn [iterated]; [reflexivity|].
  rewrite <- value_linear by apply Hq. f_equal. extensionality x. apply IH.
Qed.
Lemma iterated_pos : forall (qs : list (list R -> quadrature RA)) xs f, Forall (fun q => forall xs, forward_exact (q xs)) qs -> (forall ys, 0 <= f ys) -> 0 <= iterated (A := RA) qs f xs.
Proof.
  intros qs xs f H Hf. revert xs. induction H as [|q qs Hq _ IH]; intros xs; cbn [iterated]; [apply Hf|]. apply value_pos; [apply Hq|]. intros x. apply IH.
Qed.
Theorem exact_inequalities : forall (q : quadrature RA), forward_exact q -> forall f g : R -> R,
  Rabs (value q f) <= value q (fun x => Rabs (f x)) /\
  value q (fun x => f x * g x) ^ 2 <= value q (fun x => f x ^ 2) * value q (fun x => g x ^ 2) /\
  (forall phi, convex phi -> 0 < value q (fun _ => 1) -> phi (value q f / value q (fun _ => 1)) <= value q (fun x => phi (f x)) / value q (fun _ => 1)).
Proof.
  intros q Hq f g. assert (L : forall c d f g, value q (fun x => c * f x + d * g x) = c * value q f + d * value q g) by (intros; apply value_linear, Hq).
  assert (P : forall f, (forall x, 0 <= f x) -> 0 <= value q f) by (intros; apply value_pos; assumption).
  split; [exact (func_abs (value q) L P f)|]. split; [exact (func_schwarz2 (value q) L P f g)|intros phi; exact (func_jensen (value q) L P phi f)].
Qed.
Theorem nested_inequalities : forall (qs : list (list R -> quadrature RA)) xs, Forall (fun q => forall xs, forward_exact (q xs)) qs -> forall f g : list R -> R,
  let J := fun h => iterated (A := RA) qs h xs in
  Rabs (J f) <= J (fun x => Rabs (f x)) /\
  J (fun x => f x * g x) ^ 2 <= J (fun x => f x ^ 2) * J (fun x => g x ^ 2) /\
  (forall phi, convex phi -> 0 < J (fun _ => 1) -> phi (J f / J (fun _ => 1)) <= J (fun x => phi (f x)) / J (fun _ => 1)).
Proof.
  intros qs xs Hq f g J. assert (L : forall c d f g, J (fun x => c * f x + d * g x) = c * J f + d * J g) by (intros; apply iterated_linear, Hq).
  assert (P : forall f, (forall x, 0 <= f x) -> 0 <= J f) by (intros; apply iterated_pos; assumption).
  split; [exact (func_abs J L P f)|]. split; [exact (func_schwarz2 J L P f g)|intros phi; exact (func_jensen J L P phi f)].
Qed.

(** * Double arithmetic *)
Section Float.
Variable be : Backend.
Notation A := (F64 be).
Lemma magnitude_ev : forall n (x : f64), (fnan x -> fnan (magnitude n x)) /\ (~ fnan x -> ~ fnan (magnitude n x) /\ ev (magnitude n x) = Rabs (ev x)).
Proof.
  intros n x. unfold magnitude. split.
  - intros H. destruct x; try discriminate H. unfold fnan, Babs. apply is_nan_build_nan.
  - intros H. destruct x as [s|s|s p Hp|s m e Hm]; [| |exfalso; apply H; reflexivity|]; (split; [intros K; discriminate K|]).
    + unfold ev, fval. simpl. rewrite Rabs_R0. reflexivity.
    + unfold ev. simpl. pose proof big_pos. destruct s; [rewrite Rabs_Ropp|]; rewrite Rabs_pos_eq; lra.
    + change (fval (Babs 53 1024 n (B754_finite 53 1024 s m e Hm)) = Rabs (fval (B754_finite 53 1024 s m e Hm))). unfold fval. apply B2R_Babs.
Qed.
Lemma below_magnitude : forall n m (x : A), not_above (be := be) x (magnitude n x) /\ not_above (be := be) (negate m x) (magnitude n x).
Proof.
  intros n m x. destruct (magnitude_ev n x) as [M1 M2]. destruct (nan_dec x) as [N|N].
  - split; apply (le_iff be); right; left; apply M1, N.
  - destruct (M2 N) as [_ E]. split; apply (le_iff be); right; right; rewrite E; [apply Rle_abs|].
    destruct (proj1 (opp_iff _ _) (negate_opposite be m x)) as [[K _]|(_ & _ & O)]; [contradiction|]. rewrite O, <- Rabs_Ropp. apply Rle_abs.
Qed.
Lemma combine_magnitude : forall n (u v w : A), opposite u v -> not_above (be := be) u w -> not_above (be := be) v w -> not_above (be := be) (magnitude n u) w.
Proof.
  intros n u v w O H1 H2. apply opp_iff in O. apply (le_iff be) in H1. apply (le_iff be) in H2. apply (le_iff be). destruct (magnitude_ev n u) as [M1 M2].
  destruct O as [[N _]|(Nu & Nv & O)]; [left; apply M1, N|]. destruct (M2 Nu) as [_ E].
  destruct H1 as [K|[K|H1]]; [contradiction|right; left; exact K|]. destruct H2 as [K|[K|H2]]; [contradiction|right; left; exact K|].
  right. right. rewrite E. rewrite O in H2. apply Rabs_le. lra.
Qed.
Theorem float_triangle : forall n t1 t2 (q : quadrature A) (g : A -> A), forward q ->
  not_above (be := be) (magnitude n (value q g)) (value q (fun x => magnitude n (g x))) /\
  not_above (be := be) (magnitude n (par_run t1 t2 q g)) (par_run t1 t2 q (fun x => magnitude n (g x))).
Proof.
  intros n t1 t2 q g Hq. destruct (negate_value be n t1 t2 q g (forward_usable be q Hq)) as [O1 O2].
  assert (B1 : Forall2 (@not_above be) (map g (points q)) (map (fun x => magnitude n (g x)) (points q))) by (apply (map_rel (A := A) (@not_above be)); intros x; apply (below_magnitude n n)).
  assert (B2 : Forall2 (@not_above be) (map (fun x => negate n (g x)) (points q)) (map (fun x => magnitude n (g x)) (points q))) by (apply (map_rel (A := A) (@not_above be) (fun x => negate n (g x))); intros x; apply below_magnitude).
  split.
  - apply (combine_magnitude n _ _ _ O1); unfold value; (apply run_monotone; [exact Hq|]); rewrite !call_all_pure; assumption.
  - apply (combine_magnitude n _ _ _ O2); apply par_monotone; assumption.
Qed.
Theorem float_nested_triangle : forall n (qs : list (list A -> quadrature A)) (g : list A -> A) xs, Forall (fun q => forall xs, forward (q xs)) qs ->
  not_above (be := be) (magnitude n (iterated qs g xs)) (iterated qs (fun ys => magnitude n (g ys)) xs).
Proof.
  intros n qs g xs Hq. assert (Hu : Forall (fun q => forall xs, usable (q xs)) qs) by (eapply Forall_impl; [|exact Hq]; intros q H ys; apply forward_usable, H).
  apply (combine_magnitude n _ _ _ (nested_opposite be qs g (fun ys => negate n (g ys)) xs Hu (fun ys => negate_opposite be n (g ys)))); apply nested_monotone; try exact Hq; intros ys; apply (below_magnitude n n).
Qed.
End Float.
