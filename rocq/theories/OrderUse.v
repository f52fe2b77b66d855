(** Every rule respects order and sign in double arithmetic. *)
From Coq Require Import Reals ZArith List Lra Lia Bool.
From Flocq Require Import Core IEEE754.Binary.
From Verif Require Import Arith F64 F64Spec F64Proof SignSpec SignProof SignRules SignWeights Machine Iter Rules Par NewtonCotes Chebyshev Hermite Laguerre Legendre Jacobi
  IntegrateSpec IntegrateProof GaussSpec GaussProof TraceProof NestSpec NestProof ExcSpec Exc OrderSpec Order.
Import ListNotations.
Local Open Scope num_scope.

Section Rel.
Context {A : Arith}.
Variables (Q : A -> A -> Prop) (W : A -> Prop).
Hypothesis Qz : Q nnegzero nnegzero.
Hypothesis Qadd : forall x x' y y', Q x x' -> Q y y' -> Q (x [+] y) (x' [+] y').
Hypothesis Qmr : forall x x' w, W w -> Q x x' -> Q (x [*] w) (x' [*] w).
Hypothesis Qml : forall x x' w, W w -> Q x x' -> Q (w [*] x) (w [*] x').
Hypothesis Qhalf : forall x x', Q x x' -> Q (x [/] lit2) (x' [/] lit2).
Hypothesis W2 : W lit2.
Hypothesis W4 : W (nlit 4 0).
(** the factor in front of the sum *)
Definition factors (q : quadrature A) : Prop :=
  match q with
  | QMidpoint n a b | QTrapezoid n a b => W ((b [-] a) [/] nofZ n)
  | QSimpson n a b => W ((b [-] a) [/] nofZ n [/] nlit 6 0)
  | QLegendre _ a b | QJacobi _ a b | QChebyshev1 _ a b | QChebyshev2 _ a b => W (half_width a b)
  | _ => True
  end.
Definition respects (s : list A -> A) : Prop := forall l l', Forall2 Q l l' -> Q (s l) (s l').
Lemma sum_respects : respects float_sum.
Proof.
  intros l l' H. unfold float_sum. revert Qz. generalize (@nnegzero A) at 1 3. generalize (@nnegzero A). induction H as [|x x' l l' Hx _ IH]; intros z z' Hz; [exact Hz|].
  cbn [fold_left]. apply IH. apply Qadd; assumption.
Qed.
Lemma forall2_part : forall (l l' : list A) k, Forall2 Q l l' -> Forall2 Q (firstn k l) (firstn k l') /\ Forall2 Q (skipn k l) (skipn k l').
Proof.
  intros l l' k H. revert k. induction H as [|x x' l l' Hx H IH]; intros [|k]; cbn [firstn skipn]; try (split; constructor; assumption); destruct (IH k) as [H1 H2]; split; [constructor; assumption|exact H2].
Qed.
Lemma psum_respects : forall t, respects (psum t).
Proof.
  unfold psum. induction t as [|m tl IHl tr IHr]; intros l l' H; cbn [par_sum]; unfold rayon_add; (apply Qadd; [apply Qadd; [exact Qz|]|]).
  - exact Qz.
  - rewrite !iter_sum_vals, !map_id. apply sum_respects, H.
  - apply IHl, forall2_part, H.
  - apply IHr, forall2_part, H.
Qed.
Lemma products_respect : forall vs vs' ws, Forall W ws -> Forall2 Q vs vs' -> Forall2 Q (products vs ws) (products vs' ws).
Proof.
  intros vs vs' ws Hw H. revert ws Hw. unfold products. induction H as [|x x' l l' Hx H IH]; intros [|w ws] Hw; cbn [combine map]; try constructor.
  - cbn [fst snd]. apply Qmr; [exact (Forall_inv Hw)|exact Hx].
  - apply IH. exact (Forall_inv_tail Hw).
Qed.
Lemma forall2_len : forall (l l' : list A), Forall2 Q l l' -> length l' = length l.
Proof. intros l l' H. induction H; [reflexivity|]. cbn [length]. rewrite IHForall2. reflexivity. Qed.
Lemma shape_rel : forall q s1 s2 vs vs', respects s1 -> respects s2 -> length vs = length (pts_of q) -> factors q -> Forall W (weights q) ->
  Forall2 Q vs vs' -> Q (shape q s1 s2 vs) (shape q s1 s2 vs').
Proof.
  intros q s1 s2 vs vs' N1 N2 L F Hw H. pose proof (forall2_len _ _ H) as L'. destruct q as [n a b|n a b|n a b|r a b|r a b|r a b|r a b|r|r]; cbn [factors weights] in F, Hw.
  3:{ rewrite L in L'. destruct (simp_split n a b vs L) as (x & y & z & E). destruct (simp_split n a b vs' L') as (x' & y' & z' & E'). cbn [shape]. cbv zeta. rewrite E, E'. cbn [nth].
      set (k := Z.to_nat (n - 1)) in *. destruct (forall2_part _ _ k H) as [H1 H2]. destruct (forall2_part _ _ k H2) as [H3 H4]. rewrite E, E' in H4.
      inversion H4 as [|? ? ? ? Hx H5]; subst. inversion H5 as [|? ? ? ? Hy H6]; subst. inversion H6 as [|? ? ? ? Hz _]; subst.
      apply Qml; [exact F|]. apply Qadd; [apply Qadd; [apply Qadd; [apply Qadd|]|]|]; [apply Qml; [exact W2|apply N1, H1]|apply Qml; [exact W4|apply N2, H3]|apply Qml; [exact W4|exact Hx]|exact Hy|exact Hz]. }
  2:{ cbn [shape]. destruct H as [|fa fa' vs vs' Ha H]; [discriminate L|]. destruct H as [|fb fb' vs vs' Hb H]; [discriminate L|]. cbn [nth skipn].
      apply Qmr; [exact F|]. apply Qadd; [apply Qhalf, Qadd; assumption|apply N1, H]. }
  all: cbn [shape].
  - apply Qmr; [exact F|apply N1, H].
  - apply Qml; [exact F|apply N1, products_respect; assumption].
  - apply Qml; [exact F|apply N1, products_respect; assumption].
  - apply Qmr; [exact F|apply N1, products_respect; assumption].
  - apply Qmr; [exact F|apply N1, products_respect; assumption].
  - apply N1, products_respect; assumption.
  - apply N1, products_respect; assumption.
Qed.
Lemma run_rel : forall (q : quadrature A) (S S' : Type) (f : S -> A -> A * S) (f' : S' -> A -> A * S') s s', usable q -> factors q -> Forall W (weights q) ->
  Forall2 Q (fst (call_all f (points q) s)) (fst (call_all f' (points q) s')) -> Q (fst (run q f s)) (fst (run q f' s')).
Proof.
  intros q S S' f f' s s' Hq F Hw H. rewrite (points_pts q Hq) in H. rewrite !(run_shape q Hq). cbn [fst].
  apply shape_rel; [apply sum_respects|apply sum_respects|apply call_all_length|exact F|exact Hw|exact H].
Qed.
Lemma par_rel : forall t1 t2 (q : quadrature A) g g', usable q -> factors q -> Forall W (weights q) ->
  Forall2 Q (map g (points q)) (map g' (points q)) -> Q (par_run t1 t2 q g) (par_run t1 t2 q g').
Proof.
  intros t1 t2 q g g' Hq F Hw H. rewrite (points_pts q Hq) in H. rewrite !(par_shape _ _ q _ Hq).
  apply shape_rel; [apply psum_respects|apply psum_respects|apply map_length|exact F|exact Hw|exact H].
Qed.
Lemma value_rel : forall (q : quadrature A) g g', usable q -> factors q -> Forall W (weights q) ->
  Forall2 Q (map g (points q)) (map g' (points q)) -> Q (value q g) (value q g').
Proof. intros q g g' Hq F Hw H. apply run_rel; try assumption. rewrite !call_all_pure. exact H. Qed.
Lemma map_rel : forall (g g' : A -> A) l, (forall x, Q (g x) (g' x)) -> Forall2 Q (map g l) (map g' l).
Proof. intros g g' l H. induction l; cbn [map]; constructor; [apply H|assumption]. Qed.
Lemma iterated_rel : forall (qs : list (list A -> quadrature A)) g g' xs, Forall (fun q => forall xs, usable (q xs) /\ factors (q xs) /\ Forall W (weights (q xs))) qs ->
  (forall ys, Q (g ys) (g' ys)) -> Q (iterated qs g xs) (iterated qs g' xs).
Proof.
  intros qs g g' xs H Hg. revert xs. induction H as [|q qs Hq _ IH]; intros xs; cbn [iterated]; [apply Hg|].
  destruct (Hq xs) as (H1 & H2 & H3). apply value_rel; try assumption. apply map_rel. intros x. apply IH.
Qed.
End Rel.

Section Float.
Variable be : Backend.
Notation A := (F64 be).
Lemma two_pos : ffin (@lit2 A) /\ (0 < fval (@lit2 A))%R.
Proof.
  destruct (lit_int_exact 2) as [H1 H2]; [lia|]. split; [exact H1|]. change (0 < fval (f64_lit 2 0))%R. rewrite H2. lra.
Qed.
Lemma factors_all : forall q : quadrature A, factors (fun _ => True) q. Proof. intros []; exact I. Qed.
Lemma weights_all : forall q : quadrature A, Forall (fun _ => True) (weights q). Proof. intros q. apply Forall_forall. intros; exact I. Qed.
Lemma opp_zero : opp (@nnegzero A) (@nnegzero A).
Proof. right. split; [discriminate|]. split; [discriminate|]. unfold ev, fval. simpl. lra. Qed.
Lemma le_zero : le (@nnegzero A) (@nnegzero A). Proof. right. right. apply Rle_refl. Qed.
Lemma opps : forall l l' : list A, Forall2 opposite l l' <-> Forall2 opp l l'.
Proof. intros l l'. split; intros H; induction H; constructor; try assumption; apply opp_iff; assumption. Qed.
Lemma les : forall l l' : list A, Forall2 not_above l l' <-> Forall2 le l l'.
Proof. intros l l'. split; intros H; induction H; constructor; try assumption; apply (le_iff be); assumption. Qed.
Lemma run_opposite : forall (q : quadrature A) (S S' : Type) (f : S -> A -> A * S) (f' : S' -> A -> A * S') s s', usable q ->
  Forall2 opposite (fst (call_all f (points q) s)) (fst (call_all f' (points q) s')) -> opposite (fst (run q f s)) (fst (run q f' s')).
Proof.
  intros q S S' f f' s s' Hq H. apply opp_iff. destruct two_pos as [T1 T2].
  apply (run_rel (A := A) opp (fun _ => True) opp_zero (opp_add be) (fun x x' w _ => opp_mul_r be x x' w) (fun x x' w _ => opp_mul_l be x x' w) (fun x x' => opp_div be x x' _ T1 T2) I I q); [exact Hq|apply factors_all|apply weights_all|apply opps, H].
Qed.
Lemma par_opposite : forall t1 t2 (q : quadrature A) (g g' : A -> A), usable q -> Forall2 opposite (map g (points q)) (map g' (points q)) -> opposite (par_run t1 t2 q g) (par_run t1 t2 q g').
Proof.
  intros t1 t2 q g g' Hq H. apply opp_iff. destruct two_pos as [T1 T2].
  apply (par_rel (A := A) opp (fun _ => True) opp_zero (opp_add be) (fun x x' w _ => opp_mul_r be x x' w) (fun x x' w _ => opp_mul_l be x x' w) (fun x x' => opp_div be x x' _ T1 T2) I I); [exact Hq|apply factors_all|apply weights_all|apply opps, H].
Qed.
Lemma nested_opposite : forall (qs : list (list A -> quadrature A)) g g' xs, Forall (fun q => forall xs, usable (q xs)) qs ->
  (forall ys, opposite (g ys) (g' ys)) -> opposite (iterated qs g xs) (iterated qs g' xs).
Proof.
  intros qs g g' xs Hq H. apply opp_iff. destruct two_pos as [T1 T2].
  apply (iterated_rel (A := A) opp (fun _ => True) opp_zero (opp_add be) (fun x x' w _ => opp_mul_r be x x' w) (fun x x' w _ => opp_mul_l be x x' w) (fun x x' => opp_div be x x' _ T1 T2) I I).
  - eapply Forall_impl; [|exact Hq]. intros q Hu ys. split; [apply Hu|]. split; [apply factors_all|apply weights_all].
  - intros ys. apply opp_iff, H.
Qed.
Lemma negate_opposite : forall n (x : A), opposite x (negate n x).
Proof.
  intros n x. unfold negate. destruct x as [s|s|s p H|s m e H].
  - right. right. split; [reflexivity|]. split; [reflexivity|]. unfold fval. simpl. lra.
  - right. left. exists s. split; reflexivity.
  - left. split; [reflexivity|]. unfold fnan. unfold Bopp. apply is_nan_build_nan.
  - right. right. split; [reflexivity|]. split; [reflexivity|]. unfold fval. apply B2R_Bopp.
Qed.
Lemma negate_value : forall n t1 t2 (q : quadrature A) g, usable q ->
  opposite (value q g) (value q (fun x => negate n (g x))) /\ opposite (par_run t1 t2 q g) (par_run t1 t2 q (fun x => negate n (g x))).
Proof.
  intros n t1 t2 q g Hq. assert (H : Forall2 opposite (map g (points q)) (map (fun x => negate n (g x)) (points q))).
  { apply (map_rel (A := A) opposite). intros x. apply negate_opposite. }
  split; [|apply par_opposite; assumption]. apply run_opposite; [exact Hq|]. rewrite !call_all_pure. exact H.
Qed.

Lemma forward_usable : forall q : quadrature A, forward q -> usable q.
Proof. intros q (H & _). destruct q; cbn [usable]; try exact I; apply H. Qed.
Lemma six : ffin (@nlit A 6 0) /\ (0 < fval (@nlit A 6 0))%R.
Proof. destruct (lit_int_exact 6) as [H1 H2]; [lia|]. split; [exact H1|]. change (0 < fval (f64_lit 6 0))%R. rewrite H2. lra. Qed.
Lemma forward_factors : forall q : quadrature A, forward q -> factors (A := A) nn q.
Proof.
  intros q (H1 & H2 & _). destruct six as [S1 S2]. destruct q; cbn [factors bounds] in *; try exact I.
  - apply width_nn; assumption.
  - apply width_nn; assumption.
  - apply nn_div; [apply width_nn; assumption|exact S1|exact S2].
  - apply sf_nn, H2.
  - apply sf_nn, H2.
  - apply sf_nn, H2.
  - apply sf_nn, H2.
Qed.
Lemma forward_weights : forall q : quadrature A, forward q -> Forall nn (weights q).
Proof. intros q (_ & _ & H). eapply Forall_impl; [|exact H]. intros w Hw. apply (nn_iff be), Hw. Qed.
Lemma lit_nn2 : nn (@lit2 A). Proof. apply lit_pos. lia. Qed.
Lemma lit_nn4 : nn (@nlit A 4 0). Proof. apply lit_pos. lia. Qed.
Lemma run_monotone : forall (q : quadrature A) (S S' : Type) (f : S -> A -> A * S) (f' : S' -> A -> A * S') s s', forward q ->
  Forall2 not_above (fst (call_all f (points q) s)) (fst (call_all f' (points q) s')) -> not_above (fst (run q f s)) (fst (run q f' s')).
Proof.
  intros q S S' f f' s s' Hq H. apply le_iff. destruct two_pos as [T1 T2].
  apply (run_rel (A := A) le nn le_zero (le_add be) (le_mul_r be) (le_mul_l be) (fun x x' => le_div be x x' _ T1 T2) lit_nn2 lit_nn4 q); [apply forward_usable, Hq|apply forward_factors, Hq|apply forward_weights, Hq|apply les, H].
Qed.
Lemma par_monotone : forall t1 t2 (q : quadrature A) (g g' : A -> A), forward q -> Forall2 not_above (map g (points q)) (map g' (points q)) -> not_above (par_run t1 t2 q g) (par_run t1 t2 q g').
Proof.
  intros t1 t2 q g g' Hq H. apply le_iff. destruct two_pos as [T1 T2].
  apply (par_rel (A := A) le nn le_zero (le_add be) (le_mul_r be) (le_mul_l be) (fun x x' => le_div be x x' _ T1 T2) lit_nn2 lit_nn4); [apply forward_usable, Hq|apply forward_factors, Hq|apply forward_weights, Hq|apply les, H].
Qed.
Lemma nested_monotone : forall (qs : list (list A -> quadrature A)) g g' xs, Forall (fun q => forall xs, forward (q xs)) qs ->
  (forall ys, not_above (g ys) (g' ys)) -> not_above (iterated qs g xs) (iterated qs g' xs).
Proof.
  intros qs g g' xs Hq H. apply le_iff. destruct two_pos as [T1 T2].
  apply (iterated_rel (A := A) le nn le_zero (le_add be) (le_mul_r be) (le_mul_l be) (fun x x' => le_div be x x' _ T1 T2) lit_nn2 lit_nn4).
  - eapply Forall_impl; [|exact Hq]. intros q Hu ys. split; [apply forward_usable, Hu|]. split; [apply forward_factors, Hu|apply forward_weights, Hu].
  - intros ys. apply le_iff, H.
Qed.
Lemma between : forall t1 t2 (q : quadrature A) (g : A -> A) (lo hi : A), forward q -> Forall (fun x => not_above lo (g x) /\ not_above (g x) hi) (points q) ->
  (not_above (value q (fun _ => lo)) (value q g) /\ not_above (value q g) (value q (fun _ => hi))) /\
  (not_above (par_run t1 t2 q (fun _ => lo)) (par_run t1 t2 q g) /\ not_above (par_run t1 t2 q g) (par_run t1 t2 q (fun _ => hi))).
Proof.
  intros t1 t2 q g lo hi Hq H.
  assert (L : Forall2 not_above (map (fun _ => lo) (points q)) (map g (points q))) by (clear - H; induction H as [|x l Hx _ IH]; cbn [map]; constructor; [apply Hx|exact IH]).
  assert (U : Forall2 not_above (map g (points q)) (map (fun _ => hi) (points q))) by (clear - H; induction H as [|x l Hx _ IH]; cbn [map]; constructor; [apply Hx|exact IH]).
  split; split; try (apply par_monotone; assumption); (apply run_monotone; [exact Hq|]); rewrite !call_all_pure; assumption.
Qed.
Lemma unit_forward : nlt (@lit1 A) (@lit0 A) = false.
Proof.
  destruct (lit_int_exact 1) as [H1 H2]; [lia|]. destruct (lit_int_exact 0) as [H3 H4]; [lia|]. destruct (nlt (@lit1 A) (@lit0 A)) eqn:E; [|reflexivity]. exfalso.
  apply (lt_finite be (@lit1 A) (@lit0 A) H1 H3) in E. change (fval (f64_lit 1 0) < fval (f64_lit 0 0))%R in E. rewrite H2, H4 in E. lra.
Qed.
Lemma simpson_forward : forall n, nonzero_u32 n -> forward (QSimpson (A := A) n lit0 lit1).
Proof. intros n Hn. split; [exact Hn|]. split; [exact unit_forward|constructor]. Qed.
Lemma chebyshev_forward : forall t n (r : GaussChebyshevFirstKind A), (1 <= n < 2 ^ 64)%Z -> chebyshev1_new t n = Ok r -> forward (QChebyshev1 r lit0 lit1).
Proof.
  intros t n r Hn Hr. split; [exact I|]. split; [exact unit_forward|]. cbn [weights]. apply Forall_forall. intros w Hw. apply in_map_iff in Hw. destruct Hw as (p & <- & Hp).
  assert (F := chebyshev1_weights_nn be t n r Hn Hr). unfold weights_not_negative in F. rewrite Forall_forall in F. apply F, Hp.
Qed.
End Float.
