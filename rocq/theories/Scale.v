(** Scaling the integrand by a power of two scales the result exactly, as long as nothing overflows or underflows. *)
From Coq Require Import Reals ZArith List Lra Lia Bool.
From Flocq Require Import Core IEEE754.Binary.
From Verif Require Import Arith F64 F64Spec F64Proof Machine Iter Rules Par NewtonCotes Chebyshev Hermite Laguerre Legendre Jacobi
  IntegrateSpec IntegrateProof GaussSpec GaussProof TraceProof NestSpec NestProof ExcSpec Exc ScaleSpec.
Import ListNotations.
Local Open Scope R_scope.

(** integer multiples of 2^e *)
Definition mult (e : Z) (v : R) : Prop := exists m : Z, v = IZR m * bpow radix2 e.
Lemma mult_0 : forall e, mult e 0. Proof. intros e. exists 0%Z. ring. Qed.
Lemma mult_add : forall e u v, mult e u -> mult e v -> mult e (u + v).
Proof. intros e u v [m ->] [n ->]. exists (m + n)%Z. rewrite plus_IZR. ring. Qed.
Lemma mult_mul : forall d e u v, mult d u -> mult e v -> mult (d + e) (u * v).
Proof. intros d e u v [m ->] [n ->]. exists (m * n)%Z. rewrite mult_IZR, bpow_plus. ring. Qed.
Lemma mult_weaken : forall d e u, (d <= e)%Z -> mult e u -> mult d u.
Proof.
  intros d e u H [m ->]. exists (m * 2 ^ (e - d))%Z. rewrite mult_IZR.
  change (2 ^ (e - d))%Z with (Zpower radix2 (e - d)). rewrite IZR_Zpower by lia. rewrite Rmult_assoc, <- bpow_plus. f_equal. f_equal. lia.
Qed.
Lemma mult_fix : forall e v, mult e v <-> generic_format radix2 (FIX_exp e) v.
Proof.
  intros e v. split.
  - intros [m ->]. apply generic_format_FIX. exists (Float radix2 m e); [|reflexivity]. unfold F2R. simpl. reflexivity.
  - intros H. apply FIX_format_generic in H. destruct H as [[m f] H1 H2]. simpl in H2. subst f. exists m. exact H1.
Qed.
Lemma mult_rnd : forall e v, mult e v -> mult e (rnd v).
Proof.
  intros e v H. apply mult_fix. apply mult_fix in H. unfold rnd. apply generic_round_generic; [apply FIX_exp_valid|apply FLT_exp_valid; reflexivity|apply valid_rnd_N|exact H].
Qed.
Lemma format_mult : forall e v, generic_format radix2 (FLT_exp (-1074) 53) v -> bpow radix2 e <= Rabs v -> mult (e - 52) v.
Proof.
  intros e v F H. unfold generic_format in F. rewrite F. unfold F2R. simpl Fnum. simpl Fexp. set (m := Ztrunc (scaled_mantissa radix2 (FLT_exp (-1074) 53) v)).
  apply (mult_weaken _ (cexp radix2 (FLT_exp (-1074) 53) v)); [|exists m; reflexivity].
  unfold cexp, FLT_exp. assert (e < mag radix2 v)%Z; [|lia]. apply mag_gt_bpow. exact H.
Qed.

Lemma flx_scale : forall k v, round radix2 (FLX_exp 53) ZnearestE (bpow radix2 k * v) = bpow radix2 k * round radix2 (FLX_exp 53) ZnearestE v.
Proof.
  intros k v. destruct (Req_dec v 0) as [->|Nz]; [rewrite Rmult_0_r, round_0 by apply valid_rnd_N; ring|].
  assert (M : mag radix2 (bpow radix2 k * v) = (mag radix2 v + k)%Z :> Z) by (rewrite Rmult_comm; apply mag_mult_bpow; exact Nz).
  assert (C : cexp radix2 (FLX_exp 53) (bpow radix2 k * v) = (cexp radix2 (FLX_exp 53) v + k)%Z) by (unfold cexp, FLX_exp; rewrite M; lia).
  unfold round, F2R. simpl Fnum. simpl Fexp. unfold scaled_mantissa. rewrite C.
  replace (bpow radix2 k * v * bpow radix2 (- (cexp radix2 (FLX_exp 53) v + k))) with (v * bpow radix2 (- cexp radix2 (FLX_exp 53) v)).
  - rewrite bpow_plus. ring.
  - replace (- (cexp radix2 (FLX_exp 53) v + k))%Z with (- cexp radix2 (FLX_exp 53) v + - k)%Z by lia. rewrite bpow_plus.
    assert (B : bpow radix2 k * bpow radix2 (- k) = 1) by (rewrite <- bpow_plus; replace (k + - k)%Z with 0%Z by lia; reflexivity).
    transitivity (v * bpow radix2 (- cexp radix2 (FLX_exp 53) v) * (bpow radix2 k * bpow radix2 (- k))); [rewrite B; ring|ring].
Qed.
Lemma rnd_flx : forall v, mult (-1074) v -> rnd v = round radix2 (FLX_exp 53) ZnearestE v.
Proof.
  intros v [m E]. unfold rnd. destruct (Rle_or_lt (bpow radix2 (-1074 + 53 - 1)) (Rabs v)) as [L|L].
  - apply round_FLT_FLX. exact L.
  - assert (F : generic_format radix2 (FLT_exp (-1074) 53) v).
    { apply generic_format_FLT. exists (Float radix2 m (-1074)); [exact E| |simpl; lia]. simpl Fnum.
      rewrite E, Rabs_mult, (Rabs_pos_eq (bpow radix2 (-1074))) in L by apply bpow_ge_0.
      replace (-1074 + 53 - 1)%Z with (52 + -1074)%Z in L by reflexivity. rewrite bpow_plus in L. apply Rmult_lt_reg_r in L; [|apply bpow_gt_0].
      rewrite <- abs_IZR in L. change (bpow radix2 52) with (IZR (2 ^ 52)) in L. apply lt_IZR in L. simpl radix_val. lia. }
    rewrite !round_generic; try apply valid_rnd_N; [reflexivity| |exact F].
    apply generic_format_FLX_FLT with (emin := (-1074)%Z). exact F.
Qed.
(** rounding commutes with scaling on multiples of the smallest subnormal *)
Lemma rnd_scale : forall e k v, (-1074 <= e)%Z -> mult e v -> mult e (bpow radix2 k * v) -> rnd (bpow radix2 k * v) = bpow radix2 k * rnd v.
Proof.
  intros e k v He H1 H2. rewrite !rnd_flx by (apply (mult_weaken _ e); assumption). apply flx_scale.
Qed.

Section Float.
Variable be : Backend.
Notation A := (F64 be).
Variable k : Z.
(** the relation between the two computations, with values that are multiples of 2^e; nothing is said after an overflow *)
Definition sc (e : Z) (x y : A) : Prop :=
  ffin x -> ffin y -> fval y = bpow radix2 k * fval x /\ mult e (fval x) /\ mult e (fval y).
Lemma sc_weaken : forall d e x y, (d <= e)%Z -> sc e x y -> sc d x y.
Proof. intros d e x y H S F G. destruct (S F G) as (S1 & S2 & S3). split; [exact S1|]. split; apply (mult_weaken d e); assumption. Qed.
Lemma sc_zero : forall e, sc e nnegzero nnegzero.
Proof. intros e _ _. change (fval (@nnegzero A)) with 0. split; [ring|]. split; apply mult_0. Qed.
Lemma sc_of : forall e k' u v (x y : A), (-1074 <= e)%Z -> k' = k -> fval x = rnd u -> fval y = rnd v -> v = bpow radix2 k * u -> mult e u -> mult e v ->
  fval y = bpow radix2 k * fval x /\ mult e (fval x) /\ mult e (fval y).
Proof.
  intros e k' u v x y He _ Ex Ey -> M1 M2. rewrite Ex, Ey. split; [apply (rnd_scale e); assumption|]. split; apply mult_rnd; assumption.
Qed.
Lemma sc_add : forall e x x' y y', (-1074 <= e)%Z -> sc e x x' -> sc e y y' -> sc e (nadd x y : A) (nadd x' y').
Proof.
  intros e x x' y y' He Sx Sy F G. destruct (add_finite_inv be x y F) as (F1 & F2 & _ & E1). destruct (add_finite_inv be x' y' G) as (G1 & G2 & _ & E2).
  destruct (Sx F1 G1) as (X1 & X2 & X3). destruct (Sy F2 G2) as (Y1 & Y2 & Y3).
  apply (sc_of e k _ _ _ _ He eq_refl E1 E2); [rewrite X1, Y1; ring|apply mult_add; assumption|apply mult_add; assumption].
Qed.
Lemma sc_mul_r : forall e d x x' (w : A), (-1074 <= e + d)%Z -> mult d (fval w) -> sc e x x' -> sc (e + d) (nmul x w : A) (nmul x' w).
Proof.
  intros e d x x' w He Mw Sx F G. destruct (mul_finite_inv be x w F) as (F1 & F2 & _ & E1). destruct (mul_finite_inv be x' w G) as (G1 & G2 & _ & E2).
  destruct (Sx F1 G1) as (X1 & X2 & X3).
  apply (sc_of (e + d) k _ _ _ _ He eq_refl E1 E2); [rewrite X1; ring|apply mult_mul; assumption|apply mult_mul; assumption].
Qed.
Lemma sc_mul_l : forall e d x x' (w : A), (-1074 <= e + d)%Z -> mult d (fval w) -> sc e x x' -> sc (e + d) (nmul w x : A) (nmul w x').
Proof.
  intros e d x x' w He Mw Sx F G. destruct (mul_finite_inv be w x F) as (F1 & F2 & _ & E1). destruct (mul_finite_inv be w x' G) as (G1 & G2 & _ & E2).
  destruct (Sx F2 G2) as (X1 & X2 & X3).
  apply (sc_of (e + d) k _ _ _ _ He eq_refl E1 E2); [rewrite X1; ring| |]; rewrite Rmult_comm; apply mult_mul; assumption.
Qed.
Lemma lit2_val : ffin (@lit2 A) /\ fval (@lit2 A) = 2.
Proof. exact (lit_int_exact 2 ltac:(lia)). Qed.
Lemma lit4_val : ffin (@nlit A 4 0) /\ fval (@nlit A 4 0) = 4.
Proof. exact (lit_int_exact 4 ltac:(lia)). Qed.
Lemma sc_half : forall e x x', (-1073 <= e)%Z -> sc e x x' -> sc (e - 1) (ndiv x lit2 : A) (ndiv x' lit2).
Proof.
  intros e x x' He Sx F G. destruct lit2_val as [T1 T2].
  destruct (div_finite_inv be x lit2 F) as (F1 & [(_ & _ & _ & E1)|(_ & N & _)]); [|contradiction].
  destruct (div_finite_inv be x' lit2 G) as (G1 & [(_ & _ & _ & E2)|(_ & N & _)]); [|contradiction].
  rewrite T2 in E1, E2. destruct (Sx F1 G1) as (X1 & X2 & X3).
  assert (Hf : forall u, mult e u -> mult (e - 1) (u / 2)).
  { intros u Mu. unfold Rdiv. change (/ 2) with (bpow radix2 (-1)). apply (mult_mul e (-1)); [exact Mu|]. exists 1%Z. ring. }
  apply (sc_of (e - 1) k _ _ _ _ ltac:(lia) eq_refl E1 E2); [rewrite X1; field|apply Hf; assumption|apply Hf; assumption].
Qed.

Lemma sc_fold : forall e l l' (z z' : A), (-1074 <= e)%Z -> Forall2 (sc e) l l' -> sc e z z' -> sc e (fold_left nadd l z : A) (fold_left nadd l' z').
Proof. intros e l l' z z' He H. revert z z'. induction H as [|x x' l l' Hx _ IH]; intros z z' Hz; [exact Hz|]. cbn [fold_left]. apply IH. apply sc_add; assumption. Qed.
Definition good (e : Z) (s : list A -> A) : Prop := forall l l', Forall2 (sc e) l l' -> sc e (s l) (s l').
Lemma sum_good : forall e, (-1074 <= e)%Z -> good e float_sum.
Proof. intros e He l l' H. apply sc_fold; [exact He|exact H|apply sc_zero]. Qed.
Lemma forall2_part : forall (P : A -> A -> Prop) (l l' : list A) j, Forall2 P l l' -> Forall2 P (firstn j l) (firstn j l') /\ Forall2 P (skipn j l) (skipn j l').
Proof.
  intros P l l' j H. revert j. induction H as [|x x' l l' Hx H IH]; intros [|j]; cbn [firstn skipn]; try (split; constructor; assumption); destruct (IH j) as [H1 H2]; split; [constructor; assumption|exact H2].
Qed.
Lemma psum_good : forall e t, (-1074 <= e)%Z -> good e (psum t).
Proof.
  intros e t He. unfold psum. induction t as [|m tl IHl tr IHr]; intros l l' H; cbn [par_sum]; unfold rayon_add; (apply sc_add; [exact He|apply sc_add; [exact He|apply sc_zero|]|]).
  - apply sc_zero.
  - rewrite !iter_sum_vals, !map_id. apply sum_good; assumption.
  - apply IHl, forall2_part, H.
  - apply IHr, forall2_part, H.
Qed.
Lemma products_sc : forall e d vs vs' ws, (-1074 <= e + d)%Z -> Forall (fun w : A => mult d (fval w)) ws -> Forall2 (sc e) vs vs' -> Forall2 (sc (e + d)) (products vs ws) (products vs' ws).
Proof.
  intros e d vs vs' ws He Hw H. revert ws Hw. unfold products. induction H as [|x x' l l' Hx H IH]; intros [|w ws] Hw; cbn [combine map]; try constructor.
  - cbn [fst snd]. apply sc_mul_r; [exact He|exact (Forall_inv Hw)|exact Hx].
  - apply IH. exact (Forall_inv_tail Hw).
Qed.
Lemma forall2_len : forall (P : A -> A -> Prop) (l l' : list A), Forall2 P l l' -> length l' = length l.
Proof. intros P l l' H. induction H; [reflexivity|]. cbn [length]. rewrite IHForall2. reflexivity. Qed.
Lemma forall2_weaken : forall d e (l l' : list A), (d <= e)%Z -> Forall2 (sc e) l l' -> Forall2 (sc d) l l'.
Proof. intros d e l l' H F. induction F; constructor; [apply (sc_weaken d e); assumption|assumption]. Qed.

Lemma shape_sc : forall (q : quadrature A) s1 s2 vs vs' e d c, (forall e, (-1074 <= e)%Z -> good e s1) -> (forall e, (-1074 <= e)%Z -> good e s2) ->
  length vs = length (pts_of q) -> (d <= -1)%Z -> (c <= 0)%Z -> (-1074 <= e + d + c)%Z ->
  Forall (fun w : A => mult d (fval w)) (weights q) -> mult c (fval (outer_factor q)) -> Forall2 (sc e) vs vs' -> sc (e + d + c) (shape q s1 s2 vs) (shape q s1 s2 vs').
Proof.
  intros q s1 s2 vs vs' e d c N1 N2 L Hd Hc He Hw F H. pose proof (forall2_len _ _ _ H) as L'.
  assert (M2 : mult 0 (fval (@lit2 A))) by (rewrite (proj2 lit2_val); exists 2%Z; simpl; ring).
  assert (M4 : mult 0 (fval (@nlit A 4 0))) by (rewrite (proj2 lit4_val); exists 4%Z; simpl; ring).
  destruct q as [n a b|n a b|n a b|r a b|r a b|r a b|r a b|r|r]; cbn [outer_factor weights] in F, Hw.
  3:{ rewrite L in L'. destruct (simp_split n a b vs L) as (x & y & z & E). destruct (simp_split n a b vs' L') as (x' & y' & z' & E'). cbn [shape]. cbv zeta. rewrite E, E'. cbn [nth].
      set (j := Z.to_nat (n - 1)) in *. destruct (forall2_part _ _ _ j H) as [H1 H2]. destruct (forall2_part _ _ _ j H2) as [H3 H4]. rewrite E, E' in H4.
      inversion H4 as [|? ? ? ? Hx H5]; subst. inversion H5 as [|? ? ? ? Hy H6]; subst. inversion H6 as [|? ? ? ? Hz _]; subst.
      apply (sc_weaken _ (e + c)); [lia|]. apply sc_mul_l; [lia|exact F|].
      assert (Z : forall (u u' w : A), mult 0 (fval w) -> sc e u u' -> sc e (nmul w u : A) (nmul w u')). { intros u u' w Mw Su. apply (sc_weaken _ (e + 0)); [lia|]. apply sc_mul_l; [lia|exact Mw|exact Su]. }
      apply sc_add; [lia|apply sc_add; [lia|apply sc_add; [lia|apply sc_add; [lia| |]|]|]|]; [apply Z; [exact M2|apply N1; [lia|exact H1]]|apply Z; [exact M4|apply N2; [lia|exact H3]]|apply Z; [exact M4|exact Hx]|exact Hy|exact Hz]. }
  2:{ cbn [shape]. destruct H as [|fa fa' vs vs' Ha H]; [discriminate L|]. destruct H as [|fb fb' vs vs' Hb H]; [discriminate L|]. cbn [nth skipn].
      apply (sc_weaken _ (e - 1 + c)); [lia|]. apply sc_mul_r; [lia|exact F|]. apply sc_add; [lia|apply sc_half; [lia|apply sc_add; [lia|assumption|assumption]]|].
      apply (sc_weaken _ e); [lia|]. apply N1; [lia|exact H]. }
  all: cbn [shape].
  - apply (sc_weaken _ (e + c)); [lia|]. apply sc_mul_r; [lia|exact F|apply N1; [lia|exact H]].
  - apply sc_mul_l; [lia|exact F|apply N1; [lia|apply products_sc; [lia|assumption|assumption]]].
  - apply sc_mul_l; [lia|exact F|apply N1; [lia|apply products_sc; [lia|assumption|assumption]]].
  - apply sc_mul_r; [lia|exact F|apply N1; [lia|apply products_sc; [lia|assumption|assumption]]].
  - apply sc_mul_r; [lia|exact F|apply N1; [lia|apply products_sc; [lia|assumption|assumption]]].
  - apply (sc_weaken _ (e + d)); [lia|]. apply N1; [lia|apply products_sc; [lia|assumption|assumption]].
  - apply (sc_weaken _ (e + d)); [lia|]. apply N1; [lia|apply products_sc; [lia|assumption|assumption]].
Qed.

Lemma not_below_mult : forall e (x : A), not_below e x -> mult (e - 52) (fval x).
Proof. intros e x [F [->|H]]; [apply mult_0|]. apply format_mult; [apply fval_format|exact H]. Qed.
Lemma values_sc : forall v (l l' : list A), Forall2 (times_power k) l l' -> Forall (not_below (- v)) l -> Forall (not_below (- v)) l' -> Forall2 (sc (- v - 52)) l l'.
Proof.
  intros v l l' H. induction H as [|x y l l' (_ & _ & E) _ IH]; intros H1 H2; constructor.
  - intros _ _. split; [exact E|]. split; apply not_below_mult; [exact (Forall_inv H1)|exact (Forall_inv H2)].
  - apply IH; [exact (Forall_inv_tail H1)|exact (Forall_inv_tail H2)].
Qed.
Lemma weights_mult : forall w (l : list A), Forall (not_below (- w)) l -> Forall (fun x : A => mult (- w - 52) (fval x)) l.
Proof. intros w l H. eapply Forall_impl; [|exact H]. intros x Hx. apply not_below_mult, Hx. Qed.

Lemma run_scaled : forall (q : quadrature A) (S S' : Type) (f : S -> A -> A * S) (f' : S' -> A -> A * S') s s' v w h, usable q ->
  Forall2 (times_power k) (fst (call_all f (points q) s)) (fst (call_all f' (points q) s')) ->
  Forall (not_below (- v)) (fst (call_all f (points q) s)) -> Forall (not_below (- v)) (fst (call_all f' (points q) s')) ->
  Forall (not_below (- w)) (weights q) -> not_below (- h) (outer_factor q) -> (0 <= w)%Z -> (0 <= h)%Z -> (v + w + h <= 900)%Z ->
  ffin (fst (run q f s)) -> ffin (fst (run q f' s')) -> times_power k (fst (run q f s)) (fst (run q f' s')).
Proof.
  intros q S S' f f' s s' v w h Hq H V1 V2 Hw Hh Pw Ph B F G. split; [exact F|]. split; [exact G|].
  assert (X : sc (- v - 52 + (- w - 52) + (- h - 52)) (fst (run q f s)) (fst (run q f' s'))); [|apply (X F G)].
  rewrite (points_pts q Hq) in *. rewrite !(run_shape q Hq). cbn [fst].
  apply shape_sc; [apply sum_good|apply sum_good|apply call_all_length|lia|lia|lia|apply weights_mult, Hw|apply not_below_mult, Hh|apply values_sc; assumption].
Qed.
Lemma par_scaled : forall t1 t2 (q : quadrature A) (g g' : A -> A) v w h, usable q ->
  Forall2 (times_power k) (map g (points q)) (map g' (points q)) ->
  Forall (not_below (- v)) (map g (points q)) -> Forall (not_below (- v)) (map g' (points q)) ->
  Forall (not_below (- w)) (weights q) -> not_below (- h) (outer_factor q) -> (0 <= w)%Z -> (0 <= h)%Z -> (v + w + h <= 900)%Z ->
  ffin (par_run t1 t2 q g) -> ffin (par_run t1 t2 q g') -> times_power k (par_run t1 t2 q g) (par_run t1 t2 q g').
Proof.
  intros t1 t2 q g g' v w h Hq H V1 V2 Hw Hh Pw Ph B F G. split; [exact F|]. split; [exact G|].
  assert (X : sc (- v - 52 + (- w - 52) + (- h - 52)) (par_run t1 t2 q g) (par_run t1 t2 q g')); [|apply (X F G)].
  rewrite (points_pts q Hq) in *. rewrite !(par_shape _ _ q _ Hq).
  apply shape_sc; [intros; apply psum_good; assumption|intros; apply psum_good; assumption|apply map_length|lia|lia|lia|apply weights_mult, Hw|apply not_below_mult, Hh|apply values_sc; assumption].
Qed.
End Float.
