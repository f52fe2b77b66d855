(** Rounding errors of sums in double arithmetic, sequential and parallel. *)
From Coq Require Import Reals ZArith List Lra Lia Psatz.
From Flocq Require Import Core Plus_error Relative IEEE754.Binary.
From Verif Require Import Arith F64 F64Spec F64Proof RSum Machine Iter Rules Par Chebyshev Hermite Laguerre Legendre Jacobi NewtonCotes
  IntegrateSpec IntegrateProof GaussSpec GaussProof RoundSpec.
Import ListNotations.
Local Open Scope R_scope.

Lemma uro_pos : 0 < uro. Proof. apply bpow_gt_0. Qed.
Lemma eta_pos : 0 < eta. Proof. apply bpow_gt_0. Qed.
Lemma uro_u_ro : u_ro radix2 53 = uro.
Proof. unfold u_ro, uro. replace (/ 2) with (bpow radix2 (-1)) by reflexivity. rewrite <- bpow_plus. reflexivity. Qed.
Lemma eta_half : / 2 * bpow radix2 (-1074) = eta.
Proof. unfold eta. replace (/ 2) with (bpow radix2 (-1)) by reflexivity. rewrite <- bpow_plus. reflexivity. Qed.
Lemma small_eps : forall e, Rabs e <= uro / (1 + uro) -> Rabs e <= uro.
Proof.
  intros e H. pose proof uro_pos as U. eapply Rle_trans; [exact H|]. apply Rmult_le_reg_r with (1 + uro); [lra|].
  unfold Rdiv. rewrite Rmult_assoc, Rinv_l by lra. nra.
Qed.
Lemma rnd_add_err : forall x y, generic_format radix2 (FLT_exp (-1074) 53) x -> generic_format radix2 (FLT_exp (-1074) 53) y ->
  Rabs (rnd (x + y) - (x + y)) <= uro * Rabs (x + y).
Proof.
  intros x y Hx Hy. destruct (FLT_plus_error_N_ex radix2 (-1074) 53 (prec_gt_0_ := prec53) (fun z => negb (Z.even z)) x y Hx Hy) as (e & He & E).
  rewrite uro_u_ro in He. apply small_eps in He. unfold rnd. rewrite E.
  replace ((x + y) * (1 + e) - (x + y)) with (e * (x + y)) by ring. rewrite Rabs_mult. apply Rmult_le_compat_r; [apply Rabs_pos|exact He].
Qed.
Lemma rnd_err : forall x, Rabs (rnd x - x) <= uro * Rabs x + eta.
Proof.
  intros x. destruct (relative_error_N_FLT'_ex radix2 (-1074) 53 (eq_refl : (0 < 53)%Z) (fun z => negb (Z.even z)) x) as (e & h & He & Hh & _ & E).
  rewrite uro_u_ro in He. apply small_eps in He. rewrite eta_half in Hh. unfold rnd. rewrite E.
  replace (x * (1 + e) + h - x) with (e * x + h) by ring. eapply Rle_trans; [apply Rabs_triang|]. rewrite Rabs_mult.
  apply Rplus_le_compat; [apply Rmult_le_compat_r; [apply Rabs_pos|exact He]|exact Hh].
Qed.

Definition g (n : nat) : R := (1 + uro) ^ n.
Lemma g_ge1 : forall n, 1 <= g n. Proof. intros n. apply pow_R1_Rle. pose proof uro_pos. lra. Qed.
Lemma g_mono : forall n m, (n <= m)%nat -> g n <= g m. Proof. intros n m H. apply Rle_pow; [pose proof uro_pos; lra|exact H]. Qed.
Lemma g_S : forall n, g (S n) = (1 + uro) * g n. Proof. reflexivity. Qed.

(** combining two approximations of sums by one rounded addition *)
Lemma add_err : forall x y ex ey ax ay k, generic_format radix2 (FLT_exp (-1074) 53) x -> generic_format radix2 (FLT_exp (-1074) 53) y ->
  Rabs ex <= ax -> Rabs ey <= ay -> Rabs (x - ex) <= (g k - 1) * ax -> Rabs (y - ey) <= (g k - 1) * ay ->
  Rabs (rnd (x + y) - (ex + ey)) <= (g (S k) - 1) * (ax + ay).
Proof.
  intros x y ex ey ax ay k Fx Fy Hx Hy Ex Ey. pose proof uro_pos as U. pose proof (g_ge1 k) as G.
  assert (X : Rabs x <= g k * ax). { replace x with ((x - ex) + ex) by ring. eapply Rle_trans; [apply Rabs_triang|]. lra. }
  assert (Y : Rabs y <= g k * ay). { replace y with ((y - ey) + ey) by ring. eapply Rle_trans; [apply Rabs_triang|]. lra. }
  replace (rnd (x + y) - (ex + ey)) with ((rnd (x + y) - (x + y)) + ((x - ex) + (y - ey))) by ring.
  eapply Rle_trans; [apply Rabs_triang|]. pose proof (rnd_add_err x y Fx Fy) as R.
  assert (S : Rabs (x + y) <= g k * (ax + ay)) by (eapply Rle_trans; [apply Rabs_triang|]; lra).
  assert (Q : Rabs ((x - ex) + (y - ey)) <= (g k - 1) * (ax + ay)) by (eapply Rle_trans; [apply Rabs_triang|]; lra).
  rewrite g_S. assert (uro * Rabs (x + y) <= uro * (g k * (ax + ay))) by (apply Rmult_le_compat_l; lra). lra.
Qed.

Notation vsum := total.
Notation asum := abs_total.
Lemma vsum_app : forall l m, vsum (l ++ m) = vsum l + vsum m. Proof. intros. unfold total. rewrite map_app, lsum_app. reflexivity. Qed.
Lemma asum_app : forall l m, asum (l ++ m) = asum l + asum m. Proof. intros. unfold abs_total. rewrite map_app, lsum_app. reflexivity. Qed.
Lemma vsum_abs : forall l, Rabs (vsum l) <= asum l.
Proof.
  induction l as [|x l IH]; [unfold total, abs_total; simpl; rewrite Rabs_R0; lra|].
  change (vsum (x :: l)) with (fval x + vsum l). change (asum (x :: l)) with (Rabs (fval x) + asum l). eapply Rle_trans; [apply Rabs_triang|]. lra.
Qed.
Lemma asum_pos : forall l, 0 <= asum l. Proof. intros l. eapply Rle_trans; [apply Rabs_pos|apply vsum_abs]. Qed.

Section F.
Variable be : Backend.
Notation A := (F64 be).

(** finite results come from finite arguments *)
Lemma fold_finite : forall (l : list A) (x : A), ffin (fold_left nadd l x) -> ffin x /\ Forall ffin l.
Proof.
  induction l as [|y l IH]; intros x H; [split; [exact H|constructor]|]. cbn [fold_left] in H. apply IH in H. destruct H as [H1 H2].
  apply add_finite_inv in H1. destruct H1 as (Hx & Hy & _). split; [exact Hx|constructor; assumption].
Qed.
Lemma fold_err : forall (l : list A) (x : A) e a k, ffin (fold_left nadd l x) -> Rabs e <= a -> Rabs (fval x - e) <= (g k - 1) * a ->
  Rabs (fval (fold_left nadd l x) - (e + vsum l)) <= (g (k + length l) - 1) * (a + asum l).
Proof.
  induction l as [|y l IH]; intros x e a k H He Hx.
  - cbn [fold_left length]. unfold total, abs_total. cbn [map lsum]. rewrite Nat.add_0_r, !Rplus_0_r. exact Hx.
  - cbn [fold_left] in *. pose proof (fold_finite _ _ H) as [Hs _]. apply add_finite_inv in Hs. destruct Hs as (_ & _ & _ & E).
    change (vsum (y :: l)) with (fval y + vsum l). change (asum (y :: l)) with (Rabs (fval y) + asum l).
    cbn [length]. replace (k + S (length l))%nat with (S k + length l)%nat by lia. rewrite <- !Rplus_assoc. apply IH; [exact H| |].
    + eapply Rle_trans; [apply Rabs_triang|]. lra.
    + refine (eq_ind_r (fun z => Rabs (z - _) <= _) _ E). apply add_err; try apply fval_format; try assumption; [lra|].
      rewrite Rminus_diag_eq, Rabs_R0 by reflexivity. pose proof (g_ge1 k). apply Rmult_le_pos; [lra|apply Rabs_pos].
Qed.
Lemma negzero_add : forall x : A, ffin (nadd nnegzero x) -> ffin x /\ fval (nadd nnegzero x) = fval x.
Proof.
  intros x H. apply add_finite_inv in H. destruct H as (_ & Hx & _ & E). split; [exact Hx|].
  refine (eq_trans E _). change (fval (@nnegzero A)) with 0. rewrite Rplus_0_l. apply rnd_fval.
Qed.
Definition sum_ok (s : A) (l : list A) : Prop :=
  (ffin s -> Forall ffin l) /\ (ffin s -> Rabs (fval s - vsum l) <= (g (length l - 1) - 1) * asum l).
Lemma float_sum_ok : forall l : list A, sum_ok (float_sum l) l.
Proof.
  intros l. split.
  - intros H. apply fold_finite in H. apply H.
  - unfold float_sum. destruct l as [|x l].
    + intros _. cbn [fold_left]. change (fval (@nnegzero A)) with 0. unfold total, abs_total. simpl. rewrite Rminus_0_r, Rabs_R0. unfold g. simpl. lra.
    + cbn [fold_left length]. intros H. rewrite Nat.sub_succ, Nat.sub_0_r.
      pose proof (fold_finite _ _ H) as [Hs _]. destruct (negzero_add x Hs) as [Hx E].
      pose proof (fold_err l (nadd nnegzero x) (fval x) (Rabs (fval x)) 0 H (Rle_refl _)) as B. cbn [Nat.add] in B. apply B.
      refine (eq_ind_r (fun z => Rabs (z - _) <= _) _ E). rewrite Rminus_diag_eq, Rabs_R0 by reflexivity. unfold g. simpl. lra.
Qed.
Lemma rayon_add_ok : forall x y : A, ffin (rayon_add x y) -> ffin x /\ ffin y /\ fval (rayon_add x y) = rnd (fval x + fval y).
Proof.
  intros x y H. unfold rayon_add in *. apply add_finite_inv in H. destruct H as (H1 & H2 & _ & E). destruct (negzero_add x H1) as [Hx Ex].
  split; [exact Hx|]. split; [exact H2|]. refine (eq_trans E _). f_equal. f_equal. exact Ex.
Qed.
Lemma iter_sum_map : forall X (f : X -> A) (l : list X), fst (iter_sum (fun (_ : unit) x => (f x, tt)) l tt) = float_sum (map f l).
Proof.
  intros X f l. unfold iter_sum, float_sum. generalize (@nnegzero A). induction l as [|x l IH]; intros acc; [reflexivity|]. cbn [map fold_left]. rewrite <- IH. reflexivity.
Qed.
Lemma par_sum_ok : forall X (f : X -> A) (t : Sched) (l : list X), sum_ok (par_sum t f l) (map f l).
Proof.
  intros X f t. induction t as [|m tl IHl tr IHr]; intros l.
  - cbn [par_sum]. rewrite iter_sum_map. destruct (float_sum_ok (map f l)) as [F1 F2].
    split; intros H; destruct (rayon_add_ok _ _ H) as (_ & Hs & E).
    + apply F1, Hs.
    + refine (eq_ind_r (fun z => Rabs (z - _) <= _) _ E). change (fval (@nnegzero A)) with 0. rewrite Rplus_0_l, rnd_fval. apply F2, Hs.
  - cbn [par_sum]. set (l1 := firstn m l) in *. set (l2 := skipn m l) in *.
    assert (L : map f l = map f l1 ++ map f l2) by (rewrite <- map_app; unfold l1, l2; rewrite firstn_skipn; reflexivity). rewrite L.
    destruct (IHl l1) as [A1 A2]. destruct (IHr l2) as [B1 B2]. set (s1 := par_sum tl f l1) in *. set (s2 := par_sum tr f l2) in *.
    split; intros H; destruct (rayon_add_ok _ _ H) as (Hx & Hy & E).
    + apply Forall_app. split; [apply A1, Hx|apply B1, Hy].
    + refine (eq_ind_r (fun z => Rabs (z - _) <= _) _ E). specialize (A2 Hx). specialize (B2 Hy). rewrite vsum_app, asum_app, app_length.
      destruct (map f l1) as [|p1 m1] eqn:E1.
      { assert (Z1 : fval s1 = 0). { unfold total, abs_total in A2. simpl in A2. rewrite Rmult_0_r, Rminus_0_r in A2. destruct (Req_dec (fval s1) 0) as [Z|Z]; [exact Z|]. apply Rabs_pos_lt in Z. lra. }
        rewrite Z1. unfold total at 1, abs_total at 1. cbn [map lsum length]. rewrite !Rplus_0_l, rnd_fval. exact B2. }
      destruct (map f l2) as [|p2 m2] eqn:E2.
      { assert (Z2 : fval s2 = 0). { unfold total, abs_total in B2. simpl in B2. rewrite Rmult_0_r, Rminus_0_r in B2. destruct (Req_dec (fval s2) 0) as [Z|Z]; [exact Z|]. apply Rabs_pos_lt in Z. lra. }
        rewrite Z2. unfold total at 2, abs_total at 2. cbn [map lsum]. rewrite !Rplus_0_r, rnd_fval. cbn [length] in A2 |- *. rewrite Nat.add_0_r. exact A2. }
      replace (length (p1 :: m1) + length (p2 :: m2) - 1)%nat with (S (length m1 + length m2)) by (cbn [length]; lia).
      cbn [length] in A2, B2. rewrite Nat.sub_succ, Nat.sub_0_r in A2, B2.
      apply add_err; try apply fval_format; try apply vsum_abs.
      * eapply Rle_trans; [exact A2|]. apply Rmult_le_compat_r; [apply asum_pos|]. apply Rplus_le_compat_r, g_mono. lia.
      * eapply Rle_trans; [exact B2|]. apply Rmult_le_compat_r; [apply asum_pos|]. apply Rplus_le_compat_r, g_mono. lia.
Qed.

(** sums of products *)
Lemma prod_err : forall (q : list (A * A)) s, sum_ok s (map (fun vw => nmul (fst vw) (snd vw)) q) -> ffin s ->
  Rabs (fval s - lsum (map (fun vw => fval (fst vw) * fval (snd vw)) q)) <= sum_bound (length q) (lsum (map (fun vw => Rabs (fval (fst vw) * fval (snd vw))) q)).
Proof.
  intros q s [F E] H. specialize (F H). specialize (E H). rewrite map_length in E.
  set (p := map (fun vw => nmul (fst vw) (snd vw)) q) in *. set (S := lsum (map (fun vw => Rabs (fval (fst vw) * fval (snd vw))) q)).
  set (e := lsum (map (fun vw => fval (fst vw) * fval (snd vw)) q)).
  assert (D : Rabs (vsum p - e) <= uro * S + INR (length q) * eta /\ asum p <= (1 + uro) * S + INR (length q) * eta).
  { unfold p, S, e in *. clear -F. induction q as [|[v w] q IH]; [unfold total, abs_total; cbn [map lsum length INR]; rewrite Rminus_0_r, Rabs_R0; lra|].
    cbn [map] in F. inversion F as [|z zs Hz Hzs]; subst. specialize (IH Hzs). destruct IH as [I1 I2]. cbn [fst snd] in Hz.
    apply mul_finite_inv in Hz. destruct Hz as (_ & _ & _ & Em). cbn [map lsum fst snd]. 
    change (vsum (nmul v w :: ?m)) with (fval (nmul v w) + vsum m). change (asum (nmul v w :: ?m)) with (Rabs (fval (nmul v w)) + asum m).
    set (vs := vsum _) in *. set (es := lsum (map (fun vw => fval (fst vw) * fval (snd vw)) q)) in *. set (As := asum _) in *. set (Ss := lsum _) in *.
    pose proof (rnd_err (fval v * fval w)) as R. set (x := fval v * fval w) in *.
    assert (R1 : Rabs (fval (nmul v w) - x) <= uro * Rabs x + eta) by (refine (eq_ind_r (fun z => Rabs (z - _) <= _) R Em)).
    set (y := fval (nmul v w)) in *. change (length ((v, w) :: q)) with (Datatypes.S (length q)). rewrite S_INR. split.
    - replace (y + vs - (x + es)) with ((y - x) + (vs - es)) by ring. eapply Rle_trans; [apply Rabs_triang|]. lra.
    - assert (Rabs y <= Rabs x + (uro * Rabs x + eta)). { replace y with (x + (y - x)) by ring. eapply Rle_trans; [apply Rabs_triang|]. lra. } lra. }
  destruct D as [D1 D2]. unfold sum_bound. fold (g (length q)).
  pose proof uro_pos as U. pose proof eta_pos as T. assert (PS : 0 <= S) by (unfold S; clear; induction q as [|[v w] q IH]; cbn [map lsum]; [lra|pose proof (Rabs_pos (fval v * fval w)); cbn [fst snd]; lra]).
  replace (fval s - e) with ((fval s - vsum p) + (vsum p - e)) by ring. eapply Rle_trans; [apply Rabs_triang|].
  destruct q as [|x q].
  { cbn [length INR] in *. unfold g in *. cbn [pow Nat.sub] in *. assert (S = 0) by reflexivity. rewrite H0 in *. lra. }
  cbn [length] in *. rewrite Nat.sub_succ, Nat.sub_0_r in E. rewrite g_S. set (k := length q) in *. pose proof (g_ge1 k) as G.
  assert (M : (g k - 1) * asum p <= (g k - 1) * ((1 + uro) * S + INR (Datatypes.S k) * eta)) by (apply Rmult_le_compat_l; lra).
  assert (PK : 0 <= INR (Datatypes.S k) * eta) by (apply Rmult_le_pos; [apply pos_INR|lra]).
  assert (N : 0 <= uro * g k * (INR (Datatypes.S k) * eta)) by (apply Rmult_le_pos; [apply Rmult_le_pos; lra|exact PK]). nra.
Qed.
Lemma weighted_sum_err : forall vs ws : list A, ffin (weighted_sum vs ws) ->
  Rabs (fval (weighted_sum vs ws) - exact_sum vs ws) <= sum_bound (length (combine vs ws)) (abs_sum vs ws).
Proof. intros vs ws H. unfold weighted_sum in *. apply prod_err; [apply float_sum_ok|exact H]. Qed.
Lemma par_weighted_err : forall (t : Sched) (f : A -> A) (l : list (A * A)),
  ffin (par_sum t (fun '(x, w) => nmul (f x) w) l) ->
  Rabs (fval (par_sum t (fun '(x, w) => nmul (f x) w) l) - exact_sum (map f (map fst l)) (map snd l)) <=
  sum_bound (length l) (abs_sum (map f (map fst l)) (map snd l)).
Proof.
  intros t f l H. pose proof (par_sum_ok (A * A) (fun '(x, w) => nmul (f x) w) t l) as S.
  assert (C : @combine f64 f64 (map f (map fst l)) (map snd l) = map (fun xw : A * A => (f (fst xw), snd xw)) l).
  { clear. induction l as [|[x w] l IH]; [reflexivity|]. cbn [map combine fst snd]. refine (f_equal (cons (f x, w)) IH). }
  unfold exact_sum, abs_sum.
  refine (eq_ind_r (fun c => Rabs (_ - lsum (map (fun vw => fval (fst vw) * fval (snd vw)) c)) <= sum_bound _ (lsum (map (fun vw => Rabs (fval (fst vw) * fval (snd vw))) c))) _ C).
  rewrite <- (map_length (fun xw : A * A => (f (fst xw), snd xw)) l). apply prod_err; [|exact H].
  rewrite map_map. cbn [fst snd]. refine (eq_ind (map (fun '(x, w) => nmul (f x) w) l) (fun m => sum_ok _ m) S _ _).
  apply map_ext. intros [x w]. reflexivity.
Qed.
Lemma scale_err : forall (h s : A) (r : R) n e a, r = rnd (fval h * fval s) -> Rabs e <= a -> 
  Rabs (fval s - e) <= sum_bound n a -> Rabs (r - fval h * e) <= scaled_bound n (fval h) a.
Proof.
  intros h s r n e a -> He B. unfold sum_bound in B. unfold scaled_bound. fold (g n) in B. fold (g (n + 1)). rewrite Nat.add_1_r, g_S.
  pose proof uro_pos as U. pose proof eta_pos as T. pose proof (g_ge1 n) as G. pose proof (rnd_err (fval h * fval s)) as R.
  set (x := fval h) in *. set (y := fval s) in *. pose proof (Rabs_pos x) as Px. pose proof (pos_INR n) as Pn.
  assert (Y : Rabs y <= g n * a + INR n * g n * eta). { replace y with (e + (y - e)) by ring. eapply Rle_trans; [apply Rabs_triang|]. lra. }
  replace (rnd (x * y) - x * e) with ((rnd (x * y) - x * y) + x * (y - e)) by ring. eapply Rle_trans; [apply Rabs_triang|]. rewrite Rabs_mult in *.
  assert (M1 : uro * (Rabs x * Rabs y) <= uro * (Rabs x * (g n * a + INR n * g n * eta))) by (apply Rmult_le_compat_l; [lra|apply Rmult_le_compat_l; lra]).
  assert (M2 : Rabs x * Rabs (y - e) <= Rabs x * ((g n - 1) * a + INR n * g n * eta)) by (apply Rmult_le_compat_l; lra).
  eapply Rle_trans; [apply Rplus_le_compat; [eapply Rle_trans; [exact R|apply Rplus_le_compat_r; exact M1]|exact M2]|]. right. ring.
Qed.
Lemma exact_abs : forall vs ws : list f64, Rabs (exact_sum vs ws) <= abs_sum vs ws.
Proof.
  intros vs ws. unfold exact_sum, abs_sum. induction (combine vs ws) as [|[v w] l IH]; cbn [map lsum]; [rewrite Rabs_R0; lra|].
  eapply Rle_trans; [apply Rabs_triang|]. cbn [fst snd]. apply Rplus_le_compat_l. exact IH.
Qed.
Lemma call_all_length : forall S (f : S -> A -> A * S) pts s, length (fst (call_all f pts s)) = length pts.
Proof.
  intros S f pts. induction pts as [|x pts IH]; intros s; [reflexivity|]. cbn [call_all]. destruct (f s x) as [v s1].
  pose proof (IH s1) as H. destruct (call_all f pts s1) as [vs s2]. cbn [fst length] in *. rewrite H. reflexivity.
Qed.
Section Seq.
Context {S : Type} (f : S -> A -> A * S).
Lemma plain_err : forall (l : list (A * A)) pts s, length pts = length l ->
  let vs := fst (call_all f pts s) in ffin (weighted_sum vs (map snd l)) ->
  Rabs (fval (weighted_sum vs (map snd l)) - exact_sum vs (map snd l)) <= sum_bound (length l) (abs_sum vs (map snd l)).
Proof.
  intros l pts s L vs H. pose proof (weighted_sum_err vs (map snd l) H) as B. rewrite combine_length, map_length in B. unfold vs in B at 3.
  rewrite call_all_length, L, Nat.min_id in B. exact B.
Qed.
Lemma scaled_err_l : forall (l : list (A * A)) pts s h, length pts = length l ->
  let vs := fst (call_all f pts s) in ffin (nmul h (weighted_sum vs (map snd l))) ->
  Rabs (fval (nmul h (weighted_sum vs (map snd l))) - fval h * exact_sum vs (map snd l)) <= scaled_bound (length l) (fval h) (abs_sum vs (map snd l)).
Proof.
  intros l pts s h L vs H. apply mul_finite_inv in H. destruct H as (_ & Hs & _ & E).
  apply (scale_err h (weighted_sum vs (map snd l))); [exact E|apply exact_abs|apply plain_err; assumption].
Qed.
Lemma scaled_err_r : forall (l : list (A * A)) pts s h, length pts = length l ->
  let vs := fst (call_all f pts s) in ffin (nmul (weighted_sum vs (map snd l)) h) ->
  Rabs (fval (nmul (weighted_sum vs (map snd l)) h) - fval h * exact_sum vs (map snd l)) <= scaled_bound (length l) (fval h) (abs_sum vs (map snd l)).
Proof.
  intros l pts s h L vs H. apply mul_finite_inv in H. destruct H as (Hs & _ & _ & E).
  apply (scale_err h (weighted_sum vs (map snd l))); [rewrite Rmult_comm; exact E|apply exact_abs|apply plain_err; assumption].
Qed.
End Seq.
End F.
