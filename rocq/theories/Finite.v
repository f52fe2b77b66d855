(** No overflow: finite integrand values of moderate size give finite results. *)
From Coq Require Import Reals ZArith List Lra Lia.
From Flocq Require Import Core.
From Verif Require Import Arith F64 F64Spec Machine Rules Par Chebyshev Hermite Laguerre Legendre Jacobi NewtonCotes IntegrateProof GaussProof
  IntegrateSpec GaussSpec RSum RoundSpec F64Proof RoundProof RoundRules RoundNC AccF64 TrigSpec.
Import ListNotations.
Local Open Scope R_scope.

Notation top := (bpow radix2 1023).
Lemma top_big : 1 <= top. Proof. change 1 with (bpow radix2 0). apply bpow_le. lia. Qed.
Lemma kilo_top : forall c, (0 <= c <= 23)%Z -> bpow radix2 c * bpow radix2 1000 <= top.
Proof. intros c H. rewrite <- bpow_plus. apply bpow_le. lia. Qed.
Lemma ten_kilo : 10 * bpow radix2 1000 <= top.
Proof. pose proof (kilo_top 4 ltac:(lia)) as H. change (bpow radix2 4) with 16 in H. pose proof (bpow_ge_0 radix2 1000). lra. Qed.
Lemma g_small : forall n, INR n <= 2 ^ 41 -> g n <= 1001 / 1000.
Proof.
  intros n H. unfold g. apply Rle_trans with (exp (INR n * uro)).
  - clear H. induction n as [|n IH]; [simpl; rewrite Rmult_0_l, exp_0; lra|]. cbn [pow]. rewrite S_INR. replace ((INR n + 1) * uro) with (uro + INR n * uro) by ring. rewrite exp_plus.
    pose proof uro_pos. apply Rmult_le_compat; [lra|apply pow_le; lra| |exact IH]. left. apply exp_ineq1. lra.
  - pose proof uro_num as U. pose proof (pos_INR n) as P. assert (K : 0 <= INR n * uro <= / 2000).
    { split; [apply Rmult_le_pos; lra|]. apply Rle_trans with (2 ^ 41 * (1111 / 10 ^ 19)); [apply Rmult_le_compat; lra|lra]. }
    apply Rle_trans with (exp (/ 2000)); [destruct (proj2 K) as [L|L]; [left; apply exp_increasing, L|rewrite L; right; reflexivity]|].
    pose proof (exp_ineq1 (- / 2000) ltac:(lra)) as X. rewrite exp_Ropp in X. pose proof (exp_pos (/ 2000)) as Q. set (z := exp (/ 2000)) in *.
    apply (Rmult_lt_compat_r z) in X; [|exact Q]. rewrite Rinv_l in X by lra. lra.
Qed.

Section F.
Variable be : Backend.
Notation A := (F64 be).

Lemma fin_add : forall x y : A, ffin x -> ffin y -> Rabs (fval x + fval y) <= top -> ffin (nadd x y : A).
Proof. intros x y Fx Fy H. apply (add_finite be x y Fx Fy). apply no_overflow_small, H. Qed.
Lemma fin_mul : forall x y : A, ffin x -> ffin y -> Rabs (fval x * fval y) <= top -> ffin (nmul x y : A).
Proof. intros x y Fx Fy H. apply (mul_finite be x y Fx Fy). apply no_overflow_small, H. Qed.

(** the size of a computed sum *)
Lemma sum_size : forall s l, sum_ok be s l -> ffin s -> Rabs (fval s) <= g (length l - 1) * abs_total l.
Proof.
  intros s l [_ H] F. specialize (H F). pose proof (vsum_abs l) as V. replace (fval s) with ((fval s - total l) + total l) by ring.
  eapply Rle_trans; [apply Rabs_triang|]. lra.
Qed.
Lemma sum_size_n : forall s l n, sum_ok be s l -> ffin s -> (length l <= n)%nat -> Rabs (fval s) <= g n * abs_total l.
Proof.
  intros s l n O F H. eapply Rle_trans; [exact (sum_size s l O F)|]. apply Rmult_le_compat_r; [apply asum_pos|]. apply g_mono. lia.
Qed.
Lemma float_sum_fin : forall (l : list A) n, (length l <= n)%nat -> Forall ffin l -> g n * abs_total l <= top -> ffin (float_sum l).
Proof.
  intros l n. induction l as [|x l IH] using rev_ind; intros Hn HF HT.
  - reflexivity.
  - rewrite app_length in Hn. cbn [length] in Hn. apply Forall_app in HF. destruct HF as [HF HX]. inversion HX as [|y m Fx _]; subst y m.
    assert (EX : abs_total (l ++ [x]) = abs_total l + Rabs (fval x)) by (refine (eq_trans (asum_app l [x]) _); f_equal; unfold abs_total; cbn [map lsum fold_right]; unfold lsum; cbn [fold_right]; apply Rplus_0_r). rewrite EX in HT.
    pose proof (g_ge1 n) as G. pose proof (asum_pos l) as P. pose proof (Rabs_pos (fval x)) as PX.
    assert (F : ffin (float_sum l)). { apply IH; [lia|exact HF|]. nra. }
    unfold float_sum. rewrite fold_left_app. cbn [fold_left]. fold (float_sum l). apply fin_add; [exact F|exact Fx|].
    eapply Rle_trans; [apply Rabs_triang|]. pose proof (sum_size_n _ _ n (float_sum_ok be l) F ltac:(lia)) as S. 
    eapply Rle_trans; [apply Rplus_le_compat_r; exact S|]. nra.
Qed.
Lemma rayon_add_fin : forall x y : A, ffin x -> ffin y -> Rabs (fval x + fval y) <= top -> ffin (rayon_add x y).
Proof.
  intros x y Fx Fy H. unfold rayon_add. assert (Z : fval (@nnegzero A) = 0) by reflexivity.
  destruct (add_finite be (@nnegzero A) x) as [F E]; [reflexivity|exact Fx| |].
  { rewrite Z, Rplus_0_l. unfold no_overflow. rewrite rnd_fval. apply fval_bound. }
  apply fin_add; [exact F|exact Fy|]. rewrite Z, Rplus_0_l, rnd_fval in E. refine (eq_ind_r (fun z => Rabs (z + _) <= _) H E).
Qed.
Lemma par_sum_fin : forall X (f : X -> A) n t (l : list X), (length l <= n)%nat -> Forall ffin (map f l) -> g n * abs_total (map f l) <= top -> ffin (par_sum t f l).
Proof.
  intros X f n t. induction t as [|m tl IHl tr IHr]; intros l Hn HF HT.
  - cbn [par_sum]. rewrite iter_sum_map. assert (F : ffin (float_sum (map f l))) by (apply (float_sum_fin _ n); [rewrite map_length; exact Hn|exact HF|exact HT]).
    apply rayon_add_fin; [reflexivity|exact F|]. change (fval (@nnegzero A)) with 0. rewrite Rplus_0_l.
    eapply Rle_trans; [apply (sum_size_n _ _ n (float_sum_ok be _) F); rewrite map_length; exact Hn|exact HT].
  - cbn [par_sum]. set (l1 := firstn m l) in *. set (l2 := skipn m l) in *.
    assert (L : map f l = map f l1 ++ map f l2) by (rewrite <- map_app; unfold l1, l2; rewrite firstn_skipn; reflexivity).
    assert (LL : (length l1 + length l2 <= n)%nat). { rewrite <- app_length. unfold l1, l2. rewrite firstn_skipn. exact Hn. }
    rewrite L in HF, HT. assert (EA : abs_total (map f l1 ++ map f l2) = abs_total (map f l1) + abs_total (map f l2)) by exact (asum_app _ _). rewrite EA in HT. apply Forall_app in HF. destruct HF as [F1 F2].
    pose proof (g_ge1 n) as G. pose proof (asum_pos (map f l1)) as P1. pose proof (asum_pos (map f l2)) as P2.
    assert (S1 : ffin (par_sum tl f l1)) by (apply IHl; [lia|exact F1|nra]). assert (S2 : ffin (par_sum tr f l2)) by (apply IHr; [lia|exact F2|nra]).
    apply rayon_add_fin; [exact S1|exact S2|]. eapply Rle_trans; [apply Rabs_triang|].
    pose proof (sum_size_n _ _ n (par_sum_ok be X f tl l1) S1 ltac:(rewrite map_length; lia)) as Z1.
    pose proof (sum_size_n _ _ n (par_sum_ok be X f tr l2) S2 ltac:(rewrite map_length; lia)) as Z2. lra.
Qed.
(** both kinds of sums *)
Definition fin_ok (s : A) (l : list A) : Prop := forall n, (length l <= n)%nat -> Forall ffin l -> g n * abs_total l <= top -> ffin s.
Lemma float_fin_ok : forall l, fin_ok (float_sum l) l. Proof. intros l n. apply float_sum_fin. Qed.
Lemma par_fin_ok : forall X (f : X -> A) t l, fin_ok (par_sum t f l) (map f l).
Proof. intros X f t l n H. apply par_sum_fin. rewrite map_length in H. exact H. Qed.

(** sums of products *)
Lemma products : forall q : list (A * A), Forall (fun vw => ffin (fst vw) /\ ffin (snd vw)) q ->
  let P := lsum (map (fun vw => Rabs (fval (fst vw) * fval (snd vw))) q) in P <= top ->
  Forall ffin (map (fun vw => nmul (fst vw) (snd vw) : A) q) /\ 0 <= P /\ abs_total (map (fun vw => nmul (fst vw) (snd vw) : A) q) <= (1 + uro) * P + INR (length q) * eta.
Proof.
  induction q as [|[v w] q IH]; intros H P HP.
  - unfold P, abs_total. cbn [map lsum length INR fold_right]. split; [constructor|]. unfold lsum. cbn [fold_right]. lra.
  - inversion H as [|x y [Fv Fw] Hq]; subst x y. cbn [fst snd] in Fv, Fw. set (T := lsum (map (fun vw : f64 * f64 => Rabs (fval (fst vw) * fval (snd vw))) q)) in *.
    assert (EP : P = Rabs (fval v * fval w) + T) by reflexivity. clearbody P. subst P.
    pose proof (Rabs_pos (fval v * fval w)) as P0. assert (PT : 0 <= T).
    { unfold T. clear. induction q as [|z q IH]; cbn [map lsum fold_right]; [unfold lsum; cbn [fold_right]; lra|].
      change (0 <= Rabs (fval (fst z) * fval (snd z)) + lsum (map (fun vw : f64 * f64 => Rabs (fval (fst vw) * fval (snd vw))) q)). pose proof (Rabs_pos (fval (fst z) * fval (snd z))). lra. }
    specialize (IH Hq). cbv zeta in IH. change (lsum (map (fun vw : f64 * f64 => Rabs (fval (fst vw) * fval (snd vw))) q)) with T in IH. clearbody T. destruct (IH ltac:(lra)) as (I1 & I2 & I3).
    destruct (mul_finite be v w Fv Fw) as [Fm Em]; [apply no_overflow_small; lra|]. cbn [map fst snd]. split; [constructor; assumption|]. split; [lra|].
    change (abs_total (nmul v w :: ?m)) with (Rabs (fval (nmul v w : A)) + abs_total m). set (U := abs_total _) in *. cbn [length]. rewrite S_INR.
    pose proof (rnd_err (fval v * fval w)) as R. assert (R1 : Rabs (fval (nmul v w : A) - fval v * fval w) <= uro * Rabs (fval v * fval w) + eta) by (refine (eq_ind_r (fun z => Rabs (z - _) <= _) R Em)).
    set (y := fval (nmul v w : A)) in *. set (x := fval v * fval w) in *.
    assert (Rabs y <= Rabs x + (uro * Rabs x + eta)). { replace y with (x + (y - x)) by ring. eapply Rle_trans; [apply Rabs_triang|]. lra. } lra.
Qed.
Lemma eta_tiny : eta <= bpow radix2 (-1075). Proof. apply Rle_refl. Qed.
Lemma product_sum_fin : forall (q : list (A * A)) s, fin_ok s (map (fun vw => nmul (fst vw) (snd vw) : A) q) ->  sum_ok be s (map (fun vw => nmul (fst vw) (snd vw) : A) q) ->
  (INR (length q) <= 2 ^ 40) -> Forall (fun vw => ffin (fst vw) /\ ffin (snd vw)) q ->
  let P := lsum (map (fun vw => Rabs (fval (fst vw) * fval (snd vw))) q) in P <= bpow radix2 1000 ->
  ffin s /\ Rabs (fval s) <= 2 * P + bpow radix2 (-1030).
Proof.
  intros q s FO SO HL HF P HP. pose proof ten_kilo as TK. pose proof (bpow_ge_0 radix2 1000) as K0. destruct (products q HF) as (F1 & P0 & P1); [fold P; lra|]. fold P in P0, P1.
  pose proof (g_small (length q) ltac:(lra)) as G. pose proof (g_ge1 (length q)) as G1. pose proof uro_num as U. pose proof eta_pos as E0. pose proof (pos_INR (length q)) as N0.
  assert (NE : INR (length q) * eta <= bpow radix2 (-1035)).
  { replace (bpow radix2 (-1035)) with (bpow radix2 40 * bpow radix2 (-1075)) by (rewrite <- bpow_plus; reflexivity). change (bpow radix2 40) with (1099511627776). fold eta. apply Rmult_le_compat_r; lra. }
  set (T := abs_total _) in *. assert (T0 : 0 <= T) by apply asum_pos. assert (Z : bpow radix2 (-1035) <= bpow radix2 (-1030) / 4).
  { replace (bpow radix2 (-1030)) with (32 * bpow radix2 (-1035)) by (change 32 with (bpow radix2 5); rewrite <- bpow_plus; reflexivity). pose proof (bpow_ge_0 radix2 (-1035)). lra. }
  assert (Z1 : bpow radix2 (-1030) <= bpow radix2 1000) by (apply bpow_le; lia).
  assert (TP : g (length q) * T <= 2 * P + bpow radix2 (-1030)).
  { apply Rle_trans with (1001 / 1000 * ((1 + uro) * P + bpow radix2 (-1035))); [apply Rmult_le_compat; lra|]. pose proof (bpow_ge_0 radix2 (-1030)). assert (uro * P <= / 1000 * P) by (apply Rmult_le_compat_r; lra). lra. }
  assert (F : ffin s). { apply (FO (length q)); [rewrite map_length; lia|exact F1|]. fold T. lra. }
  split; [exact F|]. pose proof (sum_size_n s _ (length q) SO F ltac:(rewrite map_length; lia)) as X. fold T in X. lra.
Qed.
End F.
