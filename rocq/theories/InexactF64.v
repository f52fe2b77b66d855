(** Golub-Welsch in double arithmetic with a solver that has errors. *)
From Coq Require Import Reals List Lia Lra Arith ZArith Permutation.
From Flocq Require Import Core IEEE754.Binary.
From Verif Require Import Arith F64 F64Spec F64Proof RInst RInstProof Machine Rules RSum PolySpec RoundSpec RoundProof GolubWelsch GWSpec EigenSpec InexactSpec InexactF64Spec
  EigenProof Spectral GWProof Inexact.
Import ListNotations.
Local Open Scope R_scope.

Lemma uro_val : uro <= 112 / 10 ^ 18.
Proof. unfold uro. rewrite bpow_powerRZ. unfold powerRZ. simpl radix_val. replace (IZR 2) with 2 by reflexivity. change (Pos.to_nat 53) with 53%nat. lra. Qed.
Lemma eta_val : eta <= 1 / 10 ^ 300.
Proof.
  apply Rle_trans with (bpow radix2 (-1000)); [apply bpow_le; lia|].
  change (-1000)%Z with (- (1000))%Z. rewrite (bpow_opp radix2 1000), <- (IZR_Zpower radix2 1000) by lia. rewrite pow_IZR. unfold Rdiv. rewrite Rmult_1_l. apply Rinv_le_contravar.
  - apply IZR_lt. reflexivity.
  - apply IZR_le. vm_compute. discriminate.
Qed.

Section Perturb.
Variables (n : nat) (a b a' b' : nat -> R) (lam : nat -> R) (V : nat -> nat -> R) (rho phi del : R).
Hypothesis Hn : (1 <= n)%nat.
Hypothesis Ha : forall i, (i < n)%nat -> Rabs (a' i - a i) <= del.
Hypothesis Hb : forall i, (i < n - 1)%nat -> Rabs (b' i - b i) <= del.
Hypothesis HE : eigen_error n (@tridiagonal RA a' b') lam V rho phi.

Lemma entries_bounded : forall i k, (i < n)%nat -> (k < n)%nat -> Rabs (V i k) <= sqrt (1 + phi).
Proof.
  intros i k Hi Hk. rewrite <- sqrt_Rsqr_abs. apply sqrt_le_1_alt.
  assert (Q := proj2 (proj2 HE) k Hk). assert (Q' := Rle_abs (rsum n (fun i => V i k * V i k) - 1)).
  enough (V i k * V i k <= rsum n (fun i => V i k * V i k)) by (unfold Rsqr; lra).
  rewrite <- (rsum_delta n i (fun i => V i k * V i k) Hi). apply rsum_le. intros j Hj. destruct (j =? i)%nat; [lra|apply Rle_0_sqr].
Qed.
Lemma perturbed : eigen_error n (@tridiagonal RA a b) lam V (rho + 3 * del * sqrt (1 + phi)) phi.
Proof.
  destruct HE as (H1 & H2). split; [|exact H2]. intros i k Hi Hk.
  assert (d0 : 0 <= del) by (eapply Rle_trans; [apply Rabs_pos|apply (Ha i Hi)]).
  destruct (@companion_ok RA n (fun i => a' i - a i) (fun i => b' i - b i) Hn) as (m & _ & _ & Hm).
  assert (E : rsum n (fun j => @tridiagonal RA a b i j * V j k) = rsum n (fun j => @tridiagonal RA a' b' i j * V j k) - rsum n (fun j => @entry RA m i j * V j k)).
  { rewrite <- rsum_minus. apply rsum_ext. intros j Hj. rewrite Hm by assumption. unfold tridiagonal. rewrite ra_lit0.
    destruct (i =? j)%nat; [ring|]. destruct (j =? i + 1)%nat; [ring|]. destruct (i =? j + 1)%nat; ring. }
  rewrite E. match goal with |- Rabs (?p - ?q - ?l) <= _ => replace (p - q - l) with ((p - l) - q) by ring end.
  eapply Rle_trans; [apply Rabs_triang|]. rewrite Rabs_Ropp. apply Rplus_le_compat; [apply H1; assumption|].
  rewrite (tri_row n (fun i => a' i - a i) (fun i => b' i - b i) m Hn Hm i (fun j => V j k) Hi).
  assert (S0 := sqrt_pos (1 + phi)).
  assert (P : forall x j, (j < n)%nat -> Rabs x <= del -> Rabs (x * V j k) <= del * sqrt (1 + phi)).
  { intros x j Hj Hx. rewrite Rabs_mult. apply Rmult_le_compat; try apply Rabs_pos; [exact Hx|]. apply entries_bounded; assumption. }
  assert (Z : 0 <= del * sqrt (1 + phi)) by (apply Rmult_le_pos; assumption).
  assert (A1 : Rabs (match i with O => 0 | S h => (b' h - b h) * V h k end) <= del * sqrt (1 + phi)).
  { destruct i as [|h]; [rewrite Rabs_R0; exact Z|]. apply P; [lia|]. apply Hb. lia. }
  assert (A2 : Rabs ((a' i - a i) * V i k) <= del * sqrt (1 + phi)) by (apply P; [exact Hi|apply Ha, Hi]).
  assert (A3 : Rabs (if (S i <? n)%nat then (b' i - b i) * V (S i) k else 0) <= del * sqrt (1 + phi)).
  { destruct (Nat.ltb_spec (S i) n) as [H|H]; [|rewrite Rabs_R0; exact Z]. apply P; [exact H|]. apply Hb. lia. }
  eapply Rle_trans; [apply Rabs_triang|]. eapply Rle_trans; [apply Rplus_le_compat_r, Rabs_triang|]. lra.
Qed.
End Perturb.

Lemma row_sums_bound : forall n (a b : nat -> R) al bl tau, (1 <= n)%nat -> (forall i, (i < n)%nat -> Rabs (a i) <= al) -> (forall i, (i < n - 1)%nat -> Rabs (b i) <= bl) ->
  0 <= bl -> al + 2 * bl <= tau -> row_sums n a b tau.
Proof.
  intros n a b al bl tau Hn Ha Hb B0 Ht i Hi.
  destruct (@companion_ok RA n (fun i => Rabs (a i)) (fun i => Rabs (b i)) Hn) as (m & _ & _ & Hm).
  rewrite (rsum_ext n _ (fun j => @entry RA m i j * 1)).
  - rewrite (tri_row n (fun i => Rabs (a i)) (fun i => Rabs (b i)) m Hn Hm i (fun _ => 1) Hi).
    assert (A1 : (match i with O => 0 | S h => Rabs (b h) * 1 end) <= bl) by (destruct i as [|h]; [exact B0|]; rewrite Rmult_1_r; apply Hb; lia).
    assert (A2 := Ha i Hi). assert (A3 : (if (S i <? n)%nat then Rabs (b i) * 1 else 0) <= bl).
    { destruct (Nat.ltb_spec (S i) n); [rewrite Rmult_1_r; apply Hb; lia|exact B0]. }
    lra.
  - intros j Hj. rewrite Hm by assumption. unfold tridiagonal. rewrite ra_lit0.
    destruct (i =? j)%nat; [ring|]. destruct (j =? i + 1)%nat; [ring|]. destruct (i =? j + 1)%nat; [ring|]. rewrite Rabs_R0. ring.
Qed.

Lemma abs_total_perm : forall l l' : list (f64 * f64), Permutation l l' -> abs_total (map snd l) = abs_total (map snd l').
Proof.
  intros l l' H. unfold abs_total. induction H; cbn [map snd lsum fold_right]; [reflexivity| | |congruence].
  - unfold lsum in *. simpl. rewrite IHPermutation. reflexivity.
  - unfold lsum. simpl. ring.
Qed.
Section Float.
Context {be : Backend}.
Notation A := (F64 be).

Lemma sqrt_val : forall x : A, ffin x -> 0 <= fval x -> ffin (nsqrt x) /\ fval (nsqrt x) = rnd (sqrt (fval x)).
Proof.
  intros x Hx Px.
  generalize (Bsqrt_correct 53 1024 prec53 prec53_emax (nan_sqrt be) BinarySingleNaN.mode_NE x).
  change (Bsqrt 53 1024 prec53 prec53_emax (nan_sqrt be) BinarySingleNaN.mode_NE x) with (nsqrt x). rewrite rnd_eq.
  intros (H1 & H2 & _). split; [|exact H1].
  unfold ffin. etransitivity; [exact H2|]. destruct x as [s|s|s p Hp|s m e Hp]; try discriminate Hx; [reflexivity|].
  destruct s; [|reflexivity]. exfalso. unfold fval in Px. simpl in Px.
  assert (F2R (Float radix2 (Z.neg m) e) < 0) by (apply F2R_lt_0; reflexivity). simpl in *. lra.
Qed.
Lemma lit0_val : fval (@lit0 A) = 0.
Proof. apply (lit_int_exact 0). vm_compute. discriminate. Qed.

(** the weight computed from a component of an eigenvector *)
Lemma weight_val : forall v s : A, ffin v -> ffin s -> Rabs (fval v) <= 2 -> Rabs (fval s) <= bpow radix2 1000 ->
  ffin (nmul (nmul v v) s) /\
  Rabs (fval (nmul (nmul v v) s) - fval v * fval v * fval s) <= (2 * uro + uro * uro) * Rabs (fval s) * (fval v * fval v) + ((1 + uro) * Rabs (fval s) + 1) * eta.
Proof.
  intros v s Fv Fs Bv Bs. assert (U0 := uro_pos). assert (E0 := eta_pos). assert (UV := uro_val). assert (EV := eta_val).
  assert (V2 : 0 <= fval v * fval v <= 4). { split; [apply Rle_0_sqr|]. replace (fval v * fval v) with (Rabs (fval v) * Rabs (fval v)) by (rewrite <- Rabs_mult; apply Rabs_right, Rle_ge, Rle_0_sqr). assert (0 <= Rabs (fval v)) by apply Rabs_pos. nra. }
  destruct (mul_finite be v v Fv Fv) as [F1 E1].
  { apply no_overflow_small. rewrite Rabs_right by lra. apply Rle_trans with (bpow radix2 2); [simpl; lra|apply bpow_le; lia]. }
  assert (R1 := rnd_err (fval v * fval v)). rewrite <- E1 in R1. rewrite (Rabs_right (fval v * fval v)) in R1 by lra.
  set (q := fval (nmul v v)) in *.
  assert (Q : Rabs q <= 8).
  { replace q with ((q - fval v * fval v) + fval v * fval v) by ring. eapply Rle_trans; [apply Rabs_triang|]. rewrite (Rabs_right (fval v * fval v)) by lra.
    assert (uro * (fval v * fval v) <= 1) by nra. assert (eta <= 1) by (eapply Rle_trans; [exact EV|]; lra). lra. }
  destruct (mul_finite be (nmul v v) s F1 Fs) as [F2 E2].
  { apply no_overflow_small. rewrite Rabs_mult. fold q. apply Rle_trans with (8 * bpow radix2 1000); [apply Rmult_le_compat; try apply Rabs_pos; assumption|].
    replace 8 with (bpow radix2 3) by (simpl; lra). rewrite <- bpow_plus. apply bpow_le. lia. }
  split; [exact F2|]. assert (R2 := rnd_err (q * fval s)). fold q in E2. rewrite <- E2 in R2.
  set (z := fval (nmul (nmul v v) s)) in *. rewrite Rabs_mult in R2. set (S := Rabs (fval s)) in *. assert (S0 : 0 <= S) by apply Rabs_pos.
  set (w := fval v * fval v) in *.
  assert (Qa : Rabs q <= (1 + uro) * w + eta).
  { replace q with ((q - w) + w) by ring. eapply Rle_trans; [apply Rabs_triang|]. rewrite (Rabs_right w) by lra. lra. }
  replace (z - w * fval s) with ((z - q * fval s) + (q - w) * fval s) by ring.
  eapply Rle_trans; [apply Rabs_triang|]. rewrite Rabs_mult. fold S.
  assert (T1 : Rabs (q - w) * S <= (uro * w + eta) * S) by (apply Rmult_le_compat_r; assumption).
  assert (T2 : uro * (Rabs q * S) <= uro * (((1 + uro) * w + eta) * S)).
  { apply Rmult_le_compat_l; [lra|]. apply Rmult_le_compat_r; assumption. }
  replace ((2 * uro + uro * uro) * S * w + ((1 + uro) * S + 1) * eta) with (uro * (((1 + uro) * w + eta) * S) + eta + (uro * w + eta) * S) by ring. lra.
Qed.

Variables (ext : Linalg A) (n : nat) (diag off : nat -> A) (sf : A) (tau rho phi : R) (ps : list (f64 * f64)).
Hypothesis Hn : (1 <= n)%nat.
Hypothesis So : sorts ext.
Hypothesis Ex : float_solver ext n diag off tau rho phi.
Hypothesis Hphi : phi < 1.
Hypothesis Fs : ffin sf.
Hypothesis Bs : Rabs (fval sf) <= bpow radix2 1000.
Hypothesis HG : golub_welsch ext n diag off sf = Ok ps.

Lemma tri_val : forall i j, fval (tridiagonal diag off i j) = @tridiagonal RA (fun i => fval (diag i)) (fun i => fval (off i)) i j.
Proof.
  intros i j. unfold tridiagonal. destruct (i =? j)%nat; [reflexivity|]. destruct (j =? i + 1)%nat; [reflexivity|].
  destruct (i =? j + 1)%nat; [reflexivity|]. rewrite ra_lit0. apply lit0_val.
Qed.
Lemma float_pairs : exists (lam : nat -> R) (V : nat -> nat -> R) (w : nat -> R),
  (forall k, (k < n)%nat -> Rabs (lam k) <= tau) /\
  eigen_error n (@tridiagonal RA (fun i => fval (diag i)) (fun i => fval (off i))) lam V rho phi /\
  (forall k, (k < n)%nat -> Rabs (w k - V O k * V O k * fval sf) <=
     (2 * uro + uro * uro) * Rabs (fval sf) * (V O k * V O k) + ((1 + uro) * Rabs (fval sf) + 1) * eta) /\
  (forall f, apply_rule (real_pairs ps) f = rsum n (fun k => f (lam k) * w k)) /\
  (forall p, In p ps -> ffin (fst p) /\ ffin (snd p) /\ exists k, (k < n)%nat /\ fval (fst p) = lam k) /\
  abs_total (map snd ps) = rsum n (fun k => Rabs (w k)).
Proof.
  destruct (companion_ok n diag off Hn) as (m & E & Sq & Hm). assert (H := Ex m Sq Hm). cbv zeta in H.
  unfold golub_welsch in HG. rewrite E in HG. cbn [bind] in HG.
  destruct (symmetric_eigen ext m) as [ev V'] eqn:EE. cbn [fst snd] in H. destruct H as (Le & [L1 L2] & F1 & F2 & Hl & He).
  destruct V' as [|row0 rest]; [simpl in L1; lia|]. cbn [bind index Z.to_nat nth_error] in HG. injection HG; intros Ep.
  assert (Lr : length row0 = n) by (inversion L2; assumption).
  assert (Fr : Forall ffin row0) by (inversion F2; assumption).
  assert (He' := eigen_error_ext n _ (@tridiagonal RA (fun i => fval (diag i)) (fun i => fval (off i))) _ _ rho phi (fun i j Hi Hj => eq_trans (f_equal fval (Hm i j Hi Hj)) (tri_val i j)) He).
  exists (fun k => fval (nth k ev lit0)), (fun i k => fval (entry (row0 :: rest) i k)), (fun k => fval (nth k (map (fun x => nmul (nmul x x) sf) row0) lit0)).
  assert (Vb : forall k, (k < n)%nat -> Rabs (fval (nth k row0 lit0)) <= 2).
  { intros k Hk. assert (Q := entries_bounded n _ _ _ _ rho phi He' O k ltac:(lia) Hk). cbv beta in Q.
    eapply Rle_trans; [exact Q|]. apply Rle_trans with (sqrt (2 * 2)); [apply sqrt_le_1_alt; lra|]. rewrite sqrt_square; lra. }
  assert (Wk : forall k, (k < n)%nat -> ffin (nth k (map (fun x => nmul (nmul x x) sf) row0) lit0) /\
    Rabs (fval (nth k (map (fun x => nmul (nmul x x) sf) row0) lit0) - fval (nth k row0 lit0) * fval (nth k row0 lit0) * fval sf) <=
     (2 * uro + uro * uro) * Rabs (fval sf) * (fval (nth k row0 lit0) * fval (nth k row0 lit0)) + ((1 + uro) * Rabs (fval sf) + 1) * eta).
  { intros k Hk. replace (nth k (map (fun x => nmul (nmul x x) sf) row0) lit0) with (nmul (nmul (nth k row0 lit0) (nth k row0 lit0)) sf)
      by (set (g := fun x : A => nmul (nmul x x) sf); rewrite (nth_indep (map g row0) lit0 (g lit0)) by (rewrite map_length; lia); rewrite map_nth; reflexivity).
    apply weight_val; [|exact Fs|apply Vb, Hk|exact Bs]. rewrite Forall_forall in Fr. apply Fr, nth_In. lia. }
  split; [exact Hl|]. split; [exact He'|]. split; [intros k Hk; apply (proj2 (Wk k Hk))|].
  assert (Pe : Permutation ps (combine ev (map (fun x => nmul (nmul x x) sf) row0))) by (rewrite <- Ep; apply So). split.
  { intros f. assert (Pr : Permutation (real_pairs ps) (combine (map fval ev) (map fval (map (fun x => nmul (nmul x x) sf) row0)))).
    { unfold real_pairs. eapply Permutation_trans; [apply (Permutation_map _ Pe)|]. apply Permutation_refl'.
      generalize (map (fun x : A => nmul (nmul x x) sf) row0) as l2. generalize ev as l1. induction l1; intros l2; [reflexivity|]. destruct l2; [reflexivity|]. simpl. f_equal. apply IHl1. }
    rewrite (apply_rule_perm _ _ f Pr). rewrite (apply_rule_combine n); [|rewrite map_length; exact Le|rewrite !map_length; exact Lr].
    apply rsum_ext. intros j Hj. rewrite <- lit0_val, !map_nth. reflexivity. }
  split.
  - intros p Hp. apply (Permutation_in _ Pe) in Hp. 
    apply (In_nth _ _ (@lit0 A, @lit0 A)) in Hp. destruct Hp as (k & Hk & Ek). rewrite combine_length, map_length, Le, Lr, Nat.min_id in Hk.
    rewrite combine_nth in Ek by (rewrite map_length; congruence). rewrite <- Ek. cbn [fst snd]. split; [|split].
    + rewrite Forall_forall in F1. apply F1, nth_In. lia.
    + apply (Wk k Hk).
    + exists k. split; [exact Hk|reflexivity].
  - assert (Q : abs_total (map snd ps) = abs_total (map snd (combine ev (map (fun x : A => nmul (nmul x x) sf) row0)))).
    { apply abs_total_perm. exact Pe. }
    rewrite Q. revert Le Lr. clear. set (l2 := map (fun x : A => nmul (nmul x x) sf) row0). intros Le Lr. assert (L2 : length l2 = n) by (unfold l2; rewrite map_length; exact Lr).
    clearbody l2. clear Lr. revert n l2 Le L2. induction ev as [|x ev IH]; intros [|m] [|y l2] Le L2; try discriminate; [reflexivity|].
    rewrite rsum_first. unfold abs_total in *. simpl. f_equal. apply IH; simpl in *; congruence.
Qed.
Lemma float_weights : abs_total (map snd ps) <= (1 + phi) * ((1 + (2 * uro + uro * uro)) * Rabs (fval sf)) + INR n * (((1 + uro) * Rabs (fval sf) + 1) * eta).
Proof.
  destruct float_pairs as (lam & V & w & Hl & He & Hw & _ & _ & ->).
  set (S := Rabs (fval sf)) in *. assert (U0 := uro_pos). assert (S0 : 0 <= S) by apply Rabs_pos.
  apply Rle_trans with (rsum n (fun k => (1 + (2 * uro + uro * uro)) * S * (V O k * V O k) + ((1 + uro) * S + 1) * eta)).
  - apply rsum_le. intros k Hk. assert (X := Hw k Hk). replace (w k) with ((w k - V O k * V O k * fval sf) + V O k * V O k * fval sf) by ring.
    eapply Rle_trans; [apply Rabs_triang|]. rewrite (Rabs_mult (V O k * V O k)), (Rabs_right (V O k * V O k)) by (apply Rle_ge, Rle_0_sqr). fold S. lra.
  - rewrite rsum_plus, rsum_scal, rsum_const. apply Rplus_le_compat_r. rewrite (Rmult_comm (1 + phi)). apply Rmult_le_compat_l; [nra|].
    assert (H := proj1 (proj2 He) O ltac:(lia)). unfold kronecker in H. simpl in H. assert (G := Rle_abs (rsum n (fun k => V O k * V O k) - 1)). lra.
Qed.

(** the matrix and the scale of the true rule *)
Variables (a b : nat -> R) (del : R) (L : (R -> R) -> R).
Hypothesis Ha : forall i, (i < n)%nat -> Rabs (fval (diag i) - a i) <= del.
Hypothesis Hb : forall i, (i < n - 1)%nat -> Rabs (fval (off i) - b i) <= del.
Hypothesis HT : row_sums n a b tau.
Hypothesis Hb0 : forall i, (i < n - 1)%nat -> b i <> 0.
Hypothesis HL : linear_on_polynomials L.
Hypothesis HO : orthogonal_up_to n L (monic a b).

Lemma float_values : forall c f, (forall x, f x = rsum (2 * n) (fun j => c j * x ^ j)) ->
  Rabs (apply_rule (real_pairs ps) f - L f) <=
    rsum (2 * n) (fun j => Rabs (c j) * (Rabs (L (fun _ => 1)) * moment_error n tau (rho + 3 * del * sqrt (1 + phi)) phi j +
      ((1 + phi) * ((2 * uro + uro * uro) * Rabs (fval sf) + Rabs (fval sf - L (fun _ => 1))) + INR n * (((1 + uro) * Rabs (fval sf) + 1) * eta)) * tau ^ j)).
Proof.
  intros c f Hf. destruct float_pairs as (lam & V & w & Hl & He & Hw & Hv & _). rewrite Hv.
  assert (He' := perturbed n a b _ _ lam V rho phi del Hn Ha Hb He).
  assert (F := functional_close n a b L Hn Hb0 HL HO lam V tau _ phi HT Hl He' c f Hf).
  set (s := L (fun _ => 1)) in *. set (S := Rabs (fval sf)) in *.
  set (kap := (2 * uro + uro * uro) * S + Rabs (fval sf - s)). set (et := ((1 + uro) * S + 1) * eta).
  assert (U0 := uro_pos). assert (E0 := eta_pos). assert (S0 : 0 <= S) by apply Rabs_pos.
  assert (K0 : 0 <= kap) by (unfold kap; assert (0 <= Rabs (fval sf - s)) by apply Rabs_pos; assert (0 <= (2 * uro + uro * uro) * S) by nra; lra).
  assert (et0 : 0 <= et) by (unfold et; apply Rmult_le_pos; nra).
  assert (P0 : 0 <= phi) by (apply (phi_pos n _ lam V _ phi Hn He)). assert (T0 : 0 <= tau) by (eapply Rle_trans; [apply Rabs_pos|apply (Hl O); lia]).
  set (F0 := rsum (2 * n) (fun j => Rabs (c j) * tau ^ j)).
  assert (Fb : forall k, (k < n)%nat -> Rabs (f (lam k)) <= F0).
  { intros k Hk. rewrite Hf. eapply Rle_trans; [apply rsum_abs|]. apply rsum_le. intros j _. rewrite Rabs_mult, <- RPow_abs.
    apply Rmult_le_compat_l; [apply Rabs_pos|]. apply pow_incr. split; [apply Rabs_pos|apply Hl, Hk]. }
  assert (F00 : 0 <= F0) by (eapply Rle_trans; [apply Rabs_pos|apply (Fb O); lia]).
  assert (W : Rabs (rsum n (fun k => f (lam k) * w k) - rsum n (fun k => f (lam k) * (V O k * V O k * s))) <= F0 * (kap * (1 + phi) + INR n * et)).
  { rewrite <- rsum_minus. eapply Rle_trans; [apply rsum_abs|].
    apply Rle_trans with (rsum n (fun k => F0 * (kap * (V O k * V O k) + et))).
    - apply rsum_le. intros k Hk. rewrite <- Rmult_minus_distr_l, Rabs_mult. apply Rmult_le_compat; try apply Rabs_pos; [apply Fb, Hk|].
      replace (w k - V O k * V O k * s) with ((w k - V O k * V O k * fval sf) + V O k * V O k * (fval sf - s)) by ring.
      eapply Rle_trans; [apply Rabs_triang|]. rewrite (Rabs_mult (V O k * V O k)), (Rabs_right (V O k * V O k)) by (apply Rle_ge, Rle_0_sqr).
      assert (X := Hw k Hk). fold S in X. fold et in X. unfold kap. lra.
    - rewrite rsum_scal, rsum_plus, rsum_scal, rsum_const. apply Rmult_le_compat_l; [exact F00|]. apply Rplus_le_compat_r. apply Rmult_le_compat_l; [exact K0|].
      assert (H := proj1 (proj2 He) O ltac:(lia)). unfold kronecker in H. simpl in H. assert (G := Rle_abs (rsum n (fun k => V O k * V O k) - 1)). lra. }
  rewrite (rsum_ext (2 * n) (fun j => Rabs (c j) * (Rabs s * moment_error n tau (rho + 3 * del * sqrt (1 + phi)) phi j + ((1 + phi) * kap + INR n * et) * tau ^ j))
    (fun j => Rabs s * (Rabs (c j) * moment_error n tau (rho + 3 * del * sqrt (1 + phi)) phi j) + ((1 + phi) * kap + INR n * et) * (Rabs (c j) * tau ^ j))) by (intros; ring).
  rewrite rsum_plus, !rsum_scal. fold F0.
  match goal with |- Rabs (?p - ?q) <= _ => replace (p - q) with ((p - rsum n (fun k => f (lam k) * (V O k * V O k * s))) + (rsum n (fun k => f (lam k) * (V O k * V O k * s)) - q)) by ring end.
  eapply Rle_trans; [apply Rabs_triang|]. replace (((1 + phi) * kap + INR n * et) * F0) with (F0 * (kap * (1 + phi) + INR n * et)) by ring. lra.
Qed.
Lemma float_nodes : forall p, In p ps -> ffin (fst p) /\ ffin (snd p) /\
  exists x, monic a b n x = 0 /\ Rabs (fval (fst p) - x) <= (rho + 3 * del * sqrt (1 + phi)) * sqrt (INR n / (1 - phi)).
Proof.
  intros p Hp. destruct float_pairs as (lam & V & w & Hl & He & _ & _ & Hk & _). destruct (Hk p Hp) as (A1 & A2 & k & Hk' & E). split; [exact A1|]. split; [exact A2|]. rewrite E.
  assert (He' := perturbed n a b _ _ lam V rho phi del Hn Ha Hb He).
  exact (node_close n a b L Hn Hb0 HL HO lam V _ phi He' Hphi k Hk').
Qed.
End Float.
