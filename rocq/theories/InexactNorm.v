(** Golub-Welsch with a solver that has errors: bounds by the zeros of the orthogonal polynomial instead of row sums. *)
From Coq Require Import Reals List Lia Lra Arith Permutation.
From Flocq Require Import Core.
From Verif Require Import Arith F64 F64Spec RInst RSum PolySpec RoundSpec GolubWelsch GWSpec EigenSpec InexactSpec InexactF64Spec EigenProof Spectral GWProof Inexact InexactF64 Machine.
Import ListNotations.
Local Open Scope R_scope.

Section Core.
Variables (n : nat) (T : nat -> nat -> R) (lam : nat -> R) (V : nat -> nat -> R) (tau rho phi C : R).
Hypothesis Hn : (1 <= n)%nat.
Hypothesis HY : forall j, rsum n (fun i => Rabs (prow n T j i)) <= C * tau ^ j.
Hypothesis Hl : forall k, (k < n)%nat -> Rabs (lam k) <= tau.
Hypothesis HE : eigen_error n T lam V rho phi.
Let y := prow n T.
Let T0 : 0 <= tau := tau_pos n lam tau Hn Hl.
Let R0 : 0 <= rho := rho_pos n T lam V rho phi Hn HE.
Let P0 : 0 <= phi := phi_pos n T lam V rho phi Hn HE.
Lemma C_pos : 0 <= C.
Proof. assert (X := HY O). simpl in X. assert (0 <= rsum n (fun i => Rabs (kronecker i 0))) by (apply rsum_nonneg; intros; apply Rabs_pos). lra. Qed.
Lemma norm_close : forall j k, (k < n)%nat -> Rabs (rsum n (fun i => y j i * V i k) - V O k * lam k ^ j) <= C * (INR j * tau ^ (j - 1) * rho).
Proof.
  assert (C0 := C_pos). induction j; intros k Hk.
  - unfold y. cbn [prow]. rewrite (kron_sum n (fun i => V i k) Hn). simpl. replace (V O k - V O k * 1) with 0 by ring. rewrite Rabs_R0. lra.
  - unfold y. rewrite (prow_step n T lam V). fold y. replace (S j - 1)%nat with j by lia. specialize (IHj k Hk).
    match goal with |- Rabs (?p + ?l * ?q - _) <= _ => replace (p + l * q - V O k * lam k ^ S j) with (p + l * (q - V O k * lam k ^ j)) by (simpl; ring) end.
    eapply Rle_trans; [apply Rabs_triang|]. rewrite S_INR, Rabs_mult.
    assert (A : Rabs (rsum n (fun m => y j m * (rsum n (fun i => T m i * V i k) - lam k * V m k))) <= C * (tau ^ j * rho)).
    { eapply Rle_trans; [apply rsum_abs|]. apply Rle_trans with (rsum n (fun m => rho * Rabs (y j m))).
      - apply rsum_le. intros m Hm. rewrite Rabs_mult, Rmult_comm. apply Rmult_le_compat_r; [apply Rabs_pos|]. apply (proj1 HE m k); assumption.
      - rewrite rsum_scal, Rmult_comm, <- Rmult_assoc. apply Rmult_le_compat_r; [exact R0|apply HY]. }
    assert (B : Rabs (lam k) * Rabs (rsum n (fun i => y j i * V i k) - V O k * lam k ^ j) <= C * (INR j * tau ^ j * rho)).
    { eapply Rle_trans; [apply Rmult_le_compat; [apply Rabs_pos|apply Rabs_pos|apply Hl, Hk|exact IHj]|]. right.
      destruct j; [simpl; ring|]. replace (S j - 1)%nat with j by lia. simpl pow. ring. }
    lra.
Qed.
Lemma norm_moment : forall j, Rabs (rsum n (fun k => lam k ^ j * (V O k * V O k)) - y j O) <= C * moment_error n tau rho phi j.
Proof.
  intros j. assert (C0 := C_pos).
  set (q := fun k => rsum n (fun i => y j i * V i k)).
  assert (E1 : rsum n (fun k => q k * V O k) = y j O + rsum n (fun i => y j i * (rsum n (fun k => V i k * V O k) - kronecker i 0))).
  { rewrite <- (kron_sum n (fun i => y j i) Hn), <- rsum_plus.
    rewrite (rsum_ext n _ (fun k => rsum n (fun i => y j i * (V i k * V O k)))).
    - rewrite rsum_swap. apply rsum_ext. intros i Hi. rewrite rsum_scal. ring.
    - intros k Hk. unfold q. rewrite <- rsum_scal_r. apply rsum_ext. intros; ring. }
  assert (E2 : rsum n (fun k => lam k ^ j * (V O k * V O k)) = rsum n (fun k => q k * V O k) - rsum n (fun k => (q k - V O k * lam k ^ j) * V O k)).
  { rewrite <- rsum_minus. apply rsum_ext. intros; ring. }
  rewrite E2, E1.
  match goal with |- Rabs (?u + ?v - ?w - ?u) <= _ => replace (u + v - w - u) with (v - w) by ring end.
  eapply Rle_trans; [apply Rabs_triang|]. rewrite Rabs_Ropp. unfold moment_error. rewrite Rmult_plus_distr_l. apply Rplus_le_compat.
  - eapply Rle_trans; [apply rsum_abs|]. apply Rle_trans with (rsum n (fun i => phi * Rabs (y j i))).
    + apply rsum_le. intros i Hi. rewrite Rabs_mult, Rmult_comm. apply Rmult_le_compat_r; [apply Rabs_pos|apply (proj1 (proj2 HE) i Hi)].
    + rewrite rsum_scal. replace (C * (phi * tau ^ j)) with (phi * (C * tau ^ j)) by ring. apply Rmult_le_compat_l; [exact P0|apply HY].
  - eapply Rle_trans; [apply rsum_abs|]. apply Rle_trans with (rsum n (fun k => C * (INR j * tau ^ (j - 1) * rho) * Rabs (V O k))).
    + apply rsum_le. intros k Hk. rewrite Rabs_mult. apply Rmult_le_compat_r; [apply Rabs_pos|apply norm_close, Hk].
    + rewrite rsum_scal. replace (C * (rho * sqrt (INR n * (1 + phi)) * (INR j * tau ^ (j - 1)))) with (C * (INR j * tau ^ (j - 1) * rho) * sqrt (INR n * (1 + phi))) by ring.
      apply Rmult_le_compat_l; [|apply (first_row_norm n T lam V rho phi Hn HE)]. apply Rmult_le_pos; [exact C0|]. apply Rmult_le_pos; [apply Rmult_le_pos; [apply pos_INR|apply pow_le; exact T0]|exact R0].
Qed.
End Core.

(** sum of absolute values against sum of squares *)
Lemma abs_by_squares : forall n (x : nat -> R) Q, 0 <= Q -> rsum n (fun i => x i * x i) <= Q * Q -> rsum n (fun i => Rabs (x i)) <= sqrt (INR n) * Q.
Proof.
  intros n x Q HQ H. set (s := rsum n (fun i => Rabs (x i))). assert (S0 : 0 <= s) by (apply rsum_nonneg; intros; apply Rabs_pos).
  destruct n as [|m]; [unfold s, rsum; simpl; rewrite sqrt_0; lra|]. set (n := S m) in *.
  assert (N0 : 0 < INR n) by (apply lt_0_INR; unfold n; lia).
  rewrite <- (sqrt_square s S0), <- (sqrt_square Q HQ), <- sqrt_mult_alt by lra. apply sqrt_le_1_alt.
  assert (Z : 0 <= rsum n (fun k => (INR n * Rabs (x k) - s) * (INR n * Rabs (x k) - s))) by (apply rsum_nonneg; intros; apply Rle_0_sqr).
  rewrite (rsum_ext n _ (fun k => INR n * INR n * (x k * x k) + ((- (2 * INR n * s)) * Rabs (x k) + s * s))) in Z.
  - rewrite rsum_plus, rsum_plus, !rsum_scal, rsum_const in Z. fold s in Z.
    apply Rmult_le_reg_l with (INR n); [exact N0|].
    assert (INR n * INR n * rsum n (fun i => x i * x i) <= INR n * INR n * (Q * Q)) by (apply Rmult_le_compat_l; [apply Rmult_le_pos; lra|exact H]). lra.
  - intros k _. assert (E : Rabs (x k) * Rabs (x k) = x k * x k) by (rewrite <- Rabs_mult; apply Rabs_right, Rle_ge, Rle_0_sqr). rewrite <- E. ring.
Qed.

Section Functional.
Variables (n : nat) (a b : nat -> R) (L : (R -> R) -> R).
Hypothesis Hn : (1 <= n)%nat.
Hypothesis Hb : forall i, (i < n - 1)%nat -> b i <> 0.
Hypothesis HL : linear_on_polynomials L.
Hypothesis HO : orthogonal_up_to n L (monic a b).
Let T := @tridiagonal RA a b.
Variable tau : R.
Hypothesis T0 : 0 <= tau.
Hypothesis HZ : forall x, monic a b n x = 0 -> Rabs x <= tau.
Lemma spectral_rows : forall j, rsum n (fun i => Rabs (prow n T j i)) <= sqrt (INR n) * tau ^ j.
Proof.
  intros j. destruct (exact_decomposition n a b L Hn Hb HL HO) as (l & v & H1 & H2 & H3 & _).
  apply abs_by_squares; [apply pow_le, T0|].
  assert (E : forall j i, (i < n)%nat -> prow n T j i = rsum n (fun k => v O k * l k ^ j * v i k)).
  { induction j0; intros i Hi.
    - cbn [prow]. rewrite <- (H2 i O Hi ltac:(lia)). apply rsum_ext. intros; simpl; ring.
    - cbn [prow]. rewrite (rsum_ext n _ (fun m => rsum n (fun k => v O k * l k ^ j0 * (T i m * v m k)))).
      + rewrite rsum_swap. apply rsum_ext. intros k Hk. rewrite rsum_scal. unfold T. rewrite H1 by assumption. simpl. ring.
      + intros m Hm. rewrite IHj0 by exact Hm. rewrite <- rsum_scal_r. apply rsum_ext. intros k Hk. unfold T. rewrite (tri_symmetric n a b Hn m i). ring. }
  (* columns of v are orthonormal as well, but only the rows are needed: sum_i y_i y_i, one factor expanded *)
  assert (Pw : forall k, (k < n)%nat -> Rabs (l k ^ j) <= tau ^ j) by (intros k Hk; rewrite <- RPow_abs; apply pow_incr; split; [apply Rabs_pos|apply HZ, H3, Hk]).
  assert (B : forall w, rsum n (fun i => rsum n (fun k => w k * v i k) * rsum n (fun k => w k * v i k)) <= rsum n (fun k => w k * w k)).
  { (* Bessel, from 0 <= sum_k (w_k - sum_i c_i v_ik)^2 *)
    intros w. set (c := fun i => rsum n (fun k => w k * v i k)).
    assert (Z : 0 <= rsum n (fun k => (w k - rsum n (fun i => c i * v i k)) * (w k - rsum n (fun i => c i * v i k)))) by (apply rsum_nonneg; intros; apply Rle_0_sqr).
    assert (Cr : rsum n (fun k => w k * rsum n (fun i => c i * v i k)) = rsum n (fun i => c i * c i)).
    { rewrite (rsum_ext n _ (fun k => rsum n (fun i => c i * (w k * v i k)))) by (intros k Hk; rewrite <- rsum_scal; apply rsum_ext; intros; ring).
      rewrite rsum_swap. apply rsum_ext. intros i Hi. rewrite rsum_scal. reflexivity. }
    assert (Sq : rsum n (fun k => rsum n (fun i => c i * v i k) * rsum n (fun i => c i * v i k)) = rsum n (fun i => c i * c i)).
    { rewrite (rsum_ext n _ (fun k => rsum n (fun i => rsum n (fun m => c i * c m * (v i k * v m k))))).
      - rewrite rsum_swap. apply rsum_ext. intros i Hi. rewrite rsum_swap.
        rewrite (rsum_ext n _ (fun m => (if Nat.eqb m i then c i * c m else 0))).
        + rewrite <- (rsum_delta n i (fun m => c i * c m) Hi). apply rsum_ext. intros m _. destruct (Nat.eqb_spec m i); ring.
        + intros m Hm. rewrite rsum_scal, H2 by assumption. unfold kronecker. rewrite Nat.eqb_sym. destruct (m =? i)%nat; ring.
      - intros k Hk. rewrite <- rsum_scal_r. apply rsum_ext. intros i Hi. rewrite <- rsum_scal. apply rsum_ext. intros m Hm. ring. }
    rewrite (rsum_ext n _ (fun k => w k * w k - 2 * (w k * rsum n (fun i => c i * v i k)) + rsum n (fun i => c i * v i k) * rsum n (fun i => c i * v i k))) in Z by (intros; ring).
    rewrite rsum_plus, rsum_minus, rsum_scal, Cr, Sq in Z. change (rsum n (fun i => c i * c i) <= rsum n (fun k => w k * w k)). lra. }
  rewrite (rsum_ext n _ (fun i => rsum n (fun k => v O k * l k ^ j * v i k) * rsum n (fun k => v O k * l k ^ j * v i k))) by (intros i Hi; rewrite (E j i Hi); reflexivity).
  eapply Rle_trans; [apply (B (fun k => v O k * l k ^ j))|]. 
  apply Rle_trans with (rsum n (fun k => tau ^ j * tau ^ j * (v O k * v O k))).
  - apply rsum_le. intros k Hk. replace (v O k * l k ^ j * (v O k * l k ^ j)) with (l k ^ j * l k ^ j * (v O k * v O k)) by ring. apply Rmult_le_compat_r; [apply Rle_0_sqr|].
    replace (l k ^ j * l k ^ j) with (Rabs (l k ^ j) * Rabs (l k ^ j)) by (rewrite <- Rabs_mult; apply Rabs_right, Rle_ge, Rle_0_sqr).
    apply Rmult_le_compat; try apply Rabs_pos; apply Pw, Hk.
  - rewrite rsum_scal, H2 by lia. unfold kronecker. simpl. lra.
Qed.
Variables (lam : nat -> R) (V : nat -> nat -> R) (rho phi : R).
Hypothesis Hl : forall k, (k < n)%nat -> Rabs (lam k) <= tau.
Hypothesis HE : eigen_error n T lam V rho phi.
Lemma spectral_close : forall c f, (forall x, f x = rsum (2 * n) (fun j => c j * x ^ j)) ->
  Rabs (rsum n (fun k => f (lam k) * (V O k * V O k * L (fun _ => 1))) - L f) <=
  Rabs (L (fun _ => 1)) * rsum (2 * n) (fun j => Rabs (c j) * (sqrt (INR n) * moment_error n tau rho phi j)).
Proof.
  intros c f Hf. rewrite (functional_moments n a b L Hn Hb HL HO c f Hf).
  replace (rsum n (fun k => f (lam k) * (V O k * V O k * L (fun _ => 1)))) with
    (L (fun _ => 1) * rsum (2 * n) (fun j => c j * rsum n (fun k => lam k ^ j * (V O k * V O k)))).
  - rewrite <- Rmult_minus_distr_l, Rabs_mult, <- rsum_minus. apply Rmult_le_compat_l; [apply Rabs_pos|].
    eapply Rle_trans; [apply rsum_abs|]. apply rsum_le. intros j Hj. rewrite <- Rmult_minus_distr_l, Rabs_mult.
    apply Rmult_le_compat_l; [apply Rabs_pos|]. exact (norm_moment n T lam V tau rho phi _ Hn spectral_rows Hl HE j).
  - rewrite (rsum_ext (2 * n) _ (fun j => rsum n (fun k => c j * (lam k ^ j * (V O k * V O k))))) by (intros j Hj; rewrite rsum_scal; reflexivity).
    rewrite rsum_swap, <- rsum_scal. apply rsum_ext. intros k Hk. rewrite Hf.
    rewrite (rsum_ext (2 * n) (fun i => c i * (lam k ^ i * (V O k * V O k))) (fun i => c i * lam k ^ i * (V O k * V O k))) by (intros; ring).
    rewrite rsum_scal_r. ring.
Qed.
End Functional.

Section Float.
Variable be : Backend.
Notation A := (F64 be).
Variables (ext : Linalg A) (n : nat) (diag off : nat -> A) (sf : A) (tau rho phi : R) (ps : list (f64 * f64)).
Hypothesis Hn : (1 <= n)%nat.
Hypothesis So : sorts ext.
Hypothesis Ex : float_solver ext n diag off tau rho phi.
Hypothesis Hphi : phi < 1.
Hypothesis Fs : ffin sf.
Hypothesis Bs : Rabs (fval sf) <= bpow radix2 1000.
Hypothesis HG : golub_welsch ext n diag off sf = Ok ps.
Variables (a b : nat -> R) (del : R) (L : (R -> R) -> R).
Hypothesis Ha : forall i, (i < n)%nat -> Rabs (fval (diag i) - a i) <= del.
Hypothesis Hb : forall i, (i < n - 1)%nat -> Rabs (fval (off i) - b i) <= del.
Hypothesis T0 : 0 <= tau.
Hypothesis HZ : forall x, monic a b n x = 0 -> Rabs x <= tau.
Hypothesis Hb0 : forall i, (i < n - 1)%nat -> b i <> 0.
Hypothesis HL : linear_on_polynomials L.
Hypothesis HO : orthogonal_up_to n L (monic a b).
Lemma spectral_values : forall c f, (forall x, f x = rsum (2 * n) (fun j => c j * x ^ j)) ->
  Rabs (apply_rule (real_pairs ps) f - L f) <=
    rsum (2 * n) (fun j => Rabs (c j) * (Rabs (L (fun _ => 1)) * (sqrt (INR n) * moment_error n tau (rho + 3 * del * sqrt (1 + phi)) phi j) +
      ((1 + phi) * ((2 * uro + uro * uro) * Rabs (fval sf) + Rabs (fval sf - L (fun _ => 1))) + INR n * (((1 + uro) * Rabs (fval sf) + 1) * eta)) * tau ^ j)).
Proof.
  intros c f Hf. destruct (float_pairs ext n diag off sf tau rho phi ps Hn So Ex Hphi Fs Bs HG) as (lam & V & w & Hl & He & Hw & Hv & _). rewrite Hv.
  assert (He' := perturbed n a b _ _ lam V rho phi del Hn Ha Hb He).
  assert (F := spectral_close n a b L Hn Hb0 HL HO tau T0 HZ lam V _ phi Hl He' c f Hf).
  set (s := L (fun _ => 1)) in *. set (S := Rabs (fval sf)) in *.
  set (kap := (2 * uro + uro * uro) * S + Rabs (fval sf - s)). set (et := ((1 + uro) * S + 1) * eta).
  assert (U0 := RoundProof.uro_pos). assert (E0 := RoundProof.eta_pos). assert (S0 : 0 <= S) by apply Rabs_pos.
  assert (K0 : 0 <= kap).
  { unfold kap. assert (0 <= Rabs (fval sf - s)) by apply Rabs_pos. assert (0 <= (2 * uro + uro * uro) * S) by (apply Rmult_le_pos; [assert (0 <= uro * uro) by apply Rle_0_sqr; lra|exact S0]). lra. }
  assert (P0 : 0 <= phi) by (apply (phi_pos n _ lam V _ phi Hn He)).
  set (F0 := rsum (2 * n) (fun j => Rabs (c j) * tau ^ j)).
  assert (Fb : forall k, (k < n)%nat -> Rabs (f (lam k)) <= F0).
  { intros k Hk. rewrite Hf. eapply Rle_trans; [apply rsum_abs|]. apply rsum_le. intros j _. rewrite Rabs_mult, <- RPow_abs.
    apply Rmult_le_compat_l; [apply Rabs_pos|]. apply pow_incr. split; [apply Rabs_pos|apply Hl, Hk]. }
  assert (F00 : 0 <= F0) by (eapply Rle_trans; [apply Rabs_pos|apply (Fb O); lia]).
  assert (W : Rabs (rsum n (fun k => f (lam k) * w k) - rsum n (fun k => f (lam k) * (V O k * V O k * s))) <= F0 * (kap * (1 + phi) + INR n * et)).
  { rewrite <- rsum_minus. eapply Rle_trans; [apply rsum_abs|].
    apply Rle_trans with (rsum n (fun k => F0 * (kap * (V O k * V O k) + et))).
    - apply rsum_le. intros k Hk. rewrite <- Rmult_minus_distr_l, Rabs_mult. apply Rmult_le_compat; try apply Rabs_pos; [apply Fb, Hk|].
      replace (w k - V O k * V O k * s) with ((w k - V O k * V O k * fval sf) + V O k * V O k * (fval sf - s)) by ring.
      eapply Rle_trans; [apply Rabs_triang|]. rewrite (Rabs_mult (V O k * V O k)), (Rabs_right (V O k * V O k)) by (apply Rle_ge, Rle_0_sqr).
      assert (X := Hw k Hk). fold S in X. fold et in X. unfold kap. lra.
    - rewrite rsum_scal, rsum_plus, rsum_scal, rsum_const. apply Rmult_le_compat_l; [exact F00|]. apply Rplus_le_compat_r. apply Rmult_le_compat_l; [exact K0|].
      assert (H := proj1 (proj2 He) O ltac:(lia)). unfold kronecker in H. simpl in H. assert (G := Rle_abs (rsum n (fun k => V O k * V O k) - 1)). lra. }
  rewrite (rsum_ext (2 * n) (fun j => Rabs (c j) * (Rabs s * (sqrt (INR n) * moment_error n tau (rho + 3 * del * sqrt (1 + phi)) phi j) + ((1 + phi) * kap + INR n * et) * tau ^ j))
    (fun j => Rabs s * (Rabs (c j) * (sqrt (INR n) * moment_error n tau (rho + 3 * del * sqrt (1 + phi)) phi j)) + ((1 + phi) * kap + INR n * et) * (Rabs (c j) * tau ^ j))) by (intros; ring).
  rewrite rsum_plus, !rsum_scal. fold F0.
  match goal with |- Rabs (?p - ?q) <= _ => replace (p - q) with ((p - rsum n (fun k => f (lam k) * (V O k * V O k * s))) + (rsum n (fun k => f (lam k) * (V O k * V O k * s)) - q)) by ring end.
  eapply Rle_trans; [apply Rabs_triang|]. replace (((1 + phi) * kap + INR n * et) * F0) with (F0 * (kap * (1 + phi) + INR n * et)) by ring. lra.
Qed.
End Float.
