(** Golub-Welsch with a solver that has errors: the real-number core. *)
From Coq Require Import Reals List Lia Lra Arith.
From Verif Require Import Arith RInst RSum PolySpec GolubWelsch GWSpec EigenSpec InexactSpec EigenProof Spectral GWProof Machine.
Import ListNotations.
Local Open Scope R_scope.

(** first row of the j-th power of T *)
Fixpoint prow (n : nat) (T : nat -> nat -> R) (j i : nat) : R :=
  match j with O => kronecker i 0 | S j' => rsum n (fun k => prow n T j' k * T k i) end.

Lemma kron_sum : forall n (f : nat -> R), (1 <= n)%nat -> rsum n (fun i => kronecker i 0 * f i) = f O.
Proof.
  intros n f Hn. destruct n; [lia|]. rewrite rsum_first. unfold kronecker at 1. simpl.
  rewrite rsum_eq0; [ring|]. intros i Hi. unfold kronecker. simpl. ring.
Qed.

Section Core.
Variables (n : nat) (T : nat -> nat -> R) (lam : nat -> R) (V : nat -> nat -> R) (tau rho phi : R).
Hypothesis Hn : (1 <= n)%nat.
Hypothesis HT : forall i, (i < n)%nat -> rsum n (fun j => Rabs (T i j)) <= tau.
Hypothesis Hl : forall k, (k < n)%nat -> Rabs (lam k) <= tau.
Hypothesis HE : eigen_error n T lam V rho phi.
Let y := prow n T.
Let res i k := rsum n (fun j => T i j * V j k) - lam k * V i k.

Lemma tau_pos : 0 <= tau.
Proof. eapply Rle_trans; [apply Rabs_pos|apply (Hl O); lia]. Qed.
Lemma rho_pos : 0 <= rho.
Proof. eapply Rle_trans; [apply Rabs_pos|apply (proj1 HE O O); lia]. Qed.
Lemma phi_pos : 0 <= phi.
Proof. eapply Rle_trans; [apply Rabs_pos|apply (proj1 (proj2 HE) O); lia]. Qed.

Lemma prow_norm : forall j, rsum n (fun i => Rabs (y j i)) <= tau ^ j.
Proof.
  assert (T0 := tau_pos). induction j.
  - rewrite (rsum_ext n _ (fun i => kronecker i 0 * 1)).
    + rewrite (kron_sum n (fun _ => 1) Hn). simpl. lra.
    + intros i _. unfold y. simpl. unfold kronecker. destruct (i =? 0)%nat; rewrite ?Rabs_R1, ?Rabs_R0; ring.
  - apply Rle_trans with (rsum n (fun i => rsum n (fun k => Rabs (y j k) * Rabs (T k i)))).
    + apply rsum_le. intros i _. unfold y. cbn [prow]. eapply Rle_trans; [apply rsum_abs|]. apply rsum_le. intros k _. rewrite Rabs_mult. lra.
    + rewrite rsum_swap. apply Rle_trans with (rsum n (fun k => tau * Rabs (y j k))).
      * apply rsum_le. intros k Hk. rewrite rsum_scal, Rmult_comm. apply Rmult_le_compat_r; [apply Rabs_pos|apply HT, Hk].
      * rewrite rsum_scal. simpl. apply Rmult_le_compat_l; assumption.
Qed.

Lemma prow_step : forall j k, rsum n (fun i => y (S j) i * V i k) = rsum n (fun m => y j m * res m k) + lam k * rsum n (fun m => y j m * V m k).
Proof.
  intros j k. rewrite <- rsum_scal, <- rsum_plus.
  rewrite (rsum_ext n _ (fun i => rsum n (fun m => y j m * (T m i * V i k)))).
  - rewrite rsum_swap. apply rsum_ext. intros m Hm. rewrite rsum_scal. unfold res. ring.
  - intros i Hi. unfold y. cbn [prow]. rewrite <- rsum_scal_r. apply rsum_ext. intros; ring.
Qed.

Lemma prow_close : forall j k, (k < n)%nat -> Rabs (rsum n (fun i => y j i * V i k) - V O k * lam k ^ j) <= INR j * tau ^ (j - 1) * rho.
Proof.
  assert (T0 := tau_pos). assert (R0 := rho_pos). induction j; intros k Hk.
  - unfold y. cbn [prow]. rewrite (kron_sum n (fun i => V i k) Hn). simpl. replace (V O k - V O k * 1) with 0 by ring. rewrite Rabs_R0. lra.
  - rewrite prow_step. replace (S j - 1)%nat with j by lia. specialize (IHj k Hk).
    match goal with |- Rabs (?p + ?l * ?q - _) <= _ => replace (p + l * q - V O k * lam k ^ S j) with (p + l * (q - V O k * lam k ^ j)) by (simpl; ring) end.
    eapply Rle_trans; [apply Rabs_triang|]. rewrite S_INR, Rabs_mult.
    assert (A : Rabs (rsum n (fun m => y j m * res m k)) <= tau ^ j * rho).
    { eapply Rle_trans; [apply rsum_abs|]. apply Rle_trans with (rsum n (fun m => rho * Rabs (y j m))).
      - apply rsum_le. intros m Hm. rewrite Rabs_mult, Rmult_comm. apply Rmult_le_compat_r; [apply Rabs_pos|]. apply (proj1 HE m k); assumption.
      - rewrite rsum_scal, Rmult_comm. apply Rmult_le_compat_r; [exact R0|apply prow_norm]. }
    assert (B : Rabs (lam k) * Rabs (rsum n (fun i => y j i * V i k) - V O k * lam k ^ j) <= INR j * tau ^ j * rho).
    { eapply Rle_trans; [apply Rmult_le_compat; [apply Rabs_pos|apply Rabs_pos|apply Hl, Hk|exact IHj]|]. right.
      destruct j; [simpl; ring|]. replace (S j - 1)%nat with j by lia. simpl pow. ring. }
    lra.
Qed.

Lemma first_row_norm : rsum n (fun k => Rabs (V O k)) <= sqrt (INR n * (1 + phi)).
Proof.
  assert (P := phi_pos). assert (N0 : 0 < INR n) by (apply lt_0_INR; lia).
  assert (Q : rsum n (fun k => V O k * V O k) <= 1 + phi).
  { assert (H := proj1 (proj2 HE) O ltac:(lia)). unfold kronecker in H. simpl in H. apply Rabs_le_between in H || idtac.
    assert (G := Rle_abs (rsum n (fun k => V O k * V O k) - 1)). lra. }
  set (s := rsum n (fun k => Rabs (V O k))).
  assert (S0 : 0 <= s) by (apply rsum_nonneg; intros; apply Rabs_pos).
  rewrite <- (sqrt_square s S0). apply sqrt_le_1_alt.
  (* 0 <= sum (n |v| - s)^2 = n^2 sum v^2 - n s^2 *)
  assert (Z : 0 <= rsum n (fun k => (INR n * Rabs (V O k) - s) * (INR n * Rabs (V O k) - s))).
  { apply rsum_nonneg. intros. apply Rle_0_sqr. }
  rewrite (rsum_ext n _ (fun k => INR n * INR n * (V O k * V O k) + ((- (2 * INR n * s)) * Rabs (V O k) + s * s))) in Z.
  - rewrite rsum_plus, rsum_plus, !rsum_scal, rsum_const in Z. fold s in Z.
    apply Rmult_le_reg_l with (INR n); [exact N0|]. nra.
  - intros k _. assert (E : Rabs (V O k) * Rabs (V O k) = V O k * V O k) by (rewrite <- Rabs_mult; apply Rabs_right, Rle_ge, Rle_0_sqr). nra.
Qed.

Lemma moment_close : forall j, Rabs (rsum n (fun k => lam k ^ j * (V O k * V O k)) - y j O) <= moment_error n tau rho phi j.
Proof.
  intros j. assert (T0 := tau_pos). assert (R0 := rho_pos). assert (P0 := phi_pos).
  set (q := fun k => rsum n (fun i => y j i * V i k)).
  assert (E1 : rsum n (fun k => q k * V O k) = y j O + rsum n (fun i => y j i * (rsum n (fun k => V i k * V O k) - kronecker i 0))).
  { rewrite <- (kron_sum n (fun i => y j i) Hn), <- rsum_plus.
    rewrite (rsum_ext n _ (fun k => rsum n (fun i => y j i * (V i k * V O k)))).
    - rewrite rsum_swap. apply rsum_ext. intros i Hi. rewrite rsum_scal. ring.
    - intros k Hk. unfold q. rewrite <- rsum_scal_r. apply rsum_ext. intros; ring. }
  assert (E2 : rsum n (fun k => lam k ^ j * (V O k * V O k)) = rsum n (fun k => q k * V O k) - rsum n (fun k => (q k - V O k * lam k ^ j) * V O k)).
  { rewrite <- rsum_minus. apply rsum_ext. intros; ring. }
  rewrite E2, E1.
  match goal with |- Rabs (?u + ?v - ?w - ?u) <= _ => replace (u + v - w - u) with (v - w) by ring end.
  eapply Rle_trans; [apply Rabs_triang|]. rewrite Rabs_Ropp. unfold moment_error. apply Rplus_le_compat.
  - eapply Rle_trans; [apply rsum_abs|]. apply Rle_trans with (rsum n (fun i => phi * Rabs (y j i))).
    + apply rsum_le. intros i Hi. rewrite Rabs_mult, Rmult_comm. apply Rmult_le_compat_r; [apply Rabs_pos|apply (proj1 (proj2 HE) i Hi)].
    + rewrite rsum_scal. apply Rmult_le_compat_l; [exact P0|apply prow_norm].
  - eapply Rle_trans; [apply rsum_abs|]. apply Rle_trans with (rsum n (fun k => INR j * tau ^ (j - 1) * rho * Rabs (V O k))).
    + apply rsum_le. intros k Hk. rewrite Rabs_mult. apply Rmult_le_compat_r; [apply Rabs_pos|apply prow_close, Hk].
    + rewrite rsum_scal. replace (rho * sqrt (INR n * (1 + phi)) * (INR j * tau ^ (j - 1))) with (INR j * tau ^ (j - 1) * rho * sqrt (INR n * (1 + phi))) by ring.
      apply Rmult_le_compat_l; [|apply first_row_norm]. apply Rmult_le_pos; [apply Rmult_le_pos; [apply pos_INR|apply pow_le; exact T0]|exact R0].
Qed.
End Core.

(** the exact moments *)
Lemma moment_exact : forall n (T : nat -> nat -> R) lam V, (1 <= n)%nat ->
  (forall i k, (i < n)%nat -> (k < n)%nat -> rsum n (fun j => T i j * V j k) = lam k * V i k) ->
  (forall i, (i < n)%nat -> rsum n (fun k => V i k * V O k) = kronecker i 0) ->
  forall j, rsum n (fun k => lam k ^ j * (V O k * V O k)) = prow n T j O.
Proof.
  intros n T lam V Hn H1 H2 j.
  assert (C : forall j k, (k < n)%nat -> rsum n (fun i => prow n T j i * V i k) = V O k * lam k ^ j).
  { induction j0; intros k Hk.
    - cbn [prow]. rewrite (kron_sum n (fun i => V i k) Hn). simpl. ring.
    - rewrite (rsum_ext n _ (fun i => rsum n (fun m => prow n T j0 m * (T m i * V i k)))).
      + rewrite rsum_swap. rewrite (rsum_ext n _ (fun m => lam k * (prow n T j0 m * V m k))).
        * rewrite rsum_scal, IHj0 by exact Hk. simpl. ring.
        * intros m Hm. rewrite rsum_scal, H1 by assumption. ring.
      + intros i Hi. cbn [prow]. rewrite <- rsum_scal_r. apply rsum_ext. intros; ring. }
  rewrite (rsum_ext n _ (fun k => rsum n (fun i => prow n T j i * (V i k * V O k)))).
  - rewrite rsum_swap. rewrite (rsum_ext n _ (fun i => kronecker i 0 * prow n T j i)).
    + apply (kron_sum n (fun i => prow n T j i) Hn).
    + intros i Hi. rewrite rsum_scal, H2 by exact Hi. ring.
  - intros k Hk. replace (lam k ^ j * (V O k * V O k)) with (V O k * lam k ^ j * V O k) by ring. rewrite <- C by exact Hk.
    rewrite <- rsum_scal_r. apply rsum_ext. intros; ring.
Qed.

Lemma prow_ext : forall n (T T' : nat -> nat -> R), (forall i j, (i < n)%nat -> (j < n)%nat -> T i j = T' i j) ->
  forall j i, (i < n)%nat -> prow n T j i = prow n T' j i.
Proof.
  intros n T T' H. induction j; intros i Hi; [reflexivity|]. cbn [prow]. apply rsum_ext. intros k Hk. rewrite IHj, H by assumption. reflexivity.
Qed.
Lemma eigen_error_ext : forall n T T' lam V rho phi, (forall i j, (i < n)%nat -> (j < n)%nat -> T i j = T' i j) ->
  eigen_error n T lam V rho phi -> eigen_error n T' lam V rho phi.
Proof.
  intros n T T' lam V rho phi H (H1 & H2). split; [|exact H2]. intros i k Hi Hk.
  rewrite <- (rsum_ext n (fun j => T i j * V j k)); [apply H1; assumption|]. intros j Hj. rewrite H by assumption. reflexivity.
Qed.

Section Functional.
Variables (n : nat) (a b : nat -> R) (L : (R -> R) -> R).
Hypothesis Hn : (1 <= n)%nat.
Hypothesis Hb : forall i, (i < n - 1)%nat -> b i <> 0.
Hypothesis HL : linear_on_polynomials L.
Hypothesis HO : orthogonal_up_to n L (monic a b).
Let T := @tridiagonal RA a b.

Lemma exact_decomposition : exists (l : nat -> R) (v : nat -> nat -> R),
  (forall i k, (i < n)%nat -> (k < n)%nat -> rsum n (fun j => T i j * v j k) = l k * v i k) /\
  (forall i j, (i < n)%nat -> (j < n)%nat -> rsum n (fun k => v i k * v j k) = kronecker i j) /\
  (forall k, (k < n)%nat -> monic a b n (l k) = 0) /\
  (forall f, polynomial (2 * n - 1) f -> L f = rsum n (fun j => f (l j) * (v O j * v O j * L (fun _ => 1)))).
Proof.
  destruct (@companion_ok RA n a b Hn) as (m & _ & Sq & Hm).
  destruct (exact_eigen_exists n a b m Hn Hb Hm) as [[l v] He]. exists (fun k => nth k l 0), (@entry RA v).
  pose proof He as (_ & _ & E1 & E2 & _). cbn [fst snd] in E1, E2. split; [|split; [exact E2|split]].
  - intros i k Hi Hk. rewrite <- E1 by assumption. apply rsum_ext. intros j Hj. unfold T. rewrite Hm by assumption. reflexivity.
  - intros k Hk. exact (char_zero n a b m l v Hn Hb Hm He k Hk).
  - intros f Hf. rewrite <- (gauss_exact n a b m l v Hn Hb Hm He _ L HL eq_refl HO f Hf). reflexivity.
Qed.
Lemma functional_moments : forall c f, (forall x, f x = rsum (2 * n) (fun j => c j * x ^ j)) ->
  L f = L (fun _ => 1) * rsum (2 * n) (fun j => c j * prow n T j O).
Proof.
  intros c f Hf. destruct exact_decomposition as (l & v & H1 & H2 & _ & H3).
  assert (M := moment_exact n T l v Hn H1 (fun i Hi => H2 i O Hi ltac:(lia))).
  rewrite H3 by (exists c; intros x; replace (S (2 * n - 1)) with (2 * n)%nat by lia; apply Hf).
  rewrite (rsum_ext (2 * n) _ (fun j => rsum n (fun k => c j * (l k ^ j * (v O k * v O k))))) by (intros j Hj; rewrite <- M, rsum_scal; reflexivity).
  rewrite rsum_swap, <- rsum_scal. apply rsum_ext. intros k Hk. rewrite Hf.
  rewrite (rsum_ext (2 * n) (fun i => c i * (l k ^ i * (v O k * v O k))) (fun i => c i * l k ^ i * (v O k * v O k))) by (intros; ring).
  rewrite rsum_scal_r. ring.
Qed.

(** errors of the integrals *)
Variables (lam : nat -> R) (V : nat -> nat -> R) (tau rho phi : R).
Hypothesis HT : forall i, (i < n)%nat -> rsum n (fun j => Rabs (T i j)) <= tau.
Hypothesis Hl : forall k, (k < n)%nat -> Rabs (lam k) <= tau.
Hypothesis HE : eigen_error n T lam V rho phi.
Lemma functional_close : forall c f, (forall x, f x = rsum (2 * n) (fun j => c j * x ^ j)) ->
  Rabs (rsum n (fun k => f (lam k) * (V O k * V O k * L (fun _ => 1))) - L f) <=
  Rabs (L (fun _ => 1)) * rsum (2 * n) (fun j => Rabs (c j) * moment_error n tau rho phi j).
Proof.
  intros c f Hf. rewrite (functional_moments c f Hf).
  replace (rsum n (fun k => f (lam k) * (V O k * V O k * L (fun _ => 1)))) with
    (L (fun _ => 1) * rsum (2 * n) (fun j => c j * rsum n (fun k => lam k ^ j * (V O k * V O k)))).
  - rewrite <- Rmult_minus_distr_l, Rabs_mult, <- rsum_minus. apply Rmult_le_compat_l; [apply Rabs_pos|].
    eapply Rle_trans; [apply rsum_abs|]. apply rsum_le. intros j Hj. rewrite <- Rmult_minus_distr_l, Rabs_mult.
    apply Rmult_le_compat_l; [apply Rabs_pos|]. exact (moment_close n T lam V tau rho phi Hn HT Hl HE j).
  - rewrite (rsum_ext (2 * n) _ (fun j => rsum n (fun k => c j * (lam k ^ j * (V O k * V O k))))) by (intros j Hj; rewrite rsum_scal; reflexivity).
    rewrite rsum_swap, <- rsum_scal. apply rsum_ext. intros k Hk. rewrite Hf.
    rewrite (rsum_ext (2 * n) (fun i => c i * (lam k ^ i * (V O k * V O k))) (fun i => c i * lam k ^ i * (V O k * V O k))) by (intros; ring).
    rewrite rsum_scal_r. ring.
Qed.

(** errors of the nodes *)
Lemma smallest : forall (g : nat -> R) k, (1 <= k)%nat -> exists i, (i < k)%nat /\ forall j, (j < k)%nat -> g i <= g j.
Proof.
  intros g. induction k; intros Hk; [lia|]. destruct k.
  - exists O. split; [lia|]. intros j Hj. replace j with O by lia. lra.
  - destruct (IHk ltac:(lia)) as (i & Hi & H). destruct (Rle_dec (g i) (g (S k))) as [G|G].
    + exists i. split; [lia|]. intros j Hj. destruct (Nat.eq_dec j (S k)) as [->|]; [exact G|apply H; lia].
    + exists (S k). split; [lia|]. intros j Hj. destruct (Nat.eq_dec j (S k)) as [->|]; [lra|]. specialize (H j ltac:(lia)). lra.
Qed.
Lemma tri_symmetric : forall i j, T i j = T j i.
Proof. intros i j. unfold T, tridiagonal. destruct (Nat.eqb_spec i j), (Nat.eqb_spec j i); try lia; try congruence. destruct (Nat.eqb_spec j (i + 1)), (Nat.eqb_spec i (j + 1)); try lia; reflexivity. Qed.
Lemma node_close : phi < 1 -> forall k, (k < n)%nat -> exists x, monic a b n x = 0 /\ Rabs (lam k - x) <= rho * sqrt (INR n / (1 - phi)).
Proof.
  intros Hphi k Hk. destruct exact_decomposition as (l & v & H1 & H2 & H3 & _).
  set (u := fun i => V i k). set (r := fun i => rsum n (fun j => T i j * u j) - lam k * u i).
  set (al := fun j => rsum n (fun i => v i j * u i)). set (be := fun j => rsum n (fun i => v i j * r i)).
  (* be j = (l j - lam k) al j *)
  assert (B : forall j, (j < n)%nat -> be j = (l j - lam k) * al j).
  { intros j Hj. unfold be, al, r. rewrite Rmult_minus_distr_r.
    rewrite (rsum_ext n _ (fun i => v i j * rsum n (fun m => T i m * u m) - lam k * (v i j * u i))) by (intros; ring).
    rewrite rsum_minus, rsum_scal. f_equal.
    rewrite (rsum_ext n _ (fun i => rsum n (fun m => v i j * (T i m * u m)))) by (intros; rewrite rsum_scal; reflexivity).
    rewrite rsum_swap, <- rsum_scal. apply rsum_ext. intros m Hm.
    rewrite (rsum_ext n _ (fun i => T m i * v i j * u m)) by (intros i Hi; rewrite (tri_symmetric i m); ring).
    rewrite rsum_scal_r, H1 by assumption. ring. }
  (* Parseval *)
  assert (Pa : forall w, rsum n (fun j => rsum n (fun i => v i j * w i) * rsum n (fun i => v i j * w i)) = rsum n (fun i => w i * w i)).
  { intros w. rewrite (rsum_ext n _ (fun j => rsum n (fun i => rsum n (fun m => w i * w m * (v i j * v m j))))).
    - rewrite rsum_swap. apply rsum_ext. intros i Hi. rewrite rsum_swap.
      rewrite (rsum_ext n _ (fun m => kronecker i m * (w i * w m))).
      + rewrite (rsum_ext n _ (fun m => (if Nat.eqb i m then w i * w m else 0))).
        * rewrite <- (rsum_delta n i (fun m => w i * w m) Hi). apply rsum_ext. intros m _. unfold kronecker. destruct (Nat.eqb_spec i m); destruct (Nat.eqb_spec m i); try congruence; try ring.
        * intros m _. unfold kronecker. destruct (i =? m)%nat; ring.
      + intros m Hm. rewrite rsum_scal, H2 by assumption. ring.
    - intros j Hj. rewrite <- rsum_scal_r. apply rsum_ext. intros i Hi. rewrite <- rsum_scal. apply rsum_ext. intros m Hm. ring. }
  destruct (smallest (fun j => (l j - lam k) * (l j - lam k)) n Hn) as (j & Hj & Hmin).
  exists (l j). split; [apply H3, Hj|].
  set (d := (l j - lam k) * (l j - lam k)).
  assert (D : d * rsum n (fun i => u i * u i) <= rsum n (fun i => r i * r i)).
  { rewrite <- (Pa u), <- (Pa r), <- rsum_scal. fold al. fold be. apply rsum_le. intros m Hm. change (rsum n (fun i => v i m * u i)) with (al m).
    change (rsum n (fun i => v i m * r i)) with (be m). rewrite (B m Hm). specialize (Hmin m Hm). cbv beta in Hmin. fold d in Hmin. assert (0 <= al m * al m) by apply Rle_0_sqr. nra. }
  assert (Rr : rsum n (fun i => r i * r i) <= INR n * (rho * rho)).
  { rewrite <- rsum_const. apply rsum_le. intros i Hi. assert (H := proj1 HE i k Hi Hk). fold (u i) in H. change (Rabs (r i) <= rho) in H.
    assert (0 <= Rabs (r i)) by apply Rabs_pos. replace (r i * r i) with (Rabs (r i) * Rabs (r i)) by (rewrite <- Rabs_mult; apply Rabs_right, Rle_ge, Rle_0_sqr). nra. }
  assert (U : 1 - phi <= rsum n (fun i => u i * u i)) by (assert (Q := proj2 (proj2 HE) k Hk); fold u in Q; change (Rabs (rsum n (fun i => u i * u i) - 1) <= phi) in Q; assert (Q' := Rle_abs (- (rsum n (fun i => u i * u i) - 1))); rewrite Rabs_Ropp in Q'; lra).
  assert (d0 : 0 <= d) by apply Rle_0_sqr. assert (N0 : 0 < INR n) by (apply lt_0_INR; lia). assert (R0 : 0 <= rho) by apply (rho_pos n T lam V rho phi Hn HE).
  assert (Dd : d <= INR n / (1 - phi) * (rho * rho)).
  { apply Rmult_le_reg_r with (1 - phi); [lra|]. replace (INR n / (1 - phi) * (rho * rho) * (1 - phi)) with (INR n * (rho * rho)) by (field; lra). nra. }
  rewrite Rabs_minus_sym. rewrite <- (sqrt_Rsqr_abs (l j - lam k)). rewrite Rmult_comm. rewrite <- (sqrt_square rho R0) at 1.
  rewrite <- sqrt_mult_alt; [|apply Rmult_le_pos; [lra|left; apply Rinv_0_lt_compat; lra]]. apply sqrt_le_1_alt. exact Dd.
Qed.
End Functional.
