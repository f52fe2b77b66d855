(** Golub-Welsch with an exact eigendecomposition yields a Gauss rule. *)
From Coq Require Import Reals Lra Lia List Arith ZArith Permutation FunctionalExtensionality.
From Verif Require Import Arith RInst RInstProof RSum Machine Rules GolubWelsch GWSpec GWProof PolySpec PolyProof EigenSpec.
Import ListNotations.
Local Open Scope R_scope.

(** ** The monic polynomials *)
Lemma monic_SS : forall a b k x,
  monic a b (S (S k)) x = (x - a (S k)) * monic a b (S k) x - b k * b k * monic a b k x.
Proof. reflexivity. Qed.
Lemma monic_1 : forall a b x, monic a b 1 x = x - a O.
Proof. intros. simpl. ring. Qed.

Lemma monic_lead : forall a b k, polynomial k (fun x => monic a b (S k) x - x ^ S k).
Proof.
  intros a b k.
  enough (G : polynomial k (fun x => monic a b (S k) x - x ^ S k) /\
              polynomial (S k) (fun x => monic a b (S (S k)) x - x ^ S (S k))) by apply G.
  induction k.
  - assert (H1 : polynomial 0 (fun x => monic a b 1 x - x ^ 1)).
    { apply (poly_ext _ (fun _ => - a O)); [intros; rewrite monic_1; ring|]. apply poly_const. }
    split; [exact H1|].
    apply (poly_ext _ (fun x => (- a O - a 1%nat) * x + (a 1%nat * a O - b O * b O))).
    { intros x. rewrite monic_SS, monic_1. simpl. ring. }
    apply poly_add; [apply poly_scal, poly_id|apply poly_const].
  - destruct IHk as [I1 I2]. split; [exact I2|].
    apply (poly_ext _ (fun x => (x * (monic a b (S (S k)) x - x ^ S (S k)) - a (S (S k)) * (monic a b (S (S k)) x - x ^ S (S k)))
       - (a (S (S k)) * x ^ S (S k) + b (S k) * b (S k) * ((monic a b (S k) x - x ^ S k) + x ^ S k)))).
    { intros x. rewrite (monic_SS a b (S k)). simpl pow. ring. }
    apply poly_sub; [apply poly_sub|apply poly_add].
    + apply poly_mulx, I2.
    + apply poly_scal. apply (poly_weaken (S k)); [lia|exact I2].
    + apply poly_scal, poly_pow.
    + apply poly_scal, poly_add; [apply (poly_weaken k); [lia|exact I1]|apply (poly_weaken (S k)); [lia|apply poly_pow]].
Qed.
Lemma monic_exact : forall a b, exact_degrees (monic a b).
Proof.
  intros a b. split.
  - exists 1. split; [lra|]. reflexivity.
  - intros k. exists 1. split; [lra|].
    apply (poly_ext _ (fun x => monic a b (S k) x - x ^ S k)); [intros; ring|]. apply monic_lead.
Qed.
Lemma monic_poly : forall a b k, polynomial k (monic a b k).
Proof. intros. apply exact_poly, monic_exact. Qed.

(** product b_0 ... b_{k-1} *)
Fixpoint bprod (b : nat -> R) (k : nat) : R := match k with O => 1 | S j => b j * bprod b j end.
Lemma bprod_neq : forall b n k, (forall i, (i < n)%nat -> b i <> 0) -> (k <= n)%nat -> bprod b k <> 0.
Proof.
  intros b n k H. induction k; intros Hk; simpl; [lra|]. apply Rmult_integral_contrapositive_currified; [apply H; lia|apply IHk; lia].
Qed.

(** squared norms with respect to a functional *)
Lemma norms : forall a b n L, linear_on_polynomials L -> orthogonal_up_to n L (monic a b) ->
  forall k, (k < n)%nat -> L (fun x => monic a b k x * monic a b k x) = bprod b k * bprod b k * L (fun _ => 1).
Proof.
  intros a b n L HL HO k. induction k; intros Hk.
  - simpl. rewrite !Rmult_1_l. reflexivity.
  - set (P := monic a b) in *.
    assert (HP : exact_degrees P) by apply monic_exact.
    assert (PO : forall j, (j <= k)%nat -> forall q, polynomial j q -> L (fun x => q x * P (S k) x) = 0).
    { intros j Hj q Hq. destruct (expand P HP j q Hq) as [c Hc].
      assert (E : (fun x => q x * P (S k) x) = (fun x => rsum (S j) (fun i => c i * (P i x * P (S k) x)))).
      { extensionality x. rewrite Hc, <- rsum_scal_r. apply rsum_ext. intros; ring. }
      rewrite E, (lin_sum L HL (S j + S k)).
      - apply rsum_eq0. intros i Hi. rewrite HO by lia. ring.
      - intros i Hi. apply (poly_weaken (i + S k)); [lia|]. apply poly_mul; apply exact_poly, HP. }
    assert (E1 : L (fun x => P (S k) x * P (S k) x) = L (fun x => x * P k x * P (S k) x)).
    { assert (D : polynomial k (fun x => P (S k) x - x * P k x)).
      { unfold P. destruct k.
        - apply (poly_ext _ (fun _ => - a O)); [intros; rewrite monic_1; simpl; ring|apply poly_const].
        - apply (poly_ext _ (fun x => (- a (S k)) * monic a b (S k) x + (- (b k * b k)) * monic a b k x)).
          { intros x. rewrite monic_SS. ring. }
          apply poly_lin; [apply monic_poly|apply (poly_weaken k); [lia|apply monic_poly]]. }
      assert (E : (fun x => P (S k) x * P (S k) x) =
                  (fun x => (P (S k) x - x * P k x) * P (S k) x + x * P k x * P (S k) x)) by (extensionality x; ring).
      rewrite E. rewrite (lin_add L HL (S k + S k)).
      - rewrite (PO k); [ring|lia|exact D].
      - apply (poly_weaken (k + S k)); [lia|]. apply poly_mul; [exact D|apply monic_poly].
      - apply poly_mul; [apply poly_mulx|]; apply monic_poly. }
    assert (E2 : L (fun x => x * P k x * P (S k) x) = b k * b k * L (fun x => P k x * P k x)).
    { assert (E : (fun x => x * P k x * P (S k) x) =
         (fun x => 1 * (P k x * P (S (S k)) x + a (S k) * (P k x * P (S k) x)) + b k * b k * (P k x * P k x))).
      { extensionality x. unfold P. rewrite (monic_SS a b k x). ring. }
      rewrite E. rewrite (HL (S (S k) + S (S k))%nat).
      - rewrite (lin_add L HL (S (S k) + S (S k))).
        + rewrite (lin_scal L HL (k + S k)) by (apply poly_mul; apply monic_poly).
          rewrite (HO k (S k)) by lia. 
          destruct (Nat.eq_dec (S k) n) as [En|En]; [lia|]. rewrite (HO k (S (S k))) by lia. ring.
        + apply (poly_weaken (k + S (S k))); [lia|]. apply poly_mul; apply monic_poly.
        + apply poly_scal. apply (poly_weaken (k + S k)); [lia|]. apply poly_mul; apply monic_poly.
      - apply poly_add; [apply (poly_weaken (k + S (S k))); [lia|]; apply poly_mul; apply monic_poly|].
        apply poly_scal. apply (poly_weaken (k + S k)); [lia|]. apply poly_mul; apply monic_poly.
      - apply (poly_weaken (k + k)); [lia|]. apply poly_mul; apply monic_poly. }
    rewrite E1, E2, IHk by lia. simpl bprod. ring.
Qed.

(** ** The rule *)
Section Gauss.
Variables (n : nat) (a b : nat -> R) (m : list (list RA)) (lam : list RA) (V : list (list RA)).
Hypothesis Hn : (1 <= n)%nat.
Hypothesis Hb : forall i, (i < n - 1)%nat -> b i <> 0.
Hypothesis Hm : forall i j, (i < n)%nat -> (j < n)%nat -> @entry RA m i j = @tridiagonal RA a b i j.
Hypothesis Hev : exact_eigen n m (lam, V).

Let v (i j : nat) : R := @entry RA V i j.
Let l (j : nat) : R := nth j lam 0.
Notation P := (monic a b).

Lemma tri_row : forall i (u : nat -> R), (i < n)%nat ->
  rsum n (fun k => @entry RA m i k * u k) =
  (match i with O => 0 | S h => b h * u h end) + a i * u i + (if Nat.ltb (S i) n then b i * u (S i) else 0).
Proof.
  intros i u Hi.
  rewrite (rsum_ext n _ (fun k => (if Nat.eqb k i then a i * u k else 0) +
     ((if Nat.eqb k (S i) then b i * u k else 0) + (match i with O => 0 | S h => if Nat.eqb k h then b h * u k else 0 end)))).
  - rewrite !rsum_plus. rewrite (rsum_delta n i (fun k => a i * u k)) by exact Hi.
    assert (E2 : rsum n (fun k => if Nat.eqb k (S i) then b i * u k else 0) = if Nat.ltb (S i) n then b i * u (S i) else 0).
    { destruct (Nat.ltb_spec (S i) n) as [H|H].
      - apply (rsum_delta n (S i) (fun k => b i * u k)); exact H.
      - apply rsum_eq0. intros k Hk. replace (Nat.eqb k (S i)) with false; [reflexivity|]. symmetry. apply Nat.eqb_neq. lia. }
    rewrite E2. destruct i as [|h].
    + rewrite rsum_0. ring.
    + rewrite (rsum_delta n h (fun k => b h * u k)) by lia. ring.
  - intros k Hk. rewrite Hm by assumption. unfold tridiagonal.
    destruct (Nat.eqb_spec i k) as [->|E1].
    + rewrite Nat.eqb_refl. replace (Nat.eqb k (S k)) with false by (symmetry; apply Nat.eqb_neq; lia).
      destruct k as [|k']; [ring|]. replace (Nat.eqb (S k') k') with false by (symmetry; apply Nat.eqb_neq; lia). ring.
    + replace (Nat.eqb k i) with false by (symmetry; apply Nat.eqb_neq; lia).
      replace (i + 1)%nat with (S i) by lia. destruct (Nat.eqb_spec k (S i)) as [->|E2].
      * destruct i as [|h]; [ring|]. replace (Nat.eqb (S (S h)) h) with false by (symmetry; apply Nat.eqb_neq; lia). ring.
      * replace (k + 1)%nat with (S k) by lia. destruct (Nat.eqb_spec i (S k)) as [->|E3].
        -- rewrite Nat.eqb_refl. ring.
        -- rewrite ra_lit0. destruct i as [|h]; [ring|].
           replace (Nat.eqb k h) with false by (symmetry; apply Nat.eqb_neq; lia). ring.
Qed.

Lemma eig : forall i j, (i < n)%nat -> (j < n)%nat ->
  (match i with O => 0 | S h => b h * v h j end) + a i * v i j + (if Nat.ltb (S i) n then b i * v (S i) j else 0)
  = l j * v i j.
Proof.
  intros i j Hi Hj. destruct Hev as (_ & _ & E & _). specialize (E i j Hi Hj). cbn [fst snd] in E.
  unfold l, v. rewrite <- (tri_row i (fun k => @entry RA V k j) Hi). exact E.
Qed.
Lemma row_orth : forall i k, (i < n)%nat -> (k < n)%nat -> rsum n (fun j => v i j * v k j) = kronecker i k.
Proof. intros i k Hi Hk. destruct Hev as (_ & _ & _ & E & _). exact (E i k Hi Hk). Qed.
Lemma col_orth : forall i k, (i < n)%nat -> (k < n)%nat -> rsum n (fun j => v j i * v j k) = kronecker i k.
Proof. intros i k Hi Hk. destruct Hev as (_ & _ & _ & _ & E). exact (E i k Hi Hk). Qed.

(** eigenvectors are values of the polynomials *)
Lemma vec_poly : forall j, (j < n)%nat -> forall i, (i < n)%nat -> bprod b i * v i j = v 0%nat j * P i (l j).
Proof.
  intros j Hj i. induction i as [i IH] using (well_founded_induction lt_wf). intros Hi.
  destruct i as [|i]; [simpl; ring|].
  assert (E := eig i j ltac:(lia) Hj).
  replace (Nat.ltb (S i) n) with true in E by (symmetry; apply Nat.ltb_lt; lia).
  assert (I := IH i ltac:(lia) ltac:(lia)).
  simpl bprod. replace (b i * bprod b i * v (S i) j) with (bprod b i * (b i * v (S i) j)) by ring.
  destruct i as [|h].
  - replace (b O * v 1%nat j) with (l j * v O j - a O * v O j) by (rewrite <- E; ring).
    rewrite monic_1. simpl. ring.
  - assert (J := IH h ltac:(lia) ltac:(lia)).
    replace (b (S h) * v (S (S h)) j) with (l j * v (S h) j - a (S h) * v (S h) j - b h * v h j) by (rewrite <- E; ring).
    rewrite monic_SS.
    transitivity ((l j - a (S h)) * (bprod b (S h) * v (S h) j) - b h * b h * (bprod b h * v h j)).
    + simpl bprod. ring.
    + rewrite I, J. ring.
Qed.

Lemma bnz : forall k, (k < n)%nat -> bprod b k <> 0.
Proof. intros k Hk. apply (bprod_neq b (n - 1)); [exact Hb|lia]. Qed.

Lemma first_nz : forall j, (j < n)%nat -> v 0%nat j <> 0.
Proof.
  intros j Hj H0. assert (E := col_orth j j Hj Hj). unfold kronecker in E. rewrite Nat.eqb_refl in E.
  rewrite rsum_eq0 in E; [lra|]. intros i Hi. assert (F := vec_poly j Hj i Hi). rewrite H0, Rmult_0_l in F.
  apply Rmult_integral in F. destruct F as [F|F]; [exfalso; exact (bnz i Hi F)|]. rewrite F. ring.
Qed.

Lemma char_zero : forall j, (j < n)%nat -> P n (l j) = 0.
Proof.
  intros j Hj. pose proof (first_nz j Hj) as Nz. assert (exists p, n = S p) as [p En] by (exists (n - 1)%nat; lia).
  assert (E := eig p j ltac:(lia) Hj). replace (P n (l j)) with (P (S p) (l j)) by (rewrite En; reflexivity).
  replace (Nat.ltb (S p) n) with false in E by (symmetry; apply Nat.ltb_ge; lia).
  rewrite Rplus_0_r in E.
  apply (Rmult_eq_reg_l (v 0%nat j)); [|exact Nz]. rewrite Rmult_0_r.
  destruct p as [|h].
  - rewrite monic_1. rewrite Rplus_0_l in E. rewrite Rmult_minus_distr_l. rewrite (Rmult_comm (v 0%nat j) (a 0%nat)), E. ring.
  - assert (I := vec_poly j ltac:(lia) (S h) ltac:(lia)). assert (J := vec_poly j ltac:(lia) h ltac:(lia)).
    rewrite monic_SS.
    transitivity (bprod b (S h) * (l j * v (S h) j - (b h * v h j + a (S h) * v (S h) j))).
    + transitivity ((l j - a (S h)) * (v 0%nat j * P (S h) (l j)) - b h * b h * (v 0%nat j * P h (l j))); [ring|].
      rewrite <- I, <- J. simpl bprod. ring.
    + rewrite E. ring.
Qed.

(** the rule with weights (first component)^2 * s *)
Variable s : R.
Definition Gsum (f : R -> R) : R := rsum n (fun j => f (l j) * (v 0%nat j * v 0%nat j * s)).

Lemma G_orth : forall i k, (i < n)%nat -> (k < n)%nat ->
  Gsum (fun x => P i x * P k x) = s * (bprod b i * bprod b k) * kronecker i k.
Proof.
  intros i k Hi Hk. unfold Gsum. rewrite <- (row_orth i k Hi Hk), <- rsum_scal. apply rsum_ext. intros j Hj.
  transitivity (s * (v 0%nat j * P i (l j)) * (v 0%nat j * P k (l j))); [ring|].
  rewrite <- (vec_poly j Hj i Hi), <- (vec_poly j Hj k Hk). ring.
Qed.

Lemma G_linear : linear_on_polynomials Gsum.
Proof.
  intros d c e f g _ _. unfold Gsum. rewrite <- !rsum_scal, <- rsum_plus. apply rsum_ext. intros; ring.
Qed.

Theorem gauss_exact : forall L, linear_on_polynomials L -> L (fun _ => 1) = s -> orthogonal_up_to n L P ->
  forall f, polynomial (2 * n - 1) f -> Gsum f = L f.
Proof.
  intros L HL HL1 HO f Hf.
  apply (agree_products Gsum L P G_linear HL (monic_exact a b) (n - 1) n).
  - intros i k Hi Hk.
    destruct (Nat.eq_dec k n) as [->|Hkn].
    + rewrite HO by lia. unfold Gsum. apply rsum_eq0. intros j Hj. rewrite char_zero by exact Hj. ring.
    + rewrite G_orth by lia. unfold kronecker. destruct (Nat.eqb_spec i k) as [->|E].
      * rewrite (norms a b n L HL HO k) by lia. rewrite HL1. ring.
      * destruct (Nat.lt_total i k) as [H|[H|H]]; [rewrite HO by lia; ring|lia|].
        rewrite (functional_extensionality (fun x => P i x * P k x) (fun x => P k x * P i x)) by (intros; ring).
        rewrite HO by lia. ring.
  - replace (n - 1 + n)%nat with (2 * n - 1)%nat by lia. exact Hf.
Qed.

Lemma total_weight : rsum n (fun j => v 0%nat j * v 0%nat j * s) = s.
Proof.
  rewrite rsum_scal_r, (row_orth 0 0) by lia. unfold kronecker. simpl. ring.
Qed.
Lemma nodes_distinct : forall j k, (j < n)%nat -> (k < n)%nat -> l j = l k -> j = k.
Proof.
  intros j k Hj Hk E. destruct (Nat.eq_dec j k) as [|N]; [assumption|exfalso].
  assert (C := col_orth j k Hj Hk). unfold kronecker in C.
  replace (Nat.eqb j k) with false in C by (symmetry; apply Nat.eqb_neq; exact N).
  assert (S1 : v 0%nat j * v 0%nat k * rsum n (fun i => (P i (l j) / bprod b i) ^ 2) = 0).
  { rewrite <- C, <- rsum_scal. apply rsum_ext. intros i Hi.
    replace (v i j) with (v 0%nat j * P i (l j) / bprod b i).
    - replace (v i k) with (v 0%nat k * P i (l k) / bprod b i).
      + rewrite <- E. field. apply bnz, Hi.
      + rewrite <- (vec_poly k Hk i Hi). field. apply bnz, Hi.
    - rewrite <- (vec_poly j Hj i Hi). field. apply bnz, Hi. }
  apply Rmult_integral in S1. destruct S1 as [S1|S1].
  - apply Rmult_integral in S1. destruct S1 as [S1|S1]; [exact (first_nz j Hj S1)|exact (first_nz k Hk S1)].
  - assert (exists p, n = S p) as [p En] by (exists (n - 1)%nat; lia). rewrite En in S1. rewrite rsum_first in S1.
    assert (0 <= rsum p (fun i => (P (S i) (l j) / bprod b (S i)) ^ 2)) by (apply rsum_nonneg; intros; apply pow2_ge_0).
    replace ((P O (l j) / bprod b 0) ^ 2) with 1 in S1 by (simpl; field). lra.
Qed.
End Gauss.

(** ** The pairs returned by golub_welsch *)
Lemma apply_rule_perm : forall p q f, Permutation p q -> apply_rule p f = apply_rule q f.
Proof.
  intros p q f H. unfold apply_rule. induction H; simpl; [reflexivity|congruence|ring|congruence].
Qed.
Lemma apply_rule_combine : forall n (xs ws : list R) f, length xs = n -> length ws = n ->
  apply_rule (combine xs ws) f = rsum n (fun j => f (nth j xs 0) * nth j ws 0).
Proof.
  induction n; intros [|x xs] [|w ws] f Hx Hw; try discriminate; [reflexivity|].
  rewrite rsum_first. unfold apply_rule in *. simpl. rewrite IHn by (simpl in *; congruence). reflexivity.
Qed.
Lemma combine_nth_in : forall n (xs ws : list R) p, length xs = n -> length ws = n ->
  In p (combine xs ws) -> exists j, (j < n)%nat /\ p = (nth j xs 0, nth j ws 0).
Proof.
  intros n xs ws p Hx Hw H. apply (In_nth _ _ (0, 0)) in H. destruct H as (j & Hj & E).
  rewrite combine_length, Hx, Hw, Nat.min_id in Hj. exists j. split; [exact Hj|].
  rewrite combine_nth in E by congruence. symmetry. exact E.
Qed.

Section Driver.
Variables (ext : Linalg RA) (n : nat) (a b : nat -> R) (s : R) (m : list (list RA)) (ps : list (R * R)).
Hypothesis Hn : (1 <= n)%nat.
Hypothesis Hb : forall i, (i < n - 1)%nat -> b i <> 0.
Hypothesis So : sorts ext.
Hypothesis HM : @companion_matrix RA n a b = Ok m.
Hypothesis Hev : exact_eigen n m (symmetric_eigen ext m).
Hypothesis HG : @golub_welsch RA ext n a b s = Ok ps.

Let lam := fst (symmetric_eigen ext m).
Let V := snd (symmetric_eigen ext m).

Lemma comp_entries : forall i j, (i < n)%nat -> (j < n)%nat -> @entry RA m i j = @tridiagonal RA a b i j.
Proof.
  intros i j Hi Hj. destruct (@companion_ok RA n a b Hn) as (m' & E & _ & H).
  rewrite HM in E. injection E; intros <-. apply H; assumption.
Qed.
Lemma Hev' : exact_eigen n m (lam, V).
Proof. unfold lam, V. rewrite <- surjective_pairing. exact Hev. Qed.

Lemma pairs_eq : exists row0, length row0 = n /\ (forall j, nth j row0 0 = @entry RA V 0 j) /\
  Permutation ps (combine lam (map (fun x => x * x * s) row0)).
Proof.
  unfold golub_welsch in HG. rewrite HM in HG. cbn [bind] in HG.
  destruct (symmetric_eigen ext m) as [ev V'] eqn:EE. 
  assert (Sq : square n V') by (destruct Hev as (_ & Sq & _); exact Sq).
  destruct Sq as [L1 L2]. destruct V' as [|row0 rest]; [simpl in L1; lia|].
  cbn [bind index Z.to_nat nth_error] in HG. injection HG; intros E.
  exists row0. split; [inversion L2; assumption|]. split; [intros j; unfold V, entry; rewrite ?EE; cbn [snd nth]; rewrite ra_lit0; reflexivity|].
  rewrite <- E. unfold lam. rewrite ?EE. apply So.
Qed.
Lemma lam_length : length lam = n. Proof. apply Hev'. Qed.

Lemma ps_length : length ps = n.
Proof.
  destruct pairs_eq as (row0 & L & _ & Pe). rewrite (Permutation_length Pe), combine_length, map_length, L, lam_length.
  apply Nat.min_id.
Qed.

Lemma sq_nth : forall (row0 : list R) j, nth j (map (fun x => x * x * s) row0) 0 = nth j row0 0 * nth j row0 0 * s.
Proof.
  intros row0 j. rewrite <- (map_nth (fun x => x * x * s)). f_equal. ring.
Qed.

Lemma rule_is_Gsum : forall f, apply_rule ps f = Gsum n lam V s f.
Proof.
  intros f. destruct pairs_eq as (row0 & L & E & Pe). rewrite (apply_rule_perm _ _ f Pe).
  rewrite (apply_rule_combine n); [|exact lam_length|rewrite map_length; exact L].
  unfold Gsum. apply rsum_ext. intros j Hj. rewrite sq_nth, E. reflexivity.
Qed.

Lemma gw_gauss : forall L, linear_on_polynomials L -> L (fun _ => 1) = s -> orthogonal_up_to n L (monic a b) ->
  forall f, polynomial (2 * n - 1) f -> apply_rule ps f = L f.
Proof.
  intros L HL H1 HO f Hf. rewrite rule_is_Gsum.
  apply (gauss_exact n a b m lam V Hn Hb comp_entries Hev' s L HL H1 HO f Hf).
Qed.
Lemma gw_weights_sum : lsum (map snd ps) = s.
Proof.
  rewrite <- (total_weight n m lam V Hn Hev' s).
  transitivity (apply_rule ps (fun _ => 1)).
  - unfold apply_rule. f_equal. apply map_ext. intros; ring.
  - rewrite rule_is_Gsum. unfold Gsum. apply rsum_ext. intros; ring.
Qed.
Lemma gw_weights_pos : 0 < s -> Forall (fun xw => 0 < snd xw) ps.
Proof.
  intros Hs. destruct pairs_eq as (row0 & L & E & Pe). apply Forall_forall. intros p Hp.
  apply (Permutation_in _ Pe) in Hp. apply (combine_nth_in n) in Hp; [|exact lam_length|rewrite map_length; exact L].
  destruct Hp as (j & Hj & ->). cbn [snd]. rewrite sq_nth, E. apply Rmult_lt_0_compat; [|exact Hs].
  apply Rsqr_pos_lt. exact (first_nz n a b m lam V Hn Hb comp_entries Hev' j Hj).
Qed.
Lemma gw_nodes_distinct : NoDup (map fst ps).
Proof.
  destruct pairs_eq as (row0 & L & E & Pe).
  apply (Permutation_NoDup (l := map fst (combine lam (map (fun x => x * x * s) row0)))).
  - apply Permutation_map, Permutation_sym, Pe.
  - replace (map fst (combine lam (map (fun x => x * x * s) row0))) with lam.
    + apply (NoDup_nth _ 0). intros i j Hi Hj Eq.
      assert (Hi' : (i < n)%nat) by (rewrite <- lam_length; exact Hi).
      assert (Hj' : (j < n)%nat) by (rewrite <- lam_length; exact Hj).
      apply (nodes_distinct n a b m lam V Hn Hb comp_entries Hev' i j Hi' Hj' Eq).
    + symmetry.
      assert (G : forall (xs ws : list R), length xs = length ws -> map fst (combine xs ws) = xs).
      { induction xs; intros [|w ws] H; try discriminate; simpl; [reflexivity|]. rewrite IHxs by (simpl in H; congruence). reflexivity. }
      apply G. rewrite map_length, L. apply lam_length.
Qed.
End Driver.
