(** Where the nodes of the Gauss-Hermite and Gauss-Laguerre rules lie. *)
From Coq Require Import Reals Lra Lia List ZArith Bool Sorted FunctionalExtensionality.
From Coquelicot Require Import Coquelicot.
From Flocq Require Import Core.Raux.
From Verif Require Import Arith RInst RInstProof Machine Param Rules RSum PolySpec PolyProof GolubWelsch GWSpec EigenSpec EigenProof Spectral
  Improper OrthoProof LaguerreWeight WeightSpec Gamma Hermite Laguerre RuleSpec
  GaussProof SizeProof GWRoots GammaProof MassSpec GaussExact JacobiMore.
Import ListNotations.
Local Open Scope R_scope.

(** ** roots of the monic polynomials of a recurrence *)
Lemma hermite_up : forall a b n c x, (forall i, a i = 0) -> (forall i, b i * b i = INR (S i) / 2) ->
  (2 <= n)%nat -> 0 < c -> c * c = (INR n - 1) / 2 -> 2 * c <= x ->
  forall k, (S k <= n)%nat -> 0 < monic a b k x /\ c * monic a b k x <= monic a b (S k) x.
Proof.
  intros a b n c x Ha Hb Hn Hc Hcc Hx k. induction k as [|k IH]; intros Hk.
  - rewrite monic_1, Ha. simpl. split; lra.
  - destruct (IH ltac:(lia)) as [P1 P2]. assert (P3 : 0 < monic a b (S k) x) by nra.
    split; [exact P3|]. rewrite monic_SS, Ha, Hb.
    assert (B : INR (S k) / 2 <= c * c). { rewrite Hcc. apply le_INR in Hk. rewrite S_INR in Hk. lra. }
    assert (INR (S k) / 2 * monic a b k x <= c * c * monic a b k x) by (apply Rmult_le_compat_r; lra).
    assert (c * (c * monic a b k x) <= c * monic a b (S k) x) by (apply Rmult_le_compat_l; lra).
    assert (2 * c * monic a b (S k) x <= x * monic a b (S k) x) by (apply Rmult_le_compat_r; lra). nra.
Qed.

Lemma laguerre_up : forall a b n al x, -1 < al -> (forall i, a i = al + 1 + 2 * INR i) -> (forall i, b i * b i = INR (S i) * (INR (S i) + al)) ->
  4 * INR n - 2 + 2 * al <= x ->
  forall k, (S k <= n)%nat -> 0 < monic a b k x /\ (INR k + 1 + al) * monic a b k x <= monic a b (S k) x.
Proof.
  intros a b n al x Hal Ha Hb Hx k. induction k as [|k IH]; intros Hk.
  - rewrite monic_1, Ha. simpl. apply le_INR in Hk. simpl in Hk. split; lra.
  - destruct (IH ltac:(lia)) as [P1 P2]. assert (Q := pos_INR k). assert (P3 : 0 < monic a b (S k) x) by nra.
    split; [exact P3|]. rewrite monic_SS, Ha, Hb. apply le_INR in Hk. rewrite !S_INR in *.
    assert ((INR k + 1) * ((INR k + 1 + al) * monic a b k x) <= (INR k + 1) * monic a b (S k) x) by (apply Rmult_le_compat_l; lra).
    assert (0 <= (x - (6 + 4 * INR k + 2 * al)) * monic a b (S k) x) by (apply Rmult_le_pos; lra). nra.
Qed.

Lemma hermite_up_neq : forall a b n x, (forall i, a i = 0) -> (forall i, b i * b i = INR (S i) / 2) ->
  (2 <= n)%nat -> sqrt (2 * INR n - 2) <= x -> monic a b n x <> 0.
Proof.
  intros a b n x Ca Cb Hm Ge Z0. assert (M2 : 2 <= INR n) by (apply (le_INR 2); exact Hm).
  set (c := sqrt ((INR n - 1) / 2)). assert (c0 : 0 < c) by (apply sqrt_lt_R0; lra).
  assert (cc : c * c = (INR n - 1) / 2) by (apply sqrt_sqrt; lra).
  assert (E : sqrt (2 * INR n - 2) = 2 * c).
  { replace (2 * INR n - 2) with (Rsqr (2 * c)) by (unfold Rsqr; nra). apply sqrt_Rsqr. lra. }
  rewrite E in Ge. destruct n as [|k]; [lia|].
  destruct (hermite_up a b (S k) c x Ca Cb Hm c0 cc Ge k (le_n _)) as [U1 U2]. rewrite Z0 in U2. nra.
Qed.
Lemma laguerre_up_neq : forall a b n al x, -1 < al -> (forall i, a i = al + 1 + 2 * INR i) -> (forall i, b i * b i = INR (S i) * (INR (S i) + al)) ->
  4 * INR n - 2 + 2 * al <= x -> monic a b n x <> 0.
Proof.
  intros a b n al x Hal Ca Cb Ge Z0. destruct n as [|k]; [simpl in Z0; lra|].
  destruct (laguerre_up a b (S k) al x Hal Ca Cb Ge k (le_n _)) as [U1 U2]. rewrite Z0 in U2. assert (Q := pos_INR k). nra.
Qed.

(** product (al+1)(al+2)...(al+k) *)
Fixpoint lrise (al : R) (k : nat) : R := match k with O => 1 | S j => (INR j + 1 + al) * lrise al j end.
Lemma lrise_pos : forall al k, -1 < al -> 0 < lrise al k.
Proof. intros al k H. induction k; simpl; [lra|]. apply Rmult_lt_0_compat; [|exact IHk]. assert (Q := pos_INR k). lra. Qed.

Lemma laguerre_low : forall a b n al x, -1 < al -> (forall i, a i = al + 1 + 2 * INR i) -> (forall i, b i * b i = INR (S i) * (INR (S i) + al)) ->
  0 <= x -> INR n * x < al + 1 ->
  forall k, (S k <= n)%nat -> let q := fun k => (-1) ^ k * monic a b k x / lrise al k in
  0 <= q k <= 1 /\ 0 <= q k - q (S k) <= x / (al + 1) /\ 1 - INR k * (x / (al + 1)) <= q k.
Proof.
  intros a b n al x Hal Ha Hb Hx Hn k Hk q. set (t := x / (al + 1)).
  assert (Et : x = t * (al + 1)) by (unfold t; field; lra).
  assert (Ht : 0 <= t) by (apply Rdiv_le_0_compat; lra).
  assert (Hnt : INR n * t < 1). { apply (Rmult_lt_reg_r (al + 1)); [lra|]. rewrite Rmult_assoc, <- Et. lra. }
  assert (Step : forall k, (INR k + 2 + al) * (q (S k) - q (S (S k))) = (INR k + 1) * (q k - q (S k)) + x * q (S k)).
  { intros j. unfold q. rewrite monic_SS, Ha, Hb. cbn [lrise pow]. rewrite S_INR.
    assert (R0 := lrise_pos al j Hal). assert (Q := pos_INR j). field. lra. }
  revert Hk. induction k as [|k IH]; intros Hk.
  - assert (E0 : q O = 1) by (unfold q; simpl; field).
    assert (E1 : q 1%nat = 1 - t). { unfold q. rewrite monic_1, Ha. cbn [lrise pow]. unfold t. simpl INR. field. lra. }
    rewrite E0, E1. simpl INR. lra.
  - destruct (IH ltac:(lia)) as (B1 & B2 & B3). assert (Q := pos_INR k).
    assert (B4 : 1 - INR (S k) * t <= q (S k)) by (rewrite S_INR; lra).
    assert (Hkn : INR (S k) * t <= INR n * t) by (apply Rmult_le_compat_r; [exact Ht|apply le_INR; lia]).
    assert (St := Step k).
    assert (0 <= x * q (S k)) by (apply Rmult_le_pos; lra).
    assert (0 <= x * (1 - q (S k))) by (apply Rmult_le_pos; lra).
    assert (0 <= (INR k + 1) * (q k - q (S k))) by (apply Rmult_le_pos; lra).
    assert (0 <= (INR k + 1) * (t - (q k - q (S k)))) by (apply Rmult_le_pos; lra).
    split; [lra|]. split; [|exact B4]. split.
    + apply (Rmult_le_reg_l (INR k + 2 + al)); [lra|]. lra.
    + apply (Rmult_le_reg_l (INR k + 2 + al)); [lra|]. rewrite St. nra.
Qed.
Lemma laguerre_low_neq : forall a b n al x, -1 < al -> (forall i, a i = al + 1 + 2 * INR i) -> (forall i, b i * b i = INR (S i) * (INR (S i) + al)) ->
  0 <= x -> INR n * x < al + 1 -> monic a b n x <> 0.
Proof.
  intros a b n al x Hal Ha Hb Hx Hn E. destruct n as [|n]; [simpl in E; lra|].
  destruct (laguerre_low a b (S n) al x Hal Ha Hb Hx Hn n (le_n _)) as (B1 & B2 & B3). cbv zeta in *.
  rewrite E in B2. replace ((-1) ^ S n * 0 / lrise al (S n)) with 0 in B2 by (unfold Rdiv; ring).
  assert (INR (S n) * (x / (al + 1)) < 1).
  { apply (Rmult_lt_reg_r (al + 1)); [lra|]. replace (INR (S n) * (x / (al + 1)) * (al + 1)) with (INR (S n) * x) by (field; lra). lra. }
  rewrite S_INR in *. lra.
Qed.

(** ** Rayleigh quotients *)
Lemma apply_cons : forall (p : R * R) l f, apply_rule (p :: l) f = f (fst p) * snd p + apply_rule l f.
Proof. reflexivity. Qed.
Lemma some_ge : forall (l : list (R * R)) (g p : R -> R) c, List.Forall (fun xw => 0 < snd xw) l ->
  apply_rule l (fun x => (g x - c) * (p x * p x)) = 0 -> 0 < apply_rule l (fun x => p x * p x) ->
  exists xw, In xw l /\ c <= g (fst xw).
Proof.
  intros l g p c W Z N.
  destruct (List.Exists_dec (fun xw : R * R => c <= g (fst xw)) l (fun xw => Rle_dec _ _)) as [Y|No].
  - apply List.Exists_exists in Y. exact Y.
  - exfalso. apply List.Forall_Exists_neg in No.
    assert (G : apply_rule l (fun x => (g x - c) * (p x * p x)) <= 0 /\
       (apply_rule l (fun x => (g x - c) * (p x * p x)) = 0 -> apply_rule l (fun x => p x * p x) = 0)).
    { clear Z N. induction l as [|[x w] l IH]; [unfold apply_rule; simpl; lra|].
      inversion W as [|? ? W1 W2]; inversion No as [|? ? N1 N2]; subst. destruct (IH W2 N2) as [I1 I2].
      rewrite !apply_cons. simpl in *. apply Rnot_le_lt in N1.
      assert (S0 := Rle_0_sqr (p x)). unfold Rsqr in S0.
      assert (T : (g x - c) * (p x * p x) * w <= 0).
      { assert (0 <= (c - g x) * (p x * p x) * w) by (apply Rmult_le_pos; [apply Rmult_le_pos|]; lra). lra. }
      split; [lra|]. intros E. rewrite I2 by lra.
      assert (E' : (g x - c) * (p x * p x) * w = 0) by lra.
      apply Rmult_integral in E'. destruct E' as [E'|]; [|lra]. apply Rmult_integral in E'. destruct E' as [|E']; [lra|]. rewrite E'. ring. }
    destruct G as [_ G]. specialize (G Z). lra.
Qed.
Lemma some_le : forall (l : list (R * R)) (g p : R -> R) c, List.Forall (fun xw => 0 < snd xw) l ->
  apply_rule l (fun x => (g x - c) * (p x * p x)) = 0 -> 0 < apply_rule l (fun x => p x * p x) ->
  exists xw, In xw l /\ g (fst xw) <= c.
Proof.
  intros l g p c W Z N. destruct (some_ge l (fun x => - g x) p (- c) W) as (xw & I & B).
  - assert (E : forall l, apply_rule l (fun x => (- g x - - c) * (p x * p x)) = - apply_rule l (fun x => (g x - c) * (p x * p x))).
    { clear. induction l; [unfold apply_rule; simpl; ring|]. rewrite !apply_cons, IHl. ring. }
    rewrite E, Z. ring.
  - exact N.
  - exists xw. split; [exact I|lra].
Qed.

Section Ray.
Variables (a b : nat -> R) (n : nat) (L : (R -> R) -> R).
Hypothesis HL : linear_on_polynomials L.
Hypothesis HO : orthogonal_up_to n L (monic a b).
Let P := monic a b.
Lemma ray_sym : forall i k, i <> k -> (i <= n)%nat -> (k <= n)%nat -> L (fun x => P i x * P k x) = 0.
Proof.
  intros i k N Hi Hk. destruct (Nat.lt_ge_cases i k) as [Lt|Ge]; [apply HO; assumption|].
  rewrite <- (HO k i ltac:(lia) Hi). f_equal. extensionality x. unfold P. ring.
Qed.
Lemma PP : forall i k d, (i + k <= d)%nat -> polynomial d (fun x => P i x * P k x).
Proof. intros i k d H. apply (poly_weaken (i + k)); [exact H|]. apply poly_mul; apply monic_poly. Qed.

Lemma ray_one : forall k, (k < n)%nat -> L (fun x => (x - a k) * (P k x * P k x)) = 0.
Proof.
  intros k Hk. destruct k as [|k].
  - rewrite <- (HO 0%nat 1%nat ltac:(lia) ltac:(lia)). f_equal. extensionality x. unfold P. rewrite monic_1. simpl. ring.
  - assert (E : (fun x => (x - a (S k)) * (P (S k) x * P (S k) x)) =
      (fun x => 1 * (P (S k) x * P (S (S k)) x) + b k * b k * (P k x * P (S k) x))).
    { extensionality x. unfold P. rewrite (monic_SS a b k). ring. }
    rewrite E, (HL (2 * S (S k))%nat) by (apply PP; lia). rewrite !ray_sym by lia. ring.
Qed.

Hypothesis Ha : forall i, a i = 0.
Lemma ray_two0 : (2 <= n)%nat -> L (fun x => (x * x - b 0%nat * b 0%nat) * (P 0%nat x * P 0%nat x)) = 0.
Proof.
  intros Hn. assert (E : (fun x => (x * x - b 0%nat * b 0%nat) * (P 0%nat x * P 0%nat x)) = (fun x => P 0%nat x * P 2%nat x)).
  { extensionality x. unfold P. rewrite (monic_SS a b 0), monic_1, !Ha. simpl. ring. }
  rewrite E. apply ray_sym; lia.
Qed.
Lemma ray_two : forall k, (S (S k) < n)%nat -> L (fun x => (x * x - (b (S k) * b (S k) + b k * b k)) * (P (S k) x * P (S k) x)) = 0.
Proof.
  intros k Hk.
  assert (E : (fun x => (x * x - (b (S k) * b (S k) + b k * b k)) * (P (S k) x * P (S k) x)) =
    (fun x => 1 * (1 * (P (S (S k)) x * P (S (S k)) x) + 2 * (b k * b k) * (P k x * P (S (S k)) x)) +
              1 * ((b k * b k) * (b k * b k) * (P k x * P k x) + (- (b (S k) * b (S k) + b k * b k)) * (P (S k) x * P (S k) x)))).
  { extensionality x. unfold P. assert (Q := monic_SS a b k x). rewrite Ha in Q.
    assert (Q' : x * monic a b (S k) x = monic a b (S (S k)) x + b k * b k * monic a b k x) by (rewrite Q; ring).
    replace ((x * x - (b (S k) * b (S k) + b k * b k)) * (monic a b (S k) x * monic a b (S k) x))
      with ((x * monic a b (S k) x) * (x * monic a b (S k) x) - (b (S k) * b (S k) + b k * b k) * (monic a b (S k) x * monic a b (S k) x)) by ring.
    rewrite Q'. ring. }
  rewrite E. set (d := (2 * S (S k))%nat).
  rewrite (HL d); [|apply poly_lin; apply PP; unfold d; lia|apply poly_lin; apply PP; unfold d; lia].
  rewrite !(HL d) by (apply PP; unfold d; lia). rewrite (ray_sym k (S (S k))) by lia.
  unfold P. rewrite !(norms a b n L HL HO) by lia. cbn [bprod]. ring.
Qed.
End Ray.

(** ** the two rules *)
Lemma monic_sq : forall a b k, polynomial (2 * k) (fun x => monic a b k x * monic a b k x).
Proof. intros. apply (poly_weaken (k + k)); [lia|]. apply poly_mul; apply monic_poly. Qed.
Lemma laguerre_range : forall (ext : Linalg RA) n (al : Param RA) (r : GaussLaguerre RA), (1 <= n)%Z -> -1 < param_get al -> sorts ext ->
  exact_on ext (Z.to_nat n) (@laguerre_diag RA (param_get al)) (@laguerre_off_diag RA (param_get al)) ->
  laguerre_new ext n al = Ok r ->
  (forall xw, In xw (laguerre_pairs r) -> (param_get al + 1) / IZR n <= fst xw < 4 * IZR n - 2 + 2 * param_get al) /\
  (exists xw, In xw (laguerre_pairs r) /\ 2 * IZR n - 1 + param_get al <= fst xw) /\
  (exists xw, In xw (laguerre_pairs r) /\ fst xw <= param_get al + 1).
Proof.
  intros ext n pa r Hn Hal So Ex Hr. assert (HG := laguerre_new_inv ext n pa r Hr).
  assert (Int := proj1 (laguerre_interior ext n pa r Hn Hal So Ex Hr)).
  set (al := param_get pa : R) in *. change (-1 < al) in Hal. destruct (laguerre_coeffs al Hal) as (Ca & Cb & Cz).
  set (m := Z.to_nat n) in *. assert (Em : IZR n = INR m) by (unfold m; rewrite <- IZR_INR, Z2Nat.id by lia; reflexivity).
  assert (Hm : (1 <= m)%nat) by (unfold m; lia). rewrite Em.
  assert (Rt := gwx_roots ext m _ _ _ (laguerre_pairs r) Hm (fun i _ => Cz i) So Ex HG).
  rewrite List.Forall_forall in Int, Rt.
  split.
  - intros xw I. destruct (Int xw I) as [P0 _]. destruct (Rt xw I) as [Z0 _]. assert (M1 : 0 < INR m) by (apply lt_0_INR; lia). split.
    + apply Rnot_lt_le. intros Lt. apply (laguerre_low_neq _ _ m al (fst xw) Hal Ca Cb) in Z0; [exact Z0|apply Rlt_le; exact P0|].
      revert Lt. generalize (fst xw : R). intros y Lt.
      apply (Rmult_lt_compat_l (INR m)) in Lt; [|exact M1]. replace (INR m * ((al + 1) / INR m)) with (al + 1) in Lt by (field; lra). exact Lt.
    + apply Rnot_le_lt. intros Ge. exact (laguerre_up_neq _ _ m al (fst xw) Hal Ca Cb Ge Z0).
  - assert (Ps : List.Forall (fun xw : R * R => 0 < snd xw) (laguerre_pairs r)) by (apply List.Forall_forall; intros xw I; apply (Int xw I)).
    set (s := @gamma RA (al + 1)) in *. assert (Sp : 0 < s) by (apply gamma_pos; lra).
    set (M := laguerre_L al (fun _ => 1)). assert (Mp : 0 < M) by (apply laguerre_one_pos, Hal).
    set (c := s / M). set (L := fun f => c * laguerre_L al f).
    assert (HL : linear_on_polynomials L) by (apply scaled_linear, laguerre_linear, Hal).
    assert (H1 : L (fun _ => 1) = s) by (unfold L, c; change (laguerre_L al (fun _ => 1)) with M; field; lra).
    assert (HO : orthogonal_up_to m L (monic (@laguerre_diag RA al) (@laguerre_off_diag RA al))).
    { intros i k Hik _. unfold L. rewrite laguerre_orth; [ring|exact Hal|exact Ca|exact Cb|lia]. }
    assert (G := gwx_gauss ext m _ _ _ Hm (fun i _ => Cz i) So Ex (laguerre_pairs r) L HG HL H1 HO).
    assert (Zk : forall k, (k < m)%nat -> apply_rule (laguerre_pairs r) (fun x => (x - @laguerre_diag RA al k) * (monic (@laguerre_diag RA al) (@laguerre_off_diag RA al) k x * monic (@laguerre_diag RA al) (@laguerre_off_diag RA al) k x)) = 0).
    { intros k Hk. rewrite G; [apply (ray_one _ _ m L HL HO k Hk)|].
      apply (poly_weaken (1 + 2 * k)); [lia|]. apply poly_mul; [|apply monic_sq].
      apply (poly_ext _ (fun x => 1 * x + (- @laguerre_diag RA al k) * 1)); [intros; ring|]. apply poly_lin; [apply poly_id|apply poly_const]. }
    assert (Nk : forall k, (k < m)%nat -> 0 < apply_rule (laguerre_pairs r) (fun x => monic (@laguerre_diag RA al) (@laguerre_off_diag RA al) k x * monic (@laguerre_diag RA al) (@laguerre_off_diag RA al) k x)).
    { intros k Hk. rewrite G by (apply (poly_weaken (2 * k)); [lia|apply monic_sq]).
      rewrite (norms _ _ m L HL HO k Hk), H1. apply Rmult_lt_0_compat; [|exact Sp].
      assert (B := bprod_neq (@laguerre_off_diag RA al) k k (fun i _ => Cz i) (le_n _)). nra. }
    split.
    + destruct (some_ge _ (fun x => x) _ _ Ps (Zk (m - 1)%nat ltac:(lia)) (Nk (m - 1)%nat ltac:(lia))) as (xw & I & B).
      exists xw. split; [exact I|]. rewrite Ca in B. rewrite minus_INR in B by lia. simpl (INR 1) in B.
      refine (Rle_trans _ _ _ _ B). lra.
    + destruct (some_le _ (fun x => x) _ _ Ps (Zk 0%nat ltac:(lia)) (Nk 0%nat ltac:(lia))) as (xw & I & B).
      exists xw. split; [exact I|]. rewrite Ca in B. refine (Rle_trans _ _ _ B _). simpl INR. lra.
Qed.

Lemma hermite_range : forall (ext : Linalg RA) n (r : GaussHermite RA), (2 <= n)%Z -> sorts ext ->
  exact_on ext (Z.to_nat n) (@hermite_diag RA) (@hermite_off_diag RA) -> hermite_new ext n = Ok r ->
  (forall xw, In xw (hermite_pairs r) -> Rabs (fst xw) < sqrt (2 * IZR n - 2)) /\
  (exists xw, In xw (hermite_pairs r) /\ sqrt (IZR n - 3 / 2) <= fst xw) /\
  (exists xw, In xw (hermite_pairs r) /\ fst xw <= - sqrt (IZR n - 3 / 2)).
Proof.
  intros ext n r Hn So Ex Hr. assert (HG := hermite_new_inv ext n r Hr).
  destruct (hermite_interior ext n r ltac:(lia) So Ex Hr) as (Sy & _ & Ps).
  destruct hermite_coeffs as (Ca & Cb & Cz).
  set (m := Z.to_nat n) in *. assert (Em : IZR n = INR m) by (unfold m; rewrite <- IZR_INR, Z2Nat.id by lia; reflexivity).
  assert (Hm : (2 <= m)%nat) by (unfold m; lia). rewrite Em. assert (M2 : 2 <= INR m) by (apply (le_INR 2); exact Hm).
  assert (Rt := gwx_roots ext m _ _ _ (hermite_pairs r) ltac:(lia) (fun i _ => Cz i) So Ex HG).
  rewrite List.Forall_forall in Rt.
  assert (Mir : forall xw, In xw (hermite_pairs r) -> exists yw, In yw (hermite_pairs r) /\ fst yw = - fst xw).
  { intros xw I. exists (- fst xw, snd xw). split; [|reflexivity]. apply (proj2 (@in_rev (R * R) (hermite_pairs r) (- fst xw, snd xw))).
    assert (J := in_map (fun xw : R * R => (- fst xw, snd xw)) _ xw I). unfold symmetric_rule in Sy. rewrite Sy in J. exact J. }
  split.
  - assert (Up : forall xw, In xw (hermite_pairs r) -> fst xw < sqrt (2 * INR m - 2)).
    { intros xw I. destruct (Rt xw I) as [Z0 _]. apply Rnot_le_lt. intros Ge.
      exact (hermite_up_neq _ _ m (fst xw) Ca Cb Hm Ge Z0). }
    intros xw I. destruct (Mir xw I) as (yw & J & E). assert (U1 := Up xw I). assert (U2 := Up yw J). revert U1 U2 E. generalize (fst xw : R) (fst yw : R). intros u v U1 U2 E.
    subst v. apply Rabs_def1; lra.
  - assert (HL := hermite_linear). assert (S1 : 0 < sqrt PI) by (apply sqrt_lt_R0, PI_RGT_0).
    assert (HO : orthogonal_up_to m hermite_L (monic (@hermite_diag RA) (@hermite_off_diag RA))).
    { intros i k Hik _. apply hermite_orth; [exact Ca|exact Cb|lia]. }
    assert (G := gwx_gauss ext m _ _ _ ltac:(lia) (fun i _ => Cz i) So Ex (hermite_pairs r) hermite_L HG HL hermite_one HO).
    assert (Nk : forall k, (k < m)%nat -> 0 < apply_rule (hermite_pairs r) (fun x => monic (@hermite_diag RA) (@hermite_off_diag RA) k x * monic (@hermite_diag RA) (@hermite_off_diag RA) k x)).
    { intros k Hk. rewrite G by (apply (poly_weaken (2 * k)); [lia|apply monic_sq]).
      rewrite (norms _ _ m _ HL HO k Hk), hermite_one. apply Rmult_lt_0_compat; [|exact S1].
      assert (B := bprod_neq (@hermite_off_diag RA) k k (fun i _ => Cz i) (le_n _)). nra. }
    assert (Pc : forall c k, (S (S k) <= m)%nat -> polynomial (2 * m - 1) (fun x => (x * x - c) * (monic (@hermite_diag RA) (@hermite_off_diag RA) k x * monic (@hermite_diag RA) (@hermite_off_diag RA) k x))).
    { intros c k Hk. apply (poly_weaken (2 + 2 * k)); [lia|]. apply poly_mul; [|apply monic_sq].
      apply (poly_ext _ (fun x => 1 * (x * x) + (- c) * 1)); [intros; ring|].
      apply poly_lin; [apply (poly_mul 1 1); apply poly_id|apply poly_const]. }
    assert (Ex2 : exists xw, In xw (hermite_pairs r) /\ INR m - 3 / 2 <= fst xw * fst xw).
    { destruct m as [|[|[|k]]] eqn:Ek; [lia|lia| |].
      - assert (Z0 := ray_two0 _ _ 2 _ HO Ca ltac:(lia)). rewrite <- G in Z0 by (apply Pc; lia).
        destruct (some_ge _ (fun x => x * x) _ _ Ps Z0 (Nk 0%nat ltac:(lia))) as (xw & I & B). exists xw. split; [exact I|].
        rewrite Cb in B. refine (Rle_trans _ _ _ _ B). simpl INR. lra.
      - assert (Z0 := ray_two _ _ (S (S (S k))) _ HL HO Ca k ltac:(lia)). rewrite <- G in Z0 by (apply Pc; lia).
        destruct (some_ge _ (fun x => x * x) _ _ Ps Z0 (Nk (S k) ltac:(lia))) as (xw & I & B). exists xw. split; [exact I|].
        rewrite !Cb in B. refine (Rle_trans _ _ _ _ B). rewrite !S_INR. lra. }
    destruct Ex2 as (xw & I & B). destruct (Mir xw I) as (yw & J & E). set (h := sqrt (INR m - 3 / 2)).
    assert (h0 : 0 <= h) by apply sqrt_pos. assert (hh : h * h = INR m - 3 / 2) by (apply sqrt_sqrt; lra).
    assert (B' : h <= fst xw /\ fst yw <= - h \/ h <= fst yw /\ fst xw <= - h).
    { revert B E. generalize (fst xw : R) (fst yw : R). intros u v B E. subst v.
      destruct (Rle_lt_dec h u) as [|N1]; [left; lra|right]. assert (h <= - u); [|lra]. apply Rnot_lt_le. intros N2. nra. }
    destruct B' as [[B1 B2]|[B1 B2]]; split; [exists xw|exists yw|exists yw|exists xw]; (split; assumption).
Qed.

(** What the integrand does outside these ranges is never seen. *)
Lemma hermite_blind : forall (ext : Linalg RA) n (r : GaussHermite RA), (2 <= n)%Z -> sorts ext ->
  exact_on ext (Z.to_nat n) (@hermite_diag RA) (@hermite_off_diag RA) -> hermite_new ext n = Ok r ->
  forall f g : R -> R, (forall x, Rabs x < sqrt (2 * IZR n - 2) -> f x = g x) -> hermite_value r f = hermite_value r g.
Proof.
  intros ext n r Hn So Ex Hr f g H. destruct (hermite_range ext n r Hn So Ex Hr) as (U & _).
  unfold hermite_value. rewrite !hermite_R. unfold gauss_plain. f_equal. apply map_ext_in. intros xw I.
  rewrite (H (fst xw) (U xw I)). reflexivity.
Qed.
Lemma laguerre_blind : forall (ext : Linalg RA) n (al : Param RA) (r : GaussLaguerre RA), (1 <= n)%Z -> -1 < param_get al -> sorts ext ->
  exact_on ext (Z.to_nat n) (@laguerre_diag RA (param_get al)) (@laguerre_off_diag RA (param_get al)) ->
  laguerre_new ext n al = Ok r ->
  forall f g : R -> R, (forall x, (param_get al + 1) / IZR n <= x < 4 * IZR n - 2 + 2 * param_get al -> f x = g x) -> laguerre_value r f = laguerre_value r g.
Proof.
  intros ext n al r Hn Hal So Ex Hr f g H. destruct (laguerre_range ext n al r Hn Hal So Ex Hr) as (U & _).
  unfold laguerre_value. rewrite !laguerre_R. unfold gauss_plain. f_equal. apply map_ext_in. intros xw I.
  rewrite (H (fst xw) (U xw I)). reflexivity.
Qed.
