(** Gauss-Legendre rules of more than 100 points: any integrand. *)
From Coq Require Import Reals ZArith List Lia Lra Bool Permutation.
From Coquelicot Require Import Coquelicot.
From Verif Require Import Arith RInst Machine Rules Par LegendreData Legendre SizeProof RInstProof LegSym GammaProof LegAsym LegBig LegShape LegInt
  RSum PolySpec PolyProof RuleSpec EigenProof GaussProof GaussErr TransferProof ErrorSpec ErrConv OrthoProof ChebRule.
Import ListNotations.
Local Open Scope R_scope.

Lemma big_weight : forall t n i, (100 <= usize_max t)%Z -> (100 < n)%nat -> (2 * Z.of_nat n <= usize_max t)%Z -> (i < n)%nat ->
  let w := / (INR n + / 2) in
  Rabs (snd (@tw RA t (Z.of_nat n) i) - PI * w * sin (fst (@tw RA t (Z.of_nat n) i))) <=
  PI * w * (1 / 40 * (/ (INR (S i) * INR (S i))) + 1 / 40 * (/ (INR (n - i) * INR (n - i))) + (6 / 10 ^ 16 + 2 * (w * w))).
Proof.
  intros t n i Hu Hn H2n Hi w.
  assert (N : 101 <= INR n) by (rewrite INR_IZR_INZ; apply IZR_le; lia).
  assert (W0 : 0 < w) by (apply Rinv_0_lt_compat; lra). assert (PI0 := PI_RGT_0).
  assert (PW : 0 < PI * w) by (apply Rmult_lt_0_compat; lra).
  assert (Ip : forall j, (j < n)%nat -> 0 < / (INR (S j) * INR (S j))).
  { intros j _. apply Rinv_0_lt_compat. assert (0 < INR (S j)) by (apply lt_0_INR; lia). nra. }
  assert (C : forall j, (2 * j + 1 <= n)%nat -> (j < n)%nat ->
    Rabs (snd (@tw RA t (Z.of_nat n) j) - PI * w * sin (fst (@tw RA t (Z.of_nat n) j))) <= PI * w * (1 / 40 * (/ (INR (S j) * INR (S j))) + (6 / 10 ^ 16 + 2 * (w * w)))).
  { intros j Hj Hj'. unfold tw, theta_weight_pair. destruct (Z.leb_spec (Z.of_nat n) 100); [lia|].
    rewrite usize_mul_ok by lia. cbn [bind]. rewrite usize_sub_ok by lia. cbn [bind].
    destruct (Z.ltb_spec (Z.of_nat n) (2 * (1 + Z.of_nat j) - 1)); [lia|].
    destruct (compute_ok (A := RA) t (Z.of_nat n) (1 + Z.of_nat j) Hu ltac:(lia)) as [p E]. rewrite E. unfold compute_pair in E.
    destruct (@bessel_j0_zero RA t (1 + Z.of_nat j)) as [nu|] eqn:E1; [|discriminate]. cbn [bind] in E.
    destruct (@bessel_j1_squared RA t (1 + Z.of_nat j)) as [b|] eqn:E2; [|discriminate]. cbn [bind] in E. injection E as <-.
    assert (B := bessel_product t (1 + Z.of_nat j) nu b Hu ltac:(lia) E1 E2).
    apply j0_zero_close in E1; [|lia|lia]. apply j1_squared_pos in E2; [|lia|lia].
    assert (X := expansion_weight (Z.of_nat n) (1 + Z.of_nat j) nu b ltac:(lia) ltac:(lia) ltac:(lia) E1 E2 B).
    replace (IZR (1 + Z.of_nat j)) with (INR (S j)) in X by (rewrite INR_IZR_INZ; f_equal; lia).
    rewrite <- (INR_IZR_INZ n) in X.
    replace (PI / (INR n + / 2)) with (PI * w) in X by reflexivity.
    replace (2 / ((INR n + / 2) * (INR n + / 2))) with (2 * (w * w)) in X by (unfold w; field; lra).
    assert (J : 0 < INR (S j)) by (apply lt_0_INR; lia).
    replace (1 / (40 * (INR (S j) * INR (S j)))) with (1 / 40 * / (INR (S j) * INR (S j))) in X by (field; lra).
    eapply Rle_trans; [exact X|]. apply Rmult_le_compat_l; [lra|]. lra. }
  destruct (Nat.leb_spec (2 * i + 1) n) as [H|H].
  - eapply Rle_trans; [apply C; assumption|]. apply Rmult_le_compat_l; [lra|]. assert (P := Ip (n - S i)%nat ltac:(lia)). replace (S (n - S i)) with (n - i)%nat in P by lia. lra.
  - set (j := (n - 1 - i)%nat). assert (Hj : (2 * j + 1 < n)%nat) by (unfold j; lia).
    pose proof (tw_sym (A := RA) t (Z.of_nat n) j Hu ltac:(lia) H2n ltac:(lia)) as T. rewrite Nat2Z.id in T. replace (n - 1 - j)%nat with i in T by (unfold j; lia).
    rewrite T. cbn [fst snd]. change (@nsub RA (@npi RA)) with (Rminus PI). rewrite sin_PI_x.
    eapply Rle_trans; [apply (C j); lia|]. apply Rmult_le_compat_l; [lra|]. assert (P := Ip i Hi). replace (S j) with (n - i)%nat by (unfold j; lia). lra.
Qed.
Lemma squares_sum : forall n, rsum n (fun i => / (INR (S i) * INR (S i))) <= 2.
Proof.
  intros n. destruct n; [simpl; lra|]. enough (G : rsum (S n) (fun i => / (INR (S i) * INR (S i))) <= 2 - / INR (S n)).
  { assert (0 < / INR (S n)) by (apply Rinv_0_lt_compat, lt_0_INR; lia). lra. }
  induction n; [simpl; lra|]. change (rsum (S (S n)) ?f) with (rsum (S n) f + f (S n)). cbv beta.
  set (a := INR (S n)) in *. assert (A : 0 < a) by (apply lt_0_INR; lia). rewrite (S_INR (S n)). fold a.
  assert (/ ((a + 1) * (a + 1)) <= / a - / (a + 1)).
  { replace (/ a - / (a + 1)) with (/ (a * (a + 1))) by (field; lra). apply Rinv_le_contravar; nra. }
  lra.
Qed.

(** integrals over consecutive cells *)
Lemma cells : forall (g : R -> R) (y : nat -> R) (c : nat -> R) om n, (forall i, (i < n)%nat -> c (S i) <= c i) -> ex_RInt g (c n) (c O) ->
  (forall i x, (i < n)%nat -> c (S i) <= x <= c i -> Rabs (g x - y i) <= om) ->
  Rabs (RInt g (c n) (c O) - rsum n (fun i => y i * (c i - c (S i)))) <= om * (c O - c n).
Proof.
  intros g y c om. induction n; intros Hc Hex Hy.
  - rewrite RInt_point. simpl. change (@zero _) with 0. rewrite Rminus_0_r, Rabs_R0. lra.
  - assert (M : forall k, (k <= n)%nat -> c n <= c k).
    { intros k Hk. replace k with (n - (n - k))%nat by lia. generalize (n - k)%nat as d. induction d; [rewrite Nat.sub_0_r; lra|].
      destruct (le_lt_dec n d); [replace (n - S d)%nat with (n - d)%nat by lia; exact IHd|].
      eapply Rle_trans; [exact IHd|]. replace (n - d)%nat with (S (n - S d)) by lia. apply Hc. lia. }
    assert (c n <= c O) by (apply M; lia). assert (c (S n) <= c n) by (apply Hc; lia).
    assert (E1 : ex_RInt g (c n) (c O)) by (apply (ex_RInt_Chasles_2 (V := R_CompleteNormedModule) g (c (S n))); [lra|exact Hex]).
    assert (E2 : ex_RInt g (c (S n)) (c n)) by (apply (ex_RInt_Chasles_1 (V := R_CompleteNormedModule) g (c (S n)) (c n) (c O)); [lra|exact Hex]).
    rewrite <- (RInt_Chasles (V := R_CompleteNormedModule) g (c (S n)) (c n) (c O) E2 E1).
    assert (IH := IHn (fun i Hi => Hc i ltac:(lia)) E1 (fun i x Hi => Hy i x ltac:(lia))).
    assert (L : Rabs (RInt g (c (S n)) (c n) - y n * (c n - c (S n))) <= om * (c n - c (S n))).
    { replace (y n * (c n - c (S n))) with (RInt (fun _ => y n) (c (S n)) (c n)) by (rewrite RInt_const; unfold scal; simpl; unfold mult; simpl; ring).
      rewrite <- (RInt_minus (V := R_CompleteNormedModule) g (fun _ => y n)) by (first [exact E2|apply ex_RInt_const]).
      rewrite (Rmult_comm om). apply (norm_RInt_le_const (V := R_CompleteNormedModule) (fun x => minus (g x) (y n)) (c (S n)) (c n)).
      - lra.
      - intros x Hx. apply (Hy n x); [lia|exact Hx].
      - apply (RInt_correct (V := R_CompleteNormedModule)). apply (ex_RInt_minus (V := R_NormedModule)); [exact E2|apply ex_RInt_const]. }
    change (rsum (S n) ?f) with (rsum n f + f n). cbv beta. unfold plus; simpl.
    match goal with |- Rabs (?p + ?q - (?s + ?u)) <= _ => replace (p + q - (s + u)) with ((q - s) + (p - u)) by ring end.
    eapply Rle_trans; [apply Rabs_triang|]. lra.
Qed.

Lemma angle_cell : forall N i th x, 101 <= N -> 0 <= i -> i <= N - 1 -> Rabs (th - PI * (i + 3 / 4) / (N + / 2)) <= 52 / 1000 / (N + / 2) ->
  i * (PI / N) <= x <= (i + 1) * (PI / N) -> Rabs (x - th) <= 32 / 10 / N.
Proof.
  intros N i th x HN Hi Hi' Ht [H1 H2]. assert (PL := PI_RGT_0). assert (PU := PI_up).
  set (m := PI * (i + 3 / 4) / (N + / 2)) in *. set (p := PI / N) in *.
  assert (P0 : 0 < p) by (apply Rdiv_lt_0_compat; lra).
  assert (E : m = p * (N * ((i + 3 / 4) / (N + / 2)))) by (unfold m, p; field; lra).
  assert (L : i <= N * ((i + 3 / 4) / (N + / 2))).
  { apply Rmult_le_reg_r with (N + / 2); [lra|]. replace (N * ((i + 3 / 4) / (N + / 2)) * (N + / 2)) with (N * (i + 3 / 4)) by (field; lra). nra. }
  assert (U : N * ((i + 3 / 4) / (N + / 2)) <= i + 1).
  { apply Rmult_le_reg_r with (N + / 2); [lra|]. replace (N * ((i + 3 / 4) / (N + / 2)) * (N + / 2)) with (N * (i + 3 / 4)) by (field; lra). nra. }
  assert (D : 52 / 1000 / (N + / 2) <= 52 / 1000 / N) by (apply Rmult_le_compat_l; [lra|apply Rinv_le_contravar; lra]).
  assert (Q : p <= 3142 / 1000 / N) by (apply Rmult_le_compat_r; [left; apply Rinv_0_lt_compat; lra|lra]).
  assert (F : 3142 / 1000 / N + 52 / 1000 / N <= 32 / 10 / N).
  { replace (3142 / 1000 / N + 52 / 1000 / N) with (3194 / 1000 / N) by (field; lra). apply Rmult_le_compat_r; [left; apply Rinv_0_lt_compat|]; lra. }
  assert (X : Rabs (x - m) <= p) by (apply Rabs_le; rewrite E; split; nra).
  replace (x - th) with ((x - m) - (th - m)) by ring. eapply Rle_trans; [apply Rabs_triang|]. rewrite Rabs_Ropp. lra.
Qed.

Lemma cell_width : forall N i th, 101 <= N -> 0 <= i -> i <= N - 1 -> Rabs (th - PI * (i + 3 / 4) / (N + / 2)) <= 52 / 1000 / (N + / 2) ->
  Rabs (PI * / (N + / 2) * sin th - (cos (i * (PI / N)) - cos ((i + 1) * (PI / N)))) <= 12 / (N * N).
Proof.
  intros N i th HN Hi Hi' Ht. assert (PL := PI_RGT_0). assert (PU := PI_up). set (p := PI / N) in *.
  assert (P0 : 0 < p) by (apply Rdiv_lt_0_compat; lra).
  destruct (MVT_gen cos (i * p) ((i + 1) * p) (fun x => - sin x)) as (c & Hc & E).
  - intros x _. apply is_derive_cos.
  - intros x _. apply continuity_cos.
  - rewrite Rmin_left, Rmax_right in Hc by nra.
    replace (cos (i * p) - cos ((i + 1) * p)) with (p * sin c) by lra.
    assert (A := angle_cell N i th c HN Hi Hi' Ht Hc).
    assert (S := sin_lipschitz c th). assert (B := SIN_bound th).
    replace (PI * / (N + / 2) * sin th - p * sin c) with (- (p * (sin c - sin th)) - (p - PI * / (N + / 2)) * sin th) by ring.
    assert (W : 0 <= p - PI * / (N + / 2) <= 16 / 10 / (N * N)).
    { replace (p - PI * / (N + / 2)) with (PI / 2 * / (N * (N + / 2))) by (unfold p; field; lra). split.
      - apply Rmult_le_pos; [lra|]. left. apply Rinv_0_lt_compat. nra.
      - apply Rmult_le_compat; [lra|left; apply Rinv_0_lt_compat; nra|lra|apply Rinv_le_contravar; nra]. }
    assert (Q : Rabs (p * (sin c - sin th)) <= 1006 / 100 / (N * N)).
    { rewrite Rabs_mult, (Rabs_right p) by lra. apply Rle_trans with (3142 / 1000 / N * (32 / 10 / N)).
      - apply Rmult_le_compat; [lra|apply Rabs_pos|apply Rmult_le_compat_r; [left; apply Rinv_0_lt_compat; lra|lra]|lra].
      - replace (3142 / 1000 / N * (32 / 10 / N)) with (100544 / 10000 * / (N * N)) by (field; lra). apply Rmult_le_compat_r; [left; apply Rinv_0_lt_compat; nra|lra]. }
    assert (T : Rabs ((p - PI * / (N + / 2)) * sin th) <= 16 / 10 / (N * N)).
    { rewrite Rabs_mult, Rabs_right by lra. assert (Rabs (sin th) <= 1) by (apply Rabs_le; lra). assert (0 <= Rabs (sin th)) by apply Rabs_pos. nra. }
    eapply Rle_trans; [apply Rabs_triang|]. rewrite !Rabs_Ropp.
    replace (12 / (N * N)) with (1006 / 100 / (N * N) + 194 / 100 / (N * N)) by (field; lra).
    assert (16 / 10 / (N * N) <= 194 / 100 / (N * N)) by (apply Rmult_le_compat_r; [left; apply Rinv_0_lt_compat; nra|lra]). lra.
Qed.

(** the rule on [-1,1] *)
Lemma big_unit : forall t n r, (100 <= usize_max t)%Z -> (100 < n)%nat -> (2 * Z.of_nat n <= usize_max t)%Z -> @legendre_new RA t (Z.of_nat n) = Ok r ->
  forall g B om, ex_RInt g (-1) 1 -> (forall x, -1 <= x <= 1 -> Rabs (g x) <= B) ->
  (forall x y, -1 <= x <= 1 -> -1 <= y <= 1 -> Rabs (x - y) <= 32 / 10 / INR n -> Rabs (g x - g y) <= om) ->
  Rabs (apply_rule (legendre_pairs r) g - RInt g (-1) 1) <= 2 * om + (13 / INR n + 2 / 10 ^ 15) * B.
Proof.
  intros t n r Hu Hn H2n E g B om Hex HB Ho.
  rewrite (legendre_list (A := RA) t (Z.of_nat n) r Hu ltac:(lia) H2n E), apply_rule_rev_seq, Nat2Z.id.
  assert (N : 101 <= INR n) by (rewrite INR_IZR_INZ; apply IZR_le; lia).
  assert (PL := PI_RGT_0). assert (PU := PI_up).
  set (th := fun i => fst (@tw RA t (Z.of_nat n) i)). set (wt := fun i => snd (@tw RA t (Z.of_nat n) i)).
  set (c := fun i => cos (INR i * (PI / INR n))).
  assert (P0 : 0 < PI / INR n) by (apply Rdiv_lt_0_compat; lra).
  assert (C0 : c O = 1) by (unfold c; simpl; rewrite Rmult_0_l; apply cos_0).
  assert (Cn : c n = -1) by (unfold c; replace (INR n * (PI / INR n)) with PI by (field; lra); apply cos_PI).
  assert (Hi : forall i, (i < n)%nat -> 0 <= INR i <= INR n - 1).
  { intros i Hi. split; [apply pos_INR|]. replace (INR n - 1) with (INR (n - 1)) by (rewrite minus_INR by lia; simpl; lra). apply le_INR. lia. }
  assert (Tc : forall i, (i < n)%nat -> Rabs (th i - PI * (INR i + 3 / 4) / (INR n + / 2)) <= 52 / 1000 / (INR n + / 2)).
  { intros i H. destruct (tw_close t (Z.of_nat n) i Hu ltac:(lia) H2n ltac:(lia)) as [A _]. rewrite <- INR_IZR_INZ in A. exact A. }
  assert (B0 : 0 <= B) by (eapply Rle_trans; [apply Rabs_pos|apply (HB 0); lra]).
  assert (V : Rabs (RInt g (-1) 1 - rsum n (fun i => g (cos (th i)) * (c i - c (S i)))) <= 2 * om).
  { rewrite <- C0, <- Cn. replace (2 * om) with (om * (c O - c n)) by (rewrite C0, Cn; ring). apply cells.
    - intros i H. unfold c. destruct (Hi i H). rewrite S_INR. apply cos_decr_1; try nra.
      + apply Rle_trans with ((INR n - 1) * (PI / INR n)); [nra|]. replace ((INR n - 1) * (PI / INR n)) with (PI - PI / INR n) by (field; lra). lra.
      + replace PI with (INR n * (PI / INR n)) at 2 by (field; lra). nra.
    - rewrite C0, Cn. exact Hex.
    - intros i x H Hx. apply Ho.
      + destruct (COS_bound (INR (S i) * (PI / INR n))). destruct (COS_bound (INR i * (PI / INR n))). unfold c in Hx. lra.
      + apply COS_bound.
      + destruct (Hi i H) as [I0 I1]. assert (X : -1 <= x <= 1).
        { destruct (COS_bound (INR (S i) * (PI / INR n))). destruct (COS_bound (INR i * (PI / INR n))). unfold c in Hx. lra. }
        rewrite <- (cos_acos x) at 1 by lra. eapply Rle_trans; [apply cos_lipschitz|].
        apply (angle_cell (INR n) (INR i)); try lra; [apply Tc, H|].
        assert (AB := acos_bound x).
        assert (Z1 : INR i * (PI / INR n) <= PI) by (replace PI with (INR n * (PI / INR n)) at 2 by (field; lra); nra).
        assert (Z2 : (INR i + 1) * (PI / INR n) <= PI) by (replace PI with (INR n * (PI / INR n)) at 2 by (field; lra); nra).
        unfold c in Hx. rewrite S_INR in Hx. split.
        * apply cos_decr_0; try lra; [nra|]. rewrite cos_acos by lra. lra.
        * apply cos_decr_0; try lra; [nra|]. rewrite cos_acos by lra. lra. }
  assert (S2 : rsum n (fun i => Rabs (wt i - (c i - c (S i)))) <= 13 / INR n + 2 / 10 ^ 15).
  { set (w := / (INR n + / 2)). assert (W0 : 0 < w) by (apply Rinv_0_lt_compat; lra).
    assert (Wn : INR n * w <= 1) by (unfold w; apply Rmult_le_reg_r with (INR n + / 2); [lra|]; rewrite Rmult_assoc, Rinv_l by lra; lra).
    assert (Wv : w <= / INR n) by (apply Rinv_le_contravar; lra).
    apply Rle_trans with (rsum n (fun i => PI * w * (1 / 40 * (/ (INR (S i) * INR (S i))) + 1 / 40 * (/ (INR (n - i) * INR (n - i))) + (6 / 10 ^ 16 + 2 * (w * w))) + 12 / (INR n * INR n))).
    - apply rsum_le. intros i H. assert (A1 := big_weight t n i Hu Hn H2n H). cbv zeta in A1. fold w in A1. fold (th i) in A1. fold (wt i) in A1.
      destruct (Hi i H) as [I0 I1]. assert (A2 := cell_width (INR n) (INR i) (th i) N I0 I1 (Tc i H)). fold w in A2. unfold c. rewrite S_INR.
      match goal with |- Rabs ?x <= _ => replace x with ((wt i - PI * w * sin (th i)) + (PI * w * sin (th i) - (cos (INR i * (PI / INR n)) - cos ((INR i + 1) * (PI / INR n))))) by ring end.
      eapply Rle_trans; [apply Rabs_triang|]. rewrite S_INR in A1. lra.
    - rewrite rsum_plus, rsum_scal, rsum_const, !rsum_plus, !rsum_scal, !rsum_const.
      assert (Q1 := squares_sum n). assert (Q2 : rsum n (fun i => / (INR (n - i) * INR (n - i))) <= 2).
      { rewrite rsum_rev. rewrite (rsum_ext n _ (fun i => / (INR (S i) * INR (S i)))); [exact Q1|]. intros i H. replace (n - (n - 1 - i))%nat with (S i) by lia. reflexivity. }
      set (s1 := rsum n (fun i => / (INR (S i) * INR (S i)))) in *. set (s2 := rsum n (fun i => / (INR (n - i) * INR (n - i)))) in *.
      replace (INR n * (12 / (INR n * INR n))) with (12 * / INR n) by (field; lra). set (v := / INR n) in *.
      assert (V0 : 0 < v) by (unfold v; apply Rinv_0_lt_compat; lra).
      assert (V1 : v <= 1 / 101) by (unfold v; apply Rle_trans with (/ 101); [apply Rinv_le_contravar; lra|lra]).
      apply Rle_trans with (PI * w * (1 / 10) + PI * (INR n * w) * (6 / 10 ^ 16) + PI * (INR n * w) * (2 * (w * w)) + 12 * v).
      + assert (PW : 0 < PI * w) by (apply Rmult_lt_0_compat; lra).
        assert (PQ : PI * w * (1 / 40 * s1 + 1 / 40 * s2) <= PI * w * (1 / 10)) by (apply Rmult_le_compat_l; lra).
        replace (PI * w * (1 / 40 * s1 + 1 / 40 * s2 + (INR n * (6 / 10 ^ 16) + 2 * (w * (INR n * w))))) with (PI * w * (1 / 40 * s1 + 1 / 40 * s2) + PI * (INR n * w) * (6 / 10 ^ 16) + PI * (INR n * w) * (2 * (w * w))) by ring. lra.
      + assert (T1 : PI * w * (1 / 10) <= 315 / 1000 * v) by nra.
        assert (T2 : PI * (INR n * w) * (6 / 10 ^ 16) <= 2 / 10 ^ 15).
        { apply Rle_trans with (3142 / 1000 * 1 * (6 / 10 ^ 16)); [|lra]. apply Rmult_le_compat_r; [lra|]. apply Rmult_le_compat; try lra. apply Rmult_le_pos; lra. }
        assert (T3 : PI * (INR n * w) * (2 * (w * w)) <= 7 / 100 * v).
        { apply Rle_trans with (3142 / 1000 * 1 * (2 * (v * v))); [|nra]. assert (0 <= INR n * w) by (apply Rmult_le_pos; lra). apply Rmult_le_compat; [apply Rmult_le_pos; lra|nra|apply Rmult_le_compat; lra|nra]. }
        unfold Rdiv in *. fold v. lra. }
  assert (T : Rabs (rsum n (fun i => g (cos (th i)) * wt i) - rsum n (fun i => g (cos (th i)) * (c i - c (S i)))) <= (13 / INR n + 2 / 10 ^ 15) * B).
  { rewrite <- rsum_minus. eapply Rle_trans; [apply rsum_abs|]. apply Rle_trans with (rsum n (fun i => B * Rabs (wt i - (c i - c (S i))))).
    - apply rsum_le. intros i H. rewrite <- Rmult_minus_distr_l, Rabs_mult. apply Rmult_le_compat_r; [apply Rabs_pos|]. apply HB, COS_bound.
    - rewrite rsum_scal, Rmult_comm. apply Rmult_le_compat_r; assumption. }
  rewrite (rsum_ext n _ (fun i => g (cos (th i)) * wt i)) by (intros; reflexivity).
  match goal with |- Rabs (?p - ?q) <= _ => replace (p - q) with ((p - rsum n (fun i => g (cos (th i)) * (c i - c (S i)))) - (q - rsum n (fun i => g (cos (th i)) * (c i - c (S i))))) by ring end.
  eapply Rle_trans; [apply Rabs_triang|]. rewrite Rabs_Ropp. lra.
Qed.

Lemma big_value : forall t n r, (100 <= usize_max t)%Z -> (100 < n)%nat -> (2 * Z.of_nat n <= usize_max t)%Z -> @legendre_new RA t (Z.of_nat n) = Ok r ->
  forall a b f M omega, a <> b -> ex_RInt f a b -> (forall x, closed_between a b x -> Rabs (f x) <= M) ->
  oscillation a b f (8 / 5 * Rabs (b - a) / INR n) omega ->
  Rabs (legendre_value r a b f - RInt f a b) <= (omega + (7 / INR n + 1 / 10 ^ 15) * M) * Rabs (b - a).
Proof.
  intros t n r Hu Hn H2n E a b f M om Hab Hex HM Ho.
  assert (N : 101 <= INR n) by (rewrite INR_IZR_INZ; apply IZR_le; lia).
  unfold legendre_value. rewrite legendre_R, (gauss_pulled a b f). destruct (pull_int f a b Hab Hex) as [X1 X2]. rewrite X2.
  assert (P : 0 < Rabs (b - a)) by (apply Rabs_pos_lt; lra).
  assert (M0 : 0 <= M) by (eapply Rle_trans; [apply Rabs_pos|apply (HM _ (closed_pull a b 0 ltac:(lra)))]).
  assert (U := big_unit t n r Hu Hn H2n E (pulled a b f) M om X1 (fun x Hx => HM _ (closed_pull a b x Hx))).
  rewrite <- Rmult_minus_distr_l, Rabs_mult. replace (Rabs ((b - a) / 2)) with (/ 2 * Rabs (b - a)) by (unfold Rdiv; rewrite Rabs_mult, (Rabs_right (/ 2)); lra).
  eapply Rle_trans; [apply Rmult_le_compat_l; [lra|apply U]|].
  - intros x y Hx Hy L. apply (oscillation_pull a b f _ om Hab Ho); try assumption. eapply Rle_trans; [exact L|]. right. field. lra.
  - assert (V : 0 < / INR n) by (apply Rinv_0_lt_compat; lra). unfold Rdiv. set (v := / INR n) in *.
    replace (/ 2 * Rabs (b - a) * (2 * om + (13 * v + 2 * / 10 ^ 15) * M)) with ((om + (13 / 2 * v + / 10 ^ 15) * M) * Rabs (b - a)) by (field; lra).
    apply Rmult_le_compat_r; [lra|]. apply Rplus_le_compat_l. apply Rmult_le_compat_r; [lra|]. lra.
Qed.
Lemma continuous_on_int : forall a b f, continuous_on a b f -> ex_RInt f a b.
Proof.
  intros a b f H. apply (ex_RInt_ext (fun y => f (Rmax (Rmin a b) (Rmin (Rmax a b) y)))).
  - intros x Hx. f_equal. apply clamp_id. unfold closed_between. lra.
  - apply (ex_RInt_continuous (V := R_CompleteNormedModule)). intros x Hx. apply continuity_pt_filterlim. intros eps Heps.
    destruct (H x Hx eps Heps) as (d & Hd & Hf). exists d. split; [exact Hd|].
    intros y [_ Hy]. simpl in Hy |- *. unfold R_dist in *. rewrite (clamp_id a b x Hx).
    apply Hf; [apply clamp_between|]. eapply Rle_lt_trans; [apply clamp_dist, Hx|exact Hy].
Qed.
Lemma big_converges : forall a b f M, a <> b -> continuous_on a b f -> (forall x, closed_between a b x -> Rabs (f x) <= M) ->
  forall eps, 0 < eps -> exists N, forall t n r, (N <= n)%nat -> (100 <= usize_max t)%Z -> (2 * Z.of_nat n <= usize_max t)%Z -> @legendre_new RA t (Z.of_nat n) = Ok r ->
  Rabs (legendre_value r a b f - RInt f a b) <= eps + 1 / 10 ^ 15 * M * Rabs (b - a).
Proof.
  intros a b f M Hab Hc HM eps Heps. set (L := Rabs (b - a)). assert (P : 0 < L) by (apply Rabs_pos_lt; lra).
  assert (M0 : 0 <= M) by (eapply Rle_trans; [apply Rabs_pos|apply (HM _ (closed_pull a b 0 ltac:(lra)))]).
  destruct (uniform_continuity a b f Hc (eps / 2 / L) ltac:(apply Rdiv_lt_0_compat; lra)) as (de & Hde & Ho).
  assert (K : 0 <= 8 / 5 * L / de + 14 * M * L / eps + 101).
  { assert (0 <= 8 / 5 * L / de) by (apply Rmult_le_pos; [lra|left; apply Rinv_0_lt_compat; lra]).
    assert (0 <= 14 * M * L / eps) by (apply Rmult_le_pos; [nra|left; apply Rinv_0_lt_compat; lra]). lra. }
  destruct (nfloor_ex _ K) as [k Hk]. exists (S k). intros t n r Hn Hu H2n E.
  assert (N : 8 / 5 * L / de + 14 * M * L / eps + 101 < INR n) by (eapply Rlt_le_trans; [apply Hk|]; rewrite <- S_INR; apply le_INR; lia).
  assert (K1 : 0 <= 8 / 5 * L / de) by (apply Rmult_le_pos; [lra|left; apply Rinv_0_lt_compat; lra]).
  assert (K2 : 0 <= 14 * M * L / eps) by (apply Rmult_le_pos; [nra|left; apply Rinv_0_lt_compat; lra]).
  assert (Hn' : (100 < n)%nat). { apply INR_lt. replace (INR 100) with 100 by (rewrite INR_IZR_INZ; reflexivity). lra. }
  assert (Hex : ex_RInt f a b) by (apply continuous_on_int; assumption).
  assert (B := big_value t n r Hu Hn' H2n E a b f M (eps / 2 / L) Hab Hex HM). fold L in B.
  eapply Rle_trans; [apply B|].
  - intros x y Hx Hy D. apply Ho; try assumption. eapply Rle_trans; [exact D|]. apply Rmult_le_reg_r with (INR n / de); [apply Rdiv_lt_0_compat; lra|].
    replace (8 / 5 * L / INR n * (INR n / de)) with (8 / 5 * L / de) by (field; lra). replace (de * (INR n / de)) with (INR n) by (field; lra). lra.
  - assert (Q : 7 / INR n * M * L <= eps / 2).
    { apply Rmult_le_reg_r with (2 * INR n / eps); [apply Rdiv_lt_0_compat; lra|].
      replace (7 / INR n * M * L * (2 * INR n / eps)) with (14 * M * L / eps) by (field; lra). replace (eps / 2 * (2 * INR n / eps)) with (INR n) by (field; lra). lra. }
    replace ((eps / 2 / L + (7 / INR n + 1 / 10 ^ 15) * M) * L) with (eps / 2 + 7 / INR n * M * L + 1 / 10 ^ 15 * M * L) by (field; lra). lra.
Qed.
Lemma big_total : forall t n r, (100 <= usize_max t)%Z -> (100 < n)%nat -> (2 * Z.of_nat n <= usize_max t)%Z -> @legendre_new RA t (Z.of_nat n) = Ok r ->
  Rabs (lsum (map snd (legendre_pairs r)) - 2) <= 13 / INR n + 2 / 10 ^ 15.
Proof.
  intros t n r Hu Hn H2n E.
  assert (U := big_unit t n r Hu Hn H2n E (fun _ => 1) 1 0 ltac:(apply ex_RInt_const) ltac:(intros; cbv beta; rewrite Rabs_R1; lra) ltac:(intros; cbv beta; rewrite Rminus_eq_0, Rabs_R0; lra)).
  rewrite RInt_const in U. unfold scal in U; simpl in U; unfold mult in U; simpl in U. replace ((1 - -1) * 1) with 2 in U by ring.
  unfold apply_rule in U. rewrite (lsum_map_ext _ _ snd) in U by (intros; ring). simpl in *. lra.
Qed.
