(** From some degree on the outermost nodes computed in double arithmetic coincide. *)
From Coq Require Import Reals ZArith List Lra Lia Psatz.
From Flocq Require Import Core IEEE754.Binary.
From Verif Require Import Arith RInst F64 F64Spec F64Proof Machine Rules Par Legendre Chebyshev RInstProof RoundSpec RoundProof RoundNC RoundRules AccF64 GammaProof TrigSpec TrigEx SepSpec SizeProof
  LegSym LegAsym ChebFloat LegFloat SepFloat SepCheb SepLeg.
Import ListNotations.
Local Open Scope R_scope.

Lemma rnd_near_one : forall x, 1 - / 2 ^ 55 <= x < 1 -> rnd x = 1.
Proof.
  intros x Hx. assert (M : mag radix2 x = 0%Z :> Z). { apply mag_unique. rewrite Rabs_pos_eq by lra. change (bpow radix2 (0 - 1)) with (/ 2). change (bpow radix2 0) with 1. lra. }
  unfold rnd, round, F2R, scaled_mantissa, cexp. rewrite M. change (FLT_exp (-1074) 53 0) with (-53)%Z. cbn [Fnum Fexp].
  change (- -53)%Z with 53%Z. assert (Z : ZnearestE (x * bpow radix2 53) = (2 ^ 53)%Z).
  { apply Znearest_imp. change (IZR (2 ^ 53)) with (bpow radix2 53). replace (x * bpow radix2 53 - bpow radix2 53) with ((x - 1) * bpow radix2 53) by ring.
    rewrite Rabs_mult, (Rabs_pos_eq (bpow radix2 53)) by apply bpow_ge_0. rewrite Rabs_left1 by lra.
    apply Rle_lt_trans with (/ 2 ^ 55 * bpow radix2 53); [apply Rmult_le_compat_r; [apply bpow_ge_0|lra]|]. simpl. lra. }
  rewrite Z. change (IZR (2 ^ 53)) with (bpow radix2 53). rewrite <- bpow_plus. reflexivity.
Qed.
Lemma cos_near_one : forall x, Rabs x <= 7 / 10 ^ 9 -> 1 - / 2 ^ 55 <= cos x <= 1.
Proof.
  intros x Hx. split; [|apply COS_bound]. replace x with (2 * (x / 2)) by field. rewrite cos_2a_sin. set (y := x / 2).
  assert (Hy : Rabs y <= 35 / 10 ^ 10). { unfold y, Rdiv. rewrite Rabs_mult, (Rabs_pos_eq (/ 2)) by lra. lra. }
  assert (S : Rabs (sin y) <= Rabs y).
  { destruct (Rcase_abs y) as [N|N].
    - assert (0 < - y) by lra. pose proof (sin_lt_x (- y) H). rewrite sin_neg in H0. assert (0 <= sin (- y)). { apply sin_ge_0; [lra|]. pose proof PI_lo. rewrite Rabs_left in Hy by lra. lra. }
      rewrite sin_neg in H1. rewrite (Rabs_left1 (sin y)), (Rabs_left1 y) by lra. lra.
    - destruct (Req_dec y 0) as [->|D]; [rewrite sin_0; lra|]. assert (0 < y) by lra. pose proof (sin_lt_x y H). assert (0 <= sin y). { apply sin_ge_0; [lra|]. pose proof PI_lo. rewrite Rabs_pos_eq in Hy by lra. lra. }
      rewrite !Rabs_pos_eq by lra. lra. }
  assert (Q : sin y * sin y <= (35 / 10 ^ 10) * (35 / 10 ^ 10)).
  { rewrite <- (Rabs_pos_eq (sin y * sin y)) by nra. rewrite Rabs_mult. apply Rmult_le_compat; try apply Rabs_pos; lra. }
  assert (B : 2 * (35 / 10 ^ 10 * (35 / 10 ^ 10)) <= / 2 ^ 55) by (simpl; lra). lra.
Qed.
Lemma cos_is_one : forall x : f64, Rabs (fval x) <= 7 / 10 ^ 9 -> fval (be_cos correct_library x) = 1.
Proof.
  intros x Hx. cbn [be_cos correct_library]. pose proof (cos_near_one _ Hx) as C. pose proof (COS_bound (fval x)).
  destruct (nearest_ok (cos (fval x))) as [_ E]; [apply Rabs_le; lra|]. rewrite E.
  destruct (Rle_lt_or_eq_dec (cos (fval x)) 1 (proj2 C)) as [L|L]; [apply rnd_near_one; lra|]. rewrite L.
  apply rnd_fmt. change 1 with (bpow radix2 0). apply generic_format_bpow. discriminate.
Qed.
Lemma last_two : forall X (p : nat -> X) n, (2 <= n)%nat -> rev (map p (seq 0 n)) = rev (map p (seq 2 (n - 2))) ++ [p 1%nat; p 0%nat].
Proof.
  intros X p n H. destruct n as [|[|n]]; [lia|lia|]. cbn [seq map rev]. replace (S (S n) - 2)%nat with n by lia. rewrite <- app_assoc. reflexivity.
Qed.
Notation A := (F64 correct_library).
Lemma near_zero : forall (x : A) th d, Rabs (fval x - th) <= d -> 0 <= th -> th + d <= 7 / 10 ^ 9 -> Rabs (fval x) <= 7 / 10 ^ 9.
Proof. intros x th d H T D. pose proof (abs_lower _ _ H). pose proof (abs_upper _ _ H). apply Rabs_le. lra. Qed.

Lemma cheb1_ends : forall t n (r : GaussChebyshevFirstKind A), (2 ^ 30 <= n <= 2 ^ 40)%Z -> (n < usize_max t)%Z -> chebyshev1_new t n = Ok r -> ends_in_ones (chebyshev1_pairs r).
Proof.
  intros t n r Hn Hu Hr. unfold chebyshev1_new in Hr. rewrite usize_add_ok in Hr by lia. cbn [bind] in Hr. apply ok_inj in Hr. subst r. cbn [chebyshev1_pairs].
  rewrite list_shape by lia. rewrite last_two by lia. eexists _, _, _. split; [reflexivity|].
  destruct (facts1 correct_library n ltac:(lia)) as (A1 & _ & _). pose proof PI_hi30 as PU. pose proof PI_lo30 as PL.
  assert (N : 1073741824 <= IZR n) by (replace 1073741824 with (IZR (2 ^ 30)) by reflexivity; apply IZR_le; lia).
  assert (V : 0 < / IZR n <= / 1073741824) by (split; [apply Rinv_0_lt_compat|apply Rinv_le_contravar]; lra).
  assert (T : forall i, (i <= 1)%nat -> Rabs (fval (ang1 correct_library n (Z.of_nat i + 1))) <= 7 / 10 ^ 9).
  { intros i Hi. destruct (A1 i ltac:(lia)) as (_ & _ & D). apply (near_zero _ _ _ D).
    - unfold th1. apply Rmult_le_pos; [|left; apply Rinv_0_lt_compat; lra]. pose proof (pos_INR i). nra.
    - assert (I : INR i <= 1) by (replace 1 with (INR 1) by reflexivity; apply le_INR; exact Hi). pose proof (pos_INR i).
      replace (th1 n i) with (PI * (INR i + / 2) * / IZR n) by (unfold th1; field; lra).
      assert (PI * (INR i + / 2) * / IZR n <= 472 / 100 * / 1073741824) by (apply Rmult_le_compat; nra). lra. }
  split; apply cos_is_one; [exact (T 1%nat (le_n _))|exact (T 0%nat (le_S _ _ (le_n _)))].
Qed.
Lemma cheb2_ends : forall t n (r : GaussChebyshevSecondKind A), (2 ^ 30 <= n <= 2 ^ 40)%Z -> (n < usize_max t)%Z -> chebyshev2_new t n = Ok r -> ends_in_ones (chebyshev2_pairs r).
Proof.
  intros t n r Hn Hu Hr. unfold chebyshev2_new in Hr. rewrite usize_add_ok in Hr by lia. cbn [bind] in Hr. apply ok_inj in Hr. subst r. cbn [chebyshev2_pairs].
  rewrite list_shape by lia. rewrite last_two by lia. eexists _, _, _. split; [reflexivity|].
  destruct (facts2 correct_library n ltac:(lia)) as (A1 & _ & _). pose proof PI_hi30 as PU. pose proof PI_lo30 as PL.
  assert (N : 1073741824 <= IZR n) by (replace 1073741824 with (IZR (2 ^ 30)) by reflexivity; apply IZR_le; lia).
  assert (V : 0 < / (IZR n + 1) <= / 1073741824) by (split; [apply Rinv_0_lt_compat|apply Rinv_le_contravar]; lra).
  assert (T : forall i, (i <= 1)%nat -> Rabs (fval (ang2 correct_library n (Z.of_nat i + 1))) <= 7 / 10 ^ 9).
  { intros i Hi. destruct (A1 i ltac:(lia)) as (_ & _ & D). apply (near_zero _ _ _ D).
    - unfold th2. apply Rmult_le_pos; [|left; apply Rinv_0_lt_compat; lra]. pose proof (pos_INR i). nra.
    - assert (I : INR i <= 1) by (replace 1 with (INR 1) by reflexivity; apply le_INR; exact Hi). pose proof (pos_INR i).
      unfold th2, Rdiv at 1.
      assert (PI * (INR i + 1) * / (IZR n + 1) <= 629 / 100 * / 1073741824) by (apply Rmult_le_compat; nra). lra. }
  split; apply cos_is_one; [exact (T 1%nat (le_n _))|exact (T 0%nat (le_S _ _ (le_n _)))].
Qed.
Lemma angle_small : forall th i m, 0 <= i <= 1 -> 0 < / m <= / 1073741824 -> Rabs (th - PI * (i + 3 / 4) / m) <= 52 / 1000 / m -> 0 <= th /\ th <= 6 * / 1073741824.
Proof.
  intros th i m I V B. pose proof PI_hi30 as PU. pose proof PI_lo30 as PL. pose proof (abs_lower _ _ B) as B1. pose proof (abs_upper _ _ B) as B2. clear B. unfold Rdiv in B1, B2. set (v := / m) in *. clearbody v.
  assert (X1 : PI * (i + 3 * / 4) * v <= 55 / 10 * v) by (apply Rmult_le_compat_r; nra). assert (X2 : 2 * v <= PI * (i + 3 * / 4) * v) by (apply Rmult_le_compat_r; nra). lra.
Qed.
Lemma legendre_ends : forall t (n : nat) (r : GaussLegendre A), (100 <= usize_max t)%Z -> (2 ^ 30 <= Z.of_nat n <= 2 ^ 40)%Z -> (2 * Z.of_nat n <= usize_max t)%Z -> legendre_new t (Z.of_nat n) = Ok r ->
  ends_in_ones (legendre_pairs r).
Proof.
  intros t n r Hu Hn H2 Hr. rewrite (legendre_list t (Z.of_nat n) r) by (assumption || lia). rewrite Nat2Z.id. rewrite last_two by lia. eexists _, _, _. split; [reflexivity|].
  pose proof PI_hi30 as PU. pose proof PI_lo30 as PL.
  assert (N : 1073741824 <= IZR (Z.of_nat n)) by (replace 1073741824 with (IZR (2 ^ 30)) by reflexivity; apply IZR_le; lia).
  assert (V : 0 < / (IZR (Z.of_nat n) + / 2) <= / 1073741824) by (split; [apply Rinv_0_lt_compat|apply Rinv_le_contravar]; lra).
  assert (K : bpow radix2 (-53) <= 2 / 10 ^ 16) by (simpl; lra).
  assert (T : forall i, (i <= 1)%nat -> Rabs (fval (fst (@tw A t (Z.of_nat n) i))) <= 7 / 10 ^ 9).
  { intros i Hi. destruct (big_angle_close correct_library _ correct_accurate t n i Hu ltac:(lia) ltac:(lia) H2 ltac:(lia)) as [[(_ & _ & D) _] _].
    destruct (tw_close t (Z.of_nat n) i Hu ltac:(lia) H2 ltac:(lia)) as [B _].
    assert (I : INR i <= 1) by (replace 1 with (INR 1) by reflexivity; apply le_INR; exact Hi).
    pose proof (angle_small _ _ _ (conj (pos_INR i) I) V B) as [Q1 Q2]. apply (near_zero _ _ _ D); [exact Q1|]. eapply Rle_trans; [apply Rplus_le_compat_r; exact Q2|]. unfold Rdiv in *. lra. }
  split; apply cos_is_one; [exact (T 1%nat (le_n _))|exact (T 0%nat (le_S _ _ (le_n _)))].
Qed.
