(** What the Chebyshev-moment check says about the real numbers. *)
From Coq Require Import Reals ZArith List Lia Lra Bool Psatz.
From Verif Require Import RInst LegendreData LegAsym LegTable Fix63 FixPoint LegCheck LegRun RSum LegMom.
Import ListNotations.
Local Open Scope R_scope.

Lemma sq_le_abs : forall x B, 0 <= B -> x * x <= B * B -> Rabs x <= B.
Proof. intros x B HB H. apply Rabs_le. split; nra. Qed.

(** error propagation in the three-term recurrence of the cosines *)
Lemma chebyshev_step : forall c a b r B rr, -1 <= c <= 1 -> 0 <= B -> Rabs r <= rr -> a * a - 2 * c * a * b + b * b <= B * B ->
  let b' := 2 * c * b - a + r in b * b - 2 * c * b * b' + b' * b' <= (B + rr) * (B + rr).
Proof.
  intros c a b r B rr Hc HB Hr Q b'.
  assert (E : b * b - 2 * c * b * b' + b' * b' = (a * a - 2 * c * a * b + b * b) + 2 * (r * (c * b - a)) + r * r) by (unfold b'; ring).
  assert (S : Rabs (c * b - a) <= B).
  { apply sq_le_abs; [exact HB|]. assert (0 <= (b * b) * (1 - c * c)) by (apply Rmult_le_pos; nra). nra. }
  assert (P : r * (c * b - a) <= rr * B).
  { apply Rle_trans with (Rabs (r * (c * b - a))); [apply Rle_abs|]. rewrite Rabs_mult. apply Rmult_le_compat; try apply Rabs_pos; assumption. }
  assert (R2 : r * r <= rr * rr).
  { replace (r * r) with (Rabs r * Rabs r) by (rewrite <- Rabs_mult, Rabs_pos_eq; [reflexivity|nra]). apply Rmult_le_compat; try apply Rabs_pos; assumption. }
  rewrite E. lra.
Qed.
Lemma chebyshev_next : forall c a b B, -1 <= c <= 1 -> 0 <= B -> a * a - 2 * c * a * b + b * b <= B * B -> Rabs b <= Rabs a + B.
Proof.
  intros c a b B Hc HB Q. assert (H : Rabs (Rabs b - Rabs a) <= B).
  { apply sq_le_abs; [exact HB|].
    assert (A : Rabs a * Rabs a = a * a) by (rewrite <- Rabs_mult, Rabs_pos_eq; [reflexivity|nra]).
    assert (D : Rabs b * Rabs b = b * b) by (rewrite <- Rabs_mult, Rabs_pos_eq; [reflexivity|nra]).
    assert (C : c * (a * b) <= Rabs a * Rabs b).
    { apply Rle_trans with (Rabs (c * (a * b))); [apply Rle_abs|]. rewrite !Rabs_mult. rewrite <- (Rmult_1_l (Rabs a * Rabs b)) at 2.
      apply Rmult_le_compat_r; [apply Rmult_le_pos; apply Rabs_pos|apply Rabs_le; lra]. }
    nra. }
  pose proof (Rle_abs (Rabs b - Rabs a)). lra.
Qed.

Definition ce (j : R) : R := 8400 * j + 20000 * j * (j - 1).
Lemma recur_step : forall (C X X0 : F) (c u v J : R), 0 <= J <= 99 -> Rabs c <= 1 -> Rabs u <= 1 -> Rabs v <= 1 ->
  Rabs (c * sc - IZR (sz C)) <= 8400 ->
  let a := v * sc - IZR (sz X0) in let b := u * sc - IZR (sz X) in
  a * a - 2 * c * a * b + b * b <= (8400 + 40000 * J) * (8400 + 40000 * J) -> Rabs a <= ce J ->
  let b' := (2 * c * u - v) * sc - IZR (sz (fsub (fadd (fmul C X) (fmul C X)) X0)) in
  b * b - 2 * c * b * b' + b' * b' <= (8400 + 40000 * (J + 1)) * (8400 + 40000 * (J + 1)) /\ Rabs b <= ce (J + 1).
Proof.
  intros C X X0 c u v J HJ Hc' Hu' Hv' HC a b Q L. cbv zeta. pose proof sc_pos as SP. pose proof sc_huge as SH.
  assert (Hc : -1 <= c <= 1) by (split; [pose proof (abs_lower _ _ Hc'); lra|pose proof (abs_upper _ _ Hc'); lra]).
  assert (Hu : -1 <= u <= 1) by (split; [pose proof (abs_lower _ _ Hu'); lra|pose proof (abs_upper _ _ Hu'); lra]). assert (Hv : -1 <= v <= 1) by (split; [pose proof (abs_lower _ _ Hv'); lra|pose proof (abs_upper _ _ Hv'); lra]).
  pose proof (chebyshev_next c a b (8400 + 40000 * J) Hc ltac:(lra) Q) as B1.
  assert (B2 : Rabs b <= ce (J + 1)) by (unfold ce in *; lra).
  assert (JJ : 0 <= J * J <= 99 * 99) by (split; [apply Rmult_le_pos; lra|apply Rmult_le_compat; lra]).
  assert (B3 : Rabs b <= 10 ^ 9). { unfold ce in B2. lra. }
  assert (A3 : Rabs a <= 10 ^ 9). { unfold ce in L. lra. }
  assert (XB : Rabs (IZR (sz X)) <= 2 * sc).
  { replace (IZR (sz X)) with (u * sc - b) by (unfold b; ring). unfold Rminus. eapply Rle_trans; [apply Rabs_triang|]. rewrite Rabs_Ropp, Rabs_mult, (Rabs_pos_eq sc) by lra.
    assert (Rabs u * sc <= 1 * sc) by (apply Rmult_le_compat_r; [lra|exact Hu']). lra. }
  assert (HX : ap (sz X) u (10 ^ 9)) by exact B3. assert (HX0 : ap (sz X0) v (10 ^ 9)) by exact A3. assert (HC' : ap (sz C) c 8400) by exact HC.
  assert (HM : ap (sz (fmul C X)) (c * u) (2 * 10 ^ 9)).
  { apply (ap_fmul _ _ _ _ 8400 (10 ^ 9) 1 1); [exact HC'|exact HX|exact Hc'|exact Hu'|lra|lra|lra|lra|lra]. }
  pose proof (mul_residue C X (ap_size _ _ _ HC' ltac:(lra) ltac:(lra)) (ap_size _ _ _ HX ltac:(lra) ltac:(lra))) as MR.
  generalize dependent (fmul C X). intros m HM MR.
  assert (CU : -1 <= c * u <= 1) by nra.
  assert (E1 : sz (fadd m m) = (sz m + sz m)%Z).
  { apply sz_fadd. pose proof (ap_range _ _ _ (ap_add _ _ _ _ _ _ HM HM) ltac:(apply Rabs_le; lra) ltac:(lra)). lia. }
  assert (HMM : ap (sz (fadd m m)) (c * u + c * u) (2 * 10 ^ 9 + 2 * 10 ^ 9)) by (rewrite E1; apply ap_add; exact HM).
  assert (E2 : sz (fsub (fadd m m) X0) = (sz m + sz m - sz X0)%Z).
  { rewrite <- E1. apply sz_fsub. pose proof (ap_range _ _ _ (ap_sub _ _ _ _ _ _ HMM HX0) ltac:(apply Rabs_le; lra) ltac:(lra)). lia. }
  rewrite E2. clear E1 E2 HMM HM HX HX0 HC'.
  unfold a, b in *. clear a b. generalize dependent (sz m). intros zm MR. generalize dependent (sz X). intros zX. generalize dependent (sz X0). intros zX0. generalize dependent (sz C). intros zC. intros.
  set (a := v * sc - IZR zX0) in *. set (b := u * sc - IZR zX) in *.
  set (r := 2 * c * IZR zX - 2 * IZR zm).
  assert (R : Rabs r <= 40000).
  { unfold r. replace (2 * c * IZR zX - 2 * IZR zm) with
      ((2 / sc) * (IZR zX * (c * sc - IZR zC)) + 2 * (IZR (zC * zX) / sc - IZR zm)) by (rewrite !mult_IZR; field; lra).
    eapply Rle_trans; [apply Rabs_triang|]. replace 40000 with (4 * 8400 + 6400) by ring. apply Rplus_le_compat.
    2:{ rewrite Rabs_mult, (Rabs_pos_eq 2) by lra. lra. }
    rewrite !Rabs_mult. rewrite Rabs_pos_eq by (unfold Rdiv; apply Rmult_le_pos; [lra|left; apply Rinv_0_lt_compat; lra]).
    apply Rle_trans with (2 / sc * (2 * sc * 8400)); [|right; field; lra].
    apply Rmult_le_compat_l; [unfold Rdiv; apply Rmult_le_pos; [lra|left; apply Rinv_0_lt_compat; lra]|].
    apply Rmult_le_compat; try apply Rabs_pos; assumption. }
  pose proof (chebyshev_step c a b r (8400 + 40000 * J) 40000 Hc ltac:(lra) R Q) as ST. cbv zeta in ST.
  replace ((2 * c * u - v) * sc - IZR (zm + zm - zX0)) with (2 * c * b - a + r).
  2:{ rewrite minus_IZR, plus_IZR. unfold r, b, a. ring. }
  split; [|exact B2]. replace (8400 + 40000 * (J + 1)) with (8400 + 40000 * J + 40000) by ring. exact ST.
Qed.

Section N.
Variable n : nat.
Hypothesis Hn : (1 <= n <= 100)%nat.

Fixpoint Xp (j : nat) (d : (Z * Z) * (Z * Z)) : F * F :=
  match j with
  | O => (fone, C2 (X2 d))
  | S j => (snd (Xp j d), let m := fmul (C2 (X2 d)) (snd (Xp j d)) in fsub (fadd m m) (fst (Xp j d)))
  end.
Lemma Xp_fst0 : forall d, fst (Xp 0 d) = fone. Proof. reflexivity. Qed.
Lemma Xp_snd0 : forall d, snd (Xp 0 d) = C2 (X2 d). Proof. reflexivity. Qed.
Lemma Xp_fst : forall j d, fst (Xp (S j) d) = snd (Xp j d). Proof. reflexivity. Qed.
Lemma Xp_snd : forall j d, snd (Xp (S j) d) = fsub (fadd (fmul (C2 (X2 d)) (snd (Xp j d))) (fmul (C2 (X2 d)) (snd (Xp j d)))) (fst (Xp j d)). Proof. reflexivity. Qed.

Lemma cos_rec : forall a j, cos (2 * (INR j + 2) * a) = 2 * cos (2 * a) * cos (2 * (INR j + 1) * a) - cos (2 * INR j * a).
Proof.
  intros a j. replace (2 * (INR j + 2) * a) with (2 * (INR j + 1) * a + 2 * a) by ring.
  replace (2 * INR j * a) with (2 * (INR j + 1) * a - 2 * a) by ring. rewrite cos_plus, cos_minus. ring.
Qed.
Lemma Xp_ap : forall d j, In d (entries n) -> (j <= 100)%nat ->
  let a := cos (2 * INR j * theta d) * sc - IZR (sz (fst (Xp j d))) in
  let b := cos (2 * (INR j + 1) * theta d) * sc - IZR (sz (snd (Xp j d))) in
  let c := cos (2 * theta d) in
  a * a - 2 * c * a * b + b * b <= (8400 + 40000 * INR j) * (8400 + 40000 * INR j) /\ Rabs a <= ce (INR j).
Proof.
  intros d j Hd. pose proof sc_pos as SP. pose proof (C2_ap n Hn d Hd) as HC. unfold ap in HC. induction j as [|j IH]; intros Hj; cbv zeta.
  - rewrite Xp_fst0, Xp_snd0. change (INR 0) with 0. replace (2 * 0 * theta d) with 0 by ring. replace (2 * (0 + 1) * theta d) with (2 * theta d) by ring. rewrite cos_0.
    rewrite sz_fone. replace (1 * sc - sc) with 0 by ring. split; [|unfold ce; rewrite Rabs_R0; lra].
    set (b := cos (2 * theta d) * sc - IZR (sz (C2 (X2 d)))) in *. assert (b * b <= 8400 * 8400).
    { replace (b * b) with (Rabs b * Rabs b) by (rewrite <- Rabs_mult, Rabs_pos_eq; [reflexivity|nra]). apply Rmult_le_compat; try apply Rabs_pos; assumption. }
    nra.
  - specialize (IH ltac:(lia)). cbv zeta in IH. destruct IH as [Q L].
    assert (J : 0 <= INR j <= 99). { split; [apply pos_INR|]. replace 99 with (INR 99) by (simpl; lra). apply le_INR. lia. }
    rewrite Xp_fst, Xp_snd, S_INR. replace (INR j + 1 + 1) with (INR j + 2) by ring. rewrite cos_rec.
    apply recur_step; try assumption; try apply cos_abs.
Qed.
Lemma ce_bound : forall j, (j <= 99)%nat -> 0 <= ce (INR j) <= 2 * 10 ^ 8.
Proof.
  intros j Hj. destruct j as [|j]; [unfold ce; simpl; lra|]. rewrite S_INR. unfold ce.
  assert (J : 0 <= INR j <= 98). { split; [apply pos_INR|]. replace 98 with (INR 98) by (simpl; lra). apply le_INR. lia. }
  assert (0 <= INR j * INR j <= 98 * 98) by (split; [apply Rmult_le_pos; lra|apply Rmult_le_compat; lra]). lra.
Qed.
Lemma prod_ap : forall d j, In d (entries n) -> (j <= 99)%nat ->
  ap (sz (fmul (fst (Xp j d)) (W d))) (weight d * cos (2 * INR j * theta d)) (400 + weight d * ce (INR j)).
Proof.
  intros d j Hd Hj. rewrite Rmult_comm. pose proof (ce_bound j Hj). destruct (entry_ok n Hn d Hd) as (_ & _ & _ & R).
  destruct (Xp_ap d j Hd ltac:(lia)) as [_ A].
  apply (ap_fmul _ _ _ _ (ce (INR j)) 200 1 (weight d)); [exact A|apply (W_ap n Hn d Hd)|apply cos_abs|rewrite Rabs_pos_eq; lra|lra|lra|lra|lra|lra].
Qed.
Lemma lsum_plus : forall X (l : list X) f g, lsum (map (fun x => f x + g x) l) = lsum (map f l) + lsum (map g l).
Proof. intros X l f g. induction l as [|x l IH]; cbn [map lsum]; [ring|rewrite IH; ring]. Qed.
Lemma lsum_scal_r : forall X (l : list X) f c, lsum (map (fun x => f x * c) l) = lsum (map f l) * c.
Proof. intros X l f c. induction l as [|x l IH]; cbn [map lsum]; [ring|rewrite IH; ring]. Qed.
Lemma midw_pos : 0 <= midw n.
Proof.
  unfold midw. destruct (Nat.odd n); [|lra]. destruct (cl_facts n Hn) as [_ C]. left. apply Rdiv_lt_0_compat; [lra|].
  destruct (Rtotal_order (val (cl_entry n)) 0) as [H|[H|H]]; [nra|contradiction|nra].
Qed.
Lemma sum_weights : 2 * lsum (map (fun d => weight d) (entries n)) + midw n <= 2 + 15 / 10 ^ 17.
Proof.
  pose proof (power_moment n Hn 0 ltac:(lia)) as P. cbn [Nat.eqb] in P. change (INR 0) with 0 in P.
  rewrite (map_ext (fun d => weight d * (cos (theta d) * cos (theta d)) ^ 0) (fun d => weight d)) in P by (intros; simpl; ring).
  apply abs_upper in P. lra.
Qed.
(** error of the Chebyshev moment of order 2 j *)
Definition cheb_err (j : nat) : R :=
  2 * lsum (map (fun d => weight d * cos (2 * INR j * theta d)) (entries n)) + (-1) ^ j * midw n - 2 / (1 - 4 * INR j * INR j).
Definition cheb_Z (j : nat) : Z :=
  cheb_defect (Z.of_nat j) (sz (fsum (map (fun d => fmul (fst (Xp j d)) (W d)) (entries n)))) (MID n).
Lemma even_sign : forall j, (-1) ^ j = if Z.even (Z.of_nat j) then 1 else -1.
Proof.
  induction j as [|j IH]; [reflexivity|]. cbn [pow]. rewrite IH. rewrite Nat2Z.inj_succ, Z.even_succ, <- Z.negb_even.
  destruct (Z.even (Z.of_nat j)); simpl; ring.
Qed.
Lemma cheb_err_bound : forall j, (j < n)%nat -> Rabs (cheb_err j) * sc <= IZR (cheb_Z j + slack).
Proof.
  intros j Hj. pose proof sc_pos as SP.
  assert (J : 0 <= INR j <= 99). { split; [apply pos_INR|]. replace 99 with (INR 99) by (simpl; lra). apply le_INR. lia. }
  pose proof (half_le n Hn) as HL. pose proof (ce_bound j ltac:(lia)) as CB.
  assert (A1 : ap (sz (fsum (map (fun d => fmul (fst (Xp j d)) (W d)) (entries n)))) (lsum (map (fun d => weight d * cos (2 * INR j * theta d)) (entries n))) 500000000).
  { assert (LE : lsum (map (fun d => 400 + weight d * ce (INR j)) (entries n)) <= 500000000).
    { rewrite (lsum_plus _ _ (fun _ => 400) (fun d => weight d * ce (INR j))), lsum_const, lsum_scal_r.
      pose proof (weights_total n Hn) as SW. set (sw := lsum (map (fun d => weight d) (entries n))) in *.
      assert (sw * ce (INR j) <= 2 * (2 * 10 ^ 8)); [|lra].
      destruct (Rle_dec 0 sw); [apply Rmult_le_compat; lra|nra]. }
    eapply ap_weaken; [apply (fsum_ap n Hn _ (entries n) _ _ (fun d => 400 + weight d * ce (INR j))); [intros d Hd; apply prod_ap; [exact Hd|lia]| |]|]; [|lra|exact LE].
    eapply Rle_trans; [apply (lsum_bounded _ _ _ (fun d => weight d))|pose proof (weights_total n Hn); lra].
    intros d Hd. destruct (entry_ok n Hn d Hd) as (_ & _ & _ & R). rewrite Rabs_mult, (Rabs_pos_eq (weight d)) by lra.
    rewrite <- (Rmult_1_r (weight d)) at 2. apply Rmult_le_compat_l; [lra|apply cos_abs]. }
  assert (A2 : ap (if Z.even (Z.of_nat j) then MID n else (- MID n)%Z) ((-1) ^ j * midw n) 1).
  { rewrite even_sign. pose proof (MID_ap n Hn) as M. destruct (Z.even (Z.of_nat j)); [rewrite Rmult_1_l; exact M|].
    replace (-1 * midw n) with (- midw n) by ring. apply ap_opp. exact M. }
  assert (A3 : ap (if (Z.of_nat j =? 0)%Z then (2 * SC)%Z else (- (2 * SC / (4 * Z.of_nat j * Z.of_nat j - 1)))%Z) (2 / (1 - 4 * INR j * INR j)) 1).
  { destruct (Z.eqb_spec (Z.of_nat j) 0) as [Z0|Z0].
    - assert (j = 0)%nat by lia. subst j. change (INR 0) with 0. unfold ap. rewrite mult_IZR. replace (2 / (1 - 4 * 0 * 0) * sc - 2 * sc) with 0 by field. rewrite Rabs_R0. lra.
    - assert (J1 : 1 <= INR j) by (replace 1 with (INR 1) by reflexivity; apply le_INR; lia).
      replace (2 / (1 - 4 * INR j * INR j)) with (- (2 / (4 * INR j * INR j - 1))) by (field; nra).
      apply ap_opp. apply ap_floor; [nia|]. rewrite mult_IZR, minus_IZR, !mult_IZR, <- INR_IZR_INZ. field. nra. }
  pose proof (ap_sub _ _ _ _ _ _ (ap_add _ _ _ _ _ _ (ap_scal 2 _ _ _ A1) A2) A3) as A. rewrite (Rabs_pos_eq (IZR 2)) in A by lra.
  unfold ap in A. change (2 * lsum (map (fun d => weight d * cos (2 * INR j * theta d)) (entries n)) + (-1) ^ j * midw n - 2 / (1 - 4 * INR j * INR j)) with (cheb_err j) in A.
  unfold cheb_Z, cheb_defect. rewrite plus_IZR, abs_IZR. set (z := IZR (_ + _ - _)) in *.
  replace (Rabs (cheb_err j) * sc) with (Rabs (cheb_err j * sc)) by (rewrite Rabs_mult, (Rabs_pos_eq sc) by lra; reflexivity).
  replace (cheb_err j * sc) with (z + (cheb_err j * sc - z)) by ring. eapply Rle_trans; [apply Rabs_triang|]. apply Rplus_le_compat_l. unfold slack. lra.
Qed.
Lemma cheb_steps_spec : forall m k j acc,
  cheb_steps m k (Z.of_nat j) (map (fun d => (Xp j d, (C2 (X2 d), W d))) (entries n)) acc =
  fold_left (fun s i => (s + (cheb_defect (Z.of_nat i) (sz (fsum (map (fun d => fmul (fst (Xp i d)) (W d)) (entries n)))) m + slack) * (cheb_defect (Z.of_nat i) (sz (fsum (map (fun d => fmul (fst (Xp i d)) (W d)) (entries n)))) m + slack))%Z) (seq j k) acc.
Proof.
  intros m k. induction k as [|k IH]; intros j acc; [reflexivity|]. cbn [cheb_steps seq fold_left]. rewrite !map_map. cbn [fst snd].
  rewrite <- IH. replace (Z.of_nat (S j)) with (Z.of_nat j + 1)%Z by lia. reflexivity.
Qed.
Lemma fold_rsum : forall (g : nat -> Z) k j acc, IZR (fold_left (fun s i => (s + g i)%Z) (seq j k) acc) = IZR acc + rsum k (fun i => IZR (g (j + i)%nat)).
Proof.
  intros g k j acc. rewrite <- (lsum_map_seq (fun i => IZR (g i)) k j). revert j acc. induction k as [|k IH]; intros j acc; cbn [seq fold_left map lsum]; [ring|].
  rewrite IH, plus_IZR. ring.
Qed.
Lemma cprep_eq : forall d, cprep (W d, X2 d) = (Xp 0 d, (C2 (X2 d), W d)). Proof. reflexivity. Qed.
Theorem cheb_rms : rsum n (fun j => cheb_err j * cheb_err j) <= (21 / 10 ^ 15) * (21 / 10 ^ 15).
Proof.
  destruct (checked n Hn) as [_ H]. unfold prep in H. rewrite map_map in H.
  rewrite (map_ext _ _ cprep_eq) in H.
  pose proof (cheb_steps_spec (MID n) n 0 0) as CS. change (Z.of_nat 0) with 0%Z in CS. rewrite CS in H. clear CS. apply IZR_le in H. rewrite fold_rsum in H. rewrite mult_IZR in H.
  pose proof sc_pos as SP.
  assert (T : 0 <= IZR cheb_tol <= 21 / 10 ^ 15 * sc).
  { split; [apply (IZR_le 0), Z.leb_le; vm_compute; reflexivity|].
    replace (21 / 10 ^ 15 * sc) with (IZR (21 * SC) / 10 ^ 15) by (rewrite mult_IZR; field).
    apply Rmult_le_reg_r with (10 ^ 15); [lra|]. unfold Rdiv. rewrite Rmult_assoc, Rinv_l, Rmult_1_r by lra. rewrite (pow_IZR 10 15), <- mult_IZR. apply IZR_le. apply Z.leb_le. vm_compute. reflexivity. }
  assert (S : rsum n (fun j => cheb_err j * cheb_err j) * (sc * sc) <= IZR cheb_tol * IZR cheb_tol).
  { eapply Rle_trans; [|exact H]. rewrite Rplus_0_l. rewrite Rmult_comm, <- rsum_scal. apply rsum_le. intros j Hj. cbn [Nat.add].
    rewrite mult_IZR. pose proof (cheb_err_bound j Hj) as B. unfold cheb_Z in B.
    replace (sc * sc * (cheb_err j * cheb_err j)) with ((Rabs (cheb_err j) * sc) * (Rabs (cheb_err j) * sc)).
    - apply Rmult_le_compat; try assumption; apply Rmult_le_pos; try apply Rabs_pos; lra.
    - replace (Rabs (cheb_err j) * sc * (Rabs (cheb_err j) * sc)) with (Rabs (cheb_err j) * Rabs (cheb_err j) * (sc * sc)) by ring.
      rewrite <- Rabs_mult, Rabs_pos_eq by nra. ring. }
  assert (S2 : IZR cheb_tol * IZR cheb_tol <= (21 / 10 ^ 15 * sc) * (21 / 10 ^ 15 * sc)) by (apply Rmult_le_compat; lra).
  apply Rmult_le_reg_r with (sc * sc); [nra|]. lra.
Qed.
End N.
