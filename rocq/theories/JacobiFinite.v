(** Finite matrix entries of Gauss-Jacobi in double arithmetic. *)
From Coq Require Import Reals ZArith List Lra Lia Bool.
From Flocq Require Import Core IEEE754.Binary.
From Verif Require Import Arith F64 F64Spec F64Proof Param Jacobi JacobiFloat.
Local Open Scope R_scope.
Notation pw := (bpow radix2).

Definition P (lo hi : Z) (x : f64) : Prop := inr (pw lo) (pw hi) x.
Definition Q (e : Z) (x : f64) : Prop := inr (- pw e) (pw e) x.
Definition NN (e : Z) (x : f64) : Prop := inr 0 (pw e) x.
Definition NP (e : Z) (x : f64) : Prop := inr (- pw e) 0 x.

Lemma fmt_0 : fmt 0. Proof. apply generic_format_0. Qed.
Lemma fmt_opp : forall x, fmt x -> fmt (- x). Proof. intros x H. now apply generic_format_opp. Qed.
Lemma pw_le : forall a b, (a <= b)%Z -> pw a <= pw b. Proof. intros. now apply bpow_le. Qed.
Lemma big_le : forall e, (e <= 1023)%Z -> pw e <= big. Proof. intros. now apply bpow_le. Qed.
Lemma nbig_le : forall e, (e <= 1023)%Z -> - big <= - pw e. Proof. intros. apply Ropp_le_contravar. now apply bpow_le. Qed.
Lemma nbig_0 : - big <= 0. Proof. pose proof (bpow_ge_0 radix2 1023). unfold big. lra. Qed.
Lemma big_0 : 0 <= big. Proof. pose proof (bpow_ge_0 radix2 1023). unfold big. lra. Qed.
Lemma nbig_pos : forall e, - big <= pw e. Proof. intros e. pose proof (bpow_ge_0 radix2 e). pose proof nbig_0. lra. Qed.

Section J.
Variable be : Backend.
Notation A := (F64 be).

Lemma P_NN : forall a b x, P a b x -> NN b x.
Proof. intros a b x [F [H1 H2]]. split; [exact F|]. pose proof (bpow_ge_0 radix2 a). lra. Qed.
Lemma NN_Q : forall b x, NN b x -> Q b x.
Proof. intros b x [F [H1 H2]]. split; [exact F|]. pose proof (bpow_ge_0 radix2 b). lra. Qed.
Lemma NP_Q : forall b x, NP b x -> Q b x.
Proof. intros b x [F [H1 H2]]. split; [exact F|]. pose proof (bpow_ge_0 radix2 b). lra. Qed.
Lemma P_weaken : forall a b c d x, (c <= a)%Z -> (b <= d)%Z -> P a b x -> P c d x.
Proof. intros a b c d x H1 H2 [F [G1 G2]]. pose proof (pw_le _ _ H1). pose proof (pw_le _ _ H2). split; [exact F|]. lra. Qed.
Lemma NN_mul : forall a b (x y : A), (-1074 <= a + b <= 1023)%Z -> NN a x -> NN b y -> NN (a + b) (nmul x y).
Proof.
  intros a b x y H [F1 [X1 X2]] [F2 [Y1 Y2]]. apply mul_in; try assumption; [apply fmt_0|apply fmt_bpow; lia|apply nbig_0|apply big_le; lia|].
  rewrite bpow_plus. split; [now apply Rmult_le_pos|now apply Rmult_le_compat].
Qed.
Lemma NP_mul : forall a b (x y : A), (-1074 <= a + b <= 1023)%Z -> NN a x -> NP b y -> NP (a + b) (nmul x y).
Proof.
  intros a b x y H [F1 [X1 X2]] [F2 [Y1 Y2]]. apply mul_in; try assumption; [apply fmt_opp, fmt_bpow; lia|apply fmt_0|apply nbig_le; lia|apply big_0|].
  rewrite bpow_plus. assert (fval x * (- fval y) <= pw a * pw b) by (apply Rmult_le_compat; lra).
  assert (0 <= fval x * (- fval y)) by (apply Rmult_le_pos; lra). lra.
Qed.
Lemma P_mul : forall a b c d (x y : A), (-1074 <= a + c)%Z -> (b + d <= 1023)%Z -> P a b x -> P c d y -> P (a + c) (b + d) (nmul x y).
Proof.
  intros a b c d x y H H' [F1 [X1 X2]] [F2 [Y1 Y2]].
  pose proof (bpow_gt_0 radix2 a). pose proof (bpow_gt_0 radix2 c).
  assert (a <= b)%Z by (apply (le_bpow radix2); lra). assert (c <= d)%Z by (apply (le_bpow radix2); lra).
  apply mul_in; try assumption; [apply fmt_bpow; lia|apply fmt_bpow; lia|apply nbig_pos|apply big_le; lia|].
  rewrite !bpow_plus. split; apply Rmult_le_compat; lra.
Qed.
Lemma Q_mul : forall a b (x y : A), (-1074 <= a + b <= 1023)%Z -> Q a x -> Q b y -> Q (a + b) (nmul x y).
Proof.
  intros a b x y H [F1 X] [F2 Y]. apply mul_in; try assumption; [apply fmt_opp, fmt_bpow; lia|apply fmt_bpow; lia|apply nbig_le; lia|apply big_le; lia|].
  apply Rabs_le_inv. rewrite Rabs_mult, bpow_plus. apply Rmult_le_compat; try apply Rabs_pos; apply Rabs_le; assumption.
Qed.
Lemma Q_add : forall a (x y : A), (-1074 <= a <= 1022)%Z -> Q a x -> Q a y -> Q (1 + a) (nadd x y).
Proof.
  intros a x y H [F1 X] [F2 Y]. apply add_in; try assumption; [apply fmt_opp, fmt_bpow; lia|apply fmt_bpow; lia|apply nbig_le; lia|apply big_le; lia|].
  rewrite bpow_plus. change (pw 1) with 2. lra.
Qed.
Lemma Q_sub : forall a (x y : A), (-1074 <= a <= 1022)%Z -> Q a x -> Q a y -> Q (1 + a) (nsub x y).
Proof.
  intros a x y H [F1 X] [F2 Y]. apply sub_in; try assumption; [apply fmt_opp, fmt_bpow; lia|apply fmt_bpow; lia|apply nbig_le; lia|apply big_le; lia|].
  rewrite bpow_plus. change (pw 1) with 2. lra.
Qed.
Lemma P_inv : forall a b x, P a b x -> fval x <> 0 /\ pw (- b) <= / fval x <= pw (- a).
Proof.
  intros a b x [F [H1 H2]]. pose proof (bpow_gt_0 radix2 a). split; [lra|]. rewrite !bpow_opp. split; apply Rinv_le; lra.
Qed.
Lemma Q_div : forall e a b (x y : A), (-1074 <= e - a <= 1023)%Z -> Q e x -> P a b y -> Q (e - a) (ndiv x y).
Proof.
  intros e a b x y H [F1 X] Y. destruct (P_inv _ _ _ Y) as [N I].
  apply div_in; try assumption; [apply fmt_opp, fmt_bpow; lia|apply fmt_bpow; lia|apply nbig_le; lia|apply big_le; lia|].
  pose proof (bpow_ge_0 radix2 (- b)).
  apply Rabs_le_inv. unfold Rdiv, Zminus. rewrite Rabs_mult, bpow_plus. apply Rmult_le_compat; try apply Rabs_pos; [now apply Rabs_le|].
  rewrite Rabs_pos_eq; lra.
Qed.
Lemma NN_div : forall e a b (x y : A), (-1074 <= e - a <= 1023)%Z -> NN e x -> P a b y -> NN (e - a) (ndiv x y).
Proof.
  intros e a b x y H [F1 X] Y. destruct (P_inv _ _ _ Y) as [N I].
  apply div_in; try assumption; [apply fmt_0|apply fmt_bpow; lia|apply nbig_0|apply big_le; lia|].
  pose proof (bpow_ge_0 radix2 (- b)). unfold Rdiv, Zminus. rewrite bpow_plus. split; [apply Rmult_le_pos|apply Rmult_le_compat]; lra.
Qed.
Lemma P_div : forall a b c d (x y : A), (-1074 <= a - d)%Z -> (b - c <= 1023)%Z -> P a b x -> P c d y -> P (a - d) (b - c) (ndiv x y).
Proof.
  intros a b c d x y H H' X Y. destruct (P_inv _ _ _ Y) as [N I]. destruct X as [F1 [X1 X2]].
  pose proof (bpow_gt_0 radix2 a). pose proof (bpow_gt_0 radix2 (- d)). assert (a <= b)%Z by (apply (le_bpow radix2); lra).
  assert (c <= d)%Z by (destruct Y as [_ [Y1 Y2]]; apply (le_bpow radix2); lra).
  apply div_in; try assumption; [apply fmt_bpow; lia|apply fmt_bpow; lia|apply nbig_pos|apply big_le; lia|].
  unfold Rdiv, Zminus. rewrite !bpow_plus. split; apply Rmult_le_compat; lra.
Qed.
Lemma NN_sqrt : forall e (x : A), (0 <= e <= 500)%Z -> NN (2 * e) x -> NN e (nsqrt x).
Proof.
  intros e x He [F [X1 X2]]. apply sqrt_in; try assumption; [apply fmt_bpow; lia|apply big_le; lia|].
  rewrite <- (sqrt_Rsqr (pw e)) by apply bpow_ge_0. apply sqrt_le_1_alt. unfold Rsqr. rewrite <- bpow_plus. replace (e + e)%Z with (2 * e)%Z by lia. exact X2.
Qed.
Lemma NN_weaken : forall a b x, (a <= b)%Z -> NN a x -> NN b x.
Proof. intros a b x H [F [G1 G2]]. pose proof (pw_le _ _ H). split; [exact F|]. lra. Qed.

Lemma above_neg1 : forall x : f64, -1 < fval x -> -1 + pw (-53) <= fval x.
Proof.
  intros x Hx. pose proof (fval_format x) as F.
  assert (H : succ radix2 (FLT_exp (-1074) 53) (-1) <= fval x).
  { apply succ_le_lt; [apply valid_exp_f64|apply (fmt_Z (-1)); lia|exact F|exact Hx]. }
  replace (-1) with (- (bpow radix2 0)) in H by (simpl; lra). rewrite succ_opp, pred_bpow in H by apply valid_exp_f64.
  change (FLT_exp (-1074) 53 0) with (-53)%Z in H. change (pw 0) with 1 in H. lra.
Qed.

Variables alpha beta : A.
Hypothesis Fa : ffin alpha. Hypothesis Fb : ffin beta.
Hypothesis La : -1 < fval alpha. Hypothesis Lb : -1 < fval beta.
Hypothesis Ha : fval alpha <= pw 200. Hypothesis Hb : fval beta <= pw 200.

Let La' := above_neg1 alpha La.
Let Lb' := above_neg1 beta Lb.
Lemma pw0_200 : 1 <= pw 200. Proof. change 1 with (pw 0). apply pw_le. lia. Qed.
Lemma Qa : Q 200 alpha. Proof. split; [exact Fa|]. pose proof pw0_200. lra. Qed.
Lemma Qb : Q 200 beta. Proof. split; [exact Fb|]. pose proof pw0_200. lra. Qed.

(** [k + alpha + beta] with [k >= 2] *)
Lemma shifted : forall (k : A) (x y : A), ffin x -> ffin y -> -1 + pw (-53) <= fval x <= pw 200 -> -1 + pw (-53) <= fval y <= pw 200 ->
  ffin k -> 2 <= fval k <= pw 60 -> P (-53) 202 (nadd (nadd k x) y).
Proof.
  intros k x y Fx Fy Hx Hy Fk Hk. pose proof (bpow_gt_0 radix2 (-53)). pose proof (pw_le 60 200 ltac:(lia)).
  assert (B : inr 1 (pw 201) (nadd k x)).
  { apply add_in; try assumption; [apply (fmt_Z 1); lia|apply fmt_bpow; lia|apply (nbig_pos 0)|apply big_le; lia|].
    change 201%Z with (1 + 200)%Z. rewrite bpow_plus. change (pw 1) with 2. lra. }
  destruct B as [F1 B]. apply add_in; try assumption; [apply fmt_bpow; lia|apply fmt_bpow; lia|apply nbig_pos|apply big_le; lia|].
  pose proof (pw_le 200 201 ltac:(lia)). change 202%Z with (1 + 201)%Z. rewrite bpow_plus. change (pw 1) with 2. lra.
Qed.
Lemma two_exact : ffin (@lit2 A) /\ fval (@lit2 A) = 2. Proof. apply (lit_int_exact 2). lia. Qed.
Lemma one_exact : ffin (@lit1 A) /\ fval (@lit1 A) = 1. Proof. apply (lit_int_exact 1). lia. Qed.

Theorem diag0_finite : ffin (jacobi_diag alpha beta 0).
Proof.
  simpl. destruct two_exact as [F2 V2].
  assert (D : P (-53) 202 (nadd (nadd (@lit2 A) beta) alpha)).
  { apply shifted; try assumption; try (split; assumption). rewrite V2. split; [lra|]. change 2 with (pw 1). apply pw_le. lia. }
  apply (Q_div 201 (-53) 202 (nsub beta alpha) (nadd (nadd (@lit2 A) beta) alpha)); [lia|apply (Q_sub 200); [lia|apply Qb|apply Qa]|exact D].
Qed.
Lemma idx_exact : forall idx, (Z.of_nat idx <= 2 ^ 52)%Z -> ffin (@nofZ A (Z.of_nat idx)) /\ fval (@nofZ A (Z.of_nat idx)) = IZR (Z.of_nat idx).
Proof. intros idx H. apply ofZ_exact. lia. Qed.
Lemma exact_mul : forall (x y : A) k, ffin x -> ffin y -> fval x * fval y = IZR k -> (Z.abs k <= 2 ^ 53)%Z ->
  ffin (nmul x y) /\ fval (nmul x y) = IZR k.
Proof.
  intros x y k Fx Fy E Hk. destruct (mul_finite be x y Fx Fy) as [H1 H2].
  { rewrite E. apply no_overflow_small. now apply abs_IZR_bound. }
  split; [exact H1|]. refine (eq_trans H2 _). rewrite E. now apply rnd_IZR.
Qed.
Lemma exact_add : forall (x y : A) k, ffin x -> ffin y -> fval x + fval y = IZR k -> (Z.abs k <= 2 ^ 53)%Z ->
  ffin (nadd x y) /\ fval (nadd x y) = IZR k.
Proof.
  intros x y k Fx Fy E Hk. destruct (add_finite be x y Fx Fy) as [H1 H2].
  { rewrite E. apply no_overflow_small. now apply abs_IZR_bound. }
  split; [exact H1|]. refine (eq_trans H2 _). rewrite E. now apply rnd_IZR.
Qed.
Lemma IZR_pw : forall k e, (0 <= e)%Z -> (k <= 2 ^ e)%Z -> IZR k <= pw e.
Proof. intros k e He H. rewrite <- IZR_Zpower by exact He. apply IZR_le. exact H. Qed.
Theorem diagS_finite : forall idx, (1 <= idx)%nat -> (Z.of_nat idx <= 2 ^ 50)%Z -> ffin (jacobi_diag alpha beta idx).
Proof.
  intros idx H1 H2. destruct idx as [|i]; [lia|]. unfold jacobi_diag. cbv zeta.
  destruct two_exact as [F2 V2]. destruct (idx_exact (S i)) as [FI VI]; [lia|].
  destruct (exact_mul (@lit2 A) (nofZ (Z.of_nat (S i))) (2 * Z.of_nat (S i)) F2 FI) as [F V]; [rewrite V2, VI, mult_IZR; reflexivity|lia|].
  assert (D : P (-53) 202 (nadd (nadd (nmul (@lit2 A) (nofZ (Z.of_nat (S i)))) alpha) beta)).
  { apply shifted; try assumption; try (split; assumption).
    replace (fval (nmul (@lit2 A) (nofZ (Z.of_nat (S i))))) with (IZR (2 * Z.of_nat (S i))) by (symmetry; exact V).
    split; [apply IZR_le; lia|apply IZR_pw; lia]. }
  set (d := nadd (nadd (nmul (@lit2 A) (nofZ (Z.of_nat (S i)))) alpha) beta) in *.
  assert (D2 : P 1 203 (nadd d (@lit2 A))).
  { destruct D as [F' [D1 D2]]. pose proof (bpow_gt_0 radix2 (-53)).
    apply add_in; try assumption; [apply fmt_bpow; lia|apply fmt_bpow; lia|apply nbig_pos|apply big_le; lia|].
    replace (fval (@lit2 A)) with 2 by (symmetry; exact V2).
    pose proof (pw_le 1 202 ltac:(lia)). change 203%Z with (1 + 202)%Z. rewrite bpow_plus. change (pw 1) with 2 in *. lra. }
  pose proof (P_mul (-53) 202 1 203 d (nadd d (@lit2 A)) ltac:(lia) ltac:(lia) D D2) as DD.
  apply (Q_div 401 (-52) 405); [lia| |exact DD].
  apply (Q_sub 400); [lia| |]; apply (Q_mul 200 200); try lia; try apply Qa; apply Qb.
Qed.

Lemma off_bound : forall (p1 pa pb pab d dp dm : A),
  P 0 60 p1 -> NN 202 pa -> NN 202 pb -> P (-53) 202 d -> P 0 203 dp ->
  (NN 202 pab /\ P (-60) 202 dm \/ NP 202 pab /\ ffin dm /\ - pw 1 <= fval dm <= - pw (-60)) ->
  ffin (nmul (ndiv lit2 d) (nsqrt (ndiv (nmul (nmul (nmul p1 pa) pb) pab) (nmul dp dm)))).
Proof.
  intros p1 pa pb pab d dp dm H1 Hpa Hpb Hd Hdp Hc.
  assert (R : NN (2 * 370) (ndiv (nmul (nmul (nmul p1 pa) pb) pab) (nmul dp dm))).
  { assert (M1 : NN (60 + 202) (nmul p1 pa)) by (apply NN_mul; [lia|now apply P_NN with 0%Z|exact Hpa]).
    assert (M2 : NN (60 + 202 + 202) (nmul (nmul p1 pa) pb)) by (apply NN_mul; [lia|exact M1|exact Hpb]).
    destruct Hc as [[Hpab Hdm]|(Hpab & Fm & Hm)].
    - assert (M3 : NN (60 + 202 + 202 + 202) (nmul (nmul (nmul p1 pa) pb) pab)) by (apply NN_mul; [lia|exact M2|exact Hpab]).
      assert (M4 : P (0 + -60) (203 + 202) (nmul dp dm)) by (apply P_mul; [lia|lia|exact Hdp|exact Hdm]).
      eapply NN_weaken; [|eapply NN_div; [|exact M3|exact M4]]; lia.
    - assert (M3 : NP (60 + 202 + 202 + 202) (nmul (nmul (nmul p1 pa) pb) pab)) by (apply NP_mul; [lia|exact M2|exact Hpab]).
      assert (M4 : inr (- pw 204) (- pw (-60)) (nmul dp dm)).
      { destruct Hdp as [Fp [P1 P2]]. change (pw 0) with 1 in P1.
        apply mul_in; try assumption; [apply fmt_opp, fmt_bpow; lia|apply fmt_opp, fmt_bpow; lia|apply nbig_le; lia| |].
        - pose proof (bpow_ge_0 radix2 (-60)). pose proof big_0. lra.
        - pose proof (bpow_gt_0 radix2 (-60)). change 204%Z with (203 + 1)%Z. rewrite bpow_plus. change (pw 1) with 2 in *.
          pose proof (bpow_gt_0 radix2 203).
          assert (fval dp * - fval dm <= pw 203 * 2) by (apply Rmult_le_compat; lra).
          assert (1 * pw (-60) <= fval dp * - fval dm) by (apply Rmult_le_compat; lra). lra. }
      destruct M3 as [F3 [L3 U3]], M4 as [F4 [L4 U4]]. pose proof (bpow_gt_0 radix2 (-60)).
      apply div_in; try assumption; [lra|apply fmt_0|apply fmt_bpow; lia|apply nbig_0|apply big_le; lia|].
      replace (fval (nmul (nmul (nmul p1 pa) pb) pab) / fval (nmul dp dm)) with ((- fval (nmul (nmul (nmul p1 pa) pb) pab)) * / (- fval (nmul dp dm))) by (field; lra).
      assert (I : 0 < / (- fval (nmul dp dm)) <= pw 60).
      { split; [apply Rinv_0_lt_compat; lra|]. change 60%Z with (- - 60)%Z. rewrite (bpow_opp radix2 (-60)). apply Rinv_le; lra. }
      split; [apply Rmult_le_pos; lra|]. apply Rle_trans with (pw (60 + 202 + 202 + 202) * pw 60); [apply Rmult_le_compat; lra|].
      rewrite <- bpow_plus. apply pw_le. lia. }
  assert (S : NN 370 (nsqrt (ndiv (nmul (nmul (nmul p1 pa) pb) pab) (nmul dp dm)))) by (apply NN_sqrt; [lia|exact R]).
  assert (T : NN (1 - -53) (ndiv lit2 d)).
  { apply (NN_div 1 (-53) 202); [lia| |exact Hd]. destruct two_exact as [F2 V2]. split; [exact F2|].
    replace (fval (@lit2 A)) with 2 by (symmetry; exact V2). change (pw 1) with 2. lra. }
  eapply (NN_mul _ _ _ _ _ T S). Unshelve. lia.
Qed.
Lemma p1_exact : forall idx, (Z.of_nat idx <= 2 ^ 50)%Z ->
  ffin (nadd (@nofZ A (Z.of_nat idx)) lit1) /\ fval (nadd (@nofZ A (Z.of_nat idx)) lit1) = IZR (Z.of_nat idx + 1).
Proof.
  intros idx H. destruct one_exact as [F1 V1]. destruct (idx_exact idx) as [FI VI]; [lia|].
  apply exact_add; try assumption; [|lia]. rewrite VI. replace (fval (@lit1 A)) with 1 by (symmetry; exact V1). rewrite plus_IZR. reflexivity.
Qed.
Lemma plus_param : forall (k x : A), ffin k -> 1 <= fval k <= pw 60 -> ffin x -> -1 < fval x <= pw 200 -> NN 202 (nadd k x).
Proof.
  intros k x Fk Hk Fx Hx. apply add_in; try assumption; [apply fmt_0|apply fmt_bpow; lia|apply nbig_0|apply big_le; lia|].
  pose proof (pw_le 60 201 ltac:(lia)). pose proof (pw_le 200 201 ltac:(lia)). change 202%Z with (1 + 201)%Z. rewrite bpow_plus. change (pw 1) with 2. lra.
Qed.
Lemma plus_one : forall d : A, P (-53) 202 d -> P 0 203 (nadd d lit1).
Proof.
  intros d [F [D1 D2]]. destruct one_exact as [F1 V1]. pose proof (bpow_gt_0 radix2 (-53)).
  apply add_in; try assumption; [apply fmt_bpow; lia|apply fmt_bpow; lia|apply nbig_pos|apply big_le; lia|].
  replace (fval (@lit1 A)) with 1 by (symmetry; exact V1). change (pw 0) with 1.
  pose proof (pw_le 0 202 ltac:(lia)). change 203%Z with (1 + 202)%Z. rewrite bpow_plus. change (pw 1) with 2. change (pw 0) with 1 in *. lra.
Qed.
Theorem offS_finite : forall idx, (1 <= idx)%nat -> (Z.of_nat idx <= 2 ^ 50)%Z -> ffin (jacobi_off_diag alpha beta idx).
Proof.
  intros idx H1 H2. unfold jacobi_off_diag. cbv zeta. destruct (p1_exact idx H2) as [Fp Vp].
  set (p1 := nadd (@nofZ A (Z.of_nat idx)) lit1) in *. destruct two_exact as [F2 V2]. destruct one_exact as [F1 V1].
  destruct (exact_mul (@lit2 A) p1 (2 * (Z.of_nat idx + 1)) F2 Fp) as [Ft Vt]; [rewrite V2, Vp, mult_IZR; reflexivity|lia|].
  assert (B1 : 2 <= fval p1 <= pw 60) by (rewrite Vp; split; [apply IZR_le; lia|apply IZR_pw; lia]).
  assert (B2 : 4 <= fval (nmul (@lit2 A) p1) <= pw 60).
  { replace (fval (nmul (@lit2 A) p1)) with (IZR (2 * (Z.of_nat idx + 1))) by (symmetry; exact Vt). split; [apply IZR_le; lia|apply IZR_pw; lia]. }
  assert (D : P (-53) 202 (nadd (nadd (nmul lit2 p1) alpha) beta)) by (apply shifted; try assumption; try (split; assumption); lra).
  assert (D' : 2 <= fval (nadd (nadd (nmul lit2 p1) alpha) beta)).
  { pose proof (pw_le 60 200 ltac:(lia)).
    assert (B : inr 3 (pw 201) (nadd (nmul lit2 p1) alpha)).
    { apply add_in; try assumption; [apply (fmt_Z 3); lia|apply fmt_bpow; lia| |apply big_le; lia|].
      - pose proof nbig_0. lra. - change 201%Z with (1 + 200)%Z. rewrite bpow_plus. change (pw 1) with 2. lra. }
    destruct B as [FB B]. assert (C : inr 2 (pw 202) (nadd (nadd (nmul lit2 p1) alpha) beta)).
    { apply add_in; try assumption; [apply (fmt_Z 2); lia|apply fmt_bpow; lia| |apply big_le; lia|].
      - pose proof nbig_0. lra.
      - pose proof (pw_le 200 201 ltac:(lia)). change 202%Z with (1 + 201)%Z. rewrite bpow_plus. change (pw 1) with 2. lra. }
    apply C. }
  set (d := nadd (nadd (nmul lit2 p1) alpha) beta) in *.
  apply off_bound; try assumption.
  - split; [exact Fp|]. change (pw 0) with 1. lra.
  - apply plus_param; try assumption; [lra|split; assumption].
  - apply plus_param; try assumption; [lra|split; assumption].
  - now apply plus_one.
  - left. split.
    + apply P_NN with (-53)%Z. apply shifted; try assumption; try (split; assumption).
    + destruct D as [Fd [D1 D2]]. apply sub_in; try assumption; [apply fmt_bpow; lia|apply fmt_bpow; lia|apply nbig_pos|apply big_le; lia|].
      replace (fval (@lit1 A)) with 1 by (symmetry; exact V1). pose proof (pw_le (-60) 0 ltac:(lia)). change (pw 0) with 1 in *. lra.
Qed.
(** rounding error of a sum of absolute value at most 4 *)
Lemma err4 : forall x, Rabs x <= 4 -> Rabs (rnd x - x) <= pw (-51).
Proof.
  intros x Hx. unfold rnd. eapply Rle_trans; [apply error_le_half_ulp; apply valid_exp_f64|].
  assert (U : ulp radix2 (FLT_exp (-1074) 53) x <= pw (-50)).
  { replace (pw (-50)) with (ulp radix2 (FLT_exp (-1074) 53) (pw 2)) by (rewrite ulp_bpow; reflexivity).
    rewrite <- (ulp_abs _ _ x). apply ulp_le_pos; [apply valid_exp_f64|apply FLT_exp_monotone|apply Rabs_pos|exact Hx]. }
  change (-50)%Z with (1 + -51)%Z in U. rewrite bpow_plus in U. change (pw 1) with 2 in U. lra.
Qed.
Theorem off0_finite : pw (-48) <= Rabs (fval alpha + fval beta + 1) -> ffin (jacobi_off_diag alpha beta 0).
Proof.
  intros Hs. unfold jacobi_off_diag. cbv zeta. destruct (p1_exact 0) as [Fp Vp]; [lia|].
  set (p1 := nadd (@nofZ A (Z.of_nat 0)) lit1) in *. destruct two_exact as [F2 V2]. destruct one_exact as [F1 V1].
  change (IZR (Z.of_nat 0 + 1)) with 1 in Vp.
  destruct (exact_mul (@lit2 A) p1 2 F2 Fp) as [Ft Vt]; [rewrite V2, Vp; ring|lia|].
  assert (K60 : 2 <= pw 60) by (change 2 with (pw 1); apply pw_le; lia).
  assert (D : P (-53) 202 (nadd (nadd (nmul lit2 p1) alpha) beta)).
  { apply shifted; try assumption; try (split; assumption). replace (fval (nmul (@lit2 A) p1)) with 2 by (symmetry; exact Vt). lra. }
  assert (E53 : pw (-51) = 4 * pw (-53)) by (change (-51)%Z with (2 + -53)%Z; rewrite bpow_plus; reflexivity).
  assert (E48 : pw (-48) = 8 * pw (-51)) by (change (-48)%Z with (3 + -51)%Z; rewrite bpow_plus; reflexivity).
  assert (E50 : pw (-50) = 2 * pw (-51)) by (change (-50)%Z with (1 + -51)%Z; rewrite bpow_plus; reflexivity).
  pose proof (bpow_gt_0 radix2 (-53)) as G53.
  assert (S51 : pw (-51) <= / 8) by (change (/ 8) with (pw (-3)); apply pw_le; lia).
  assert (F50 : fmt (1 + pw (-50))).
  { replace (1 + pw (-50)) with (IZR (2 ^ 50 + 1) * pw (-50)).
    - apply fmt_dyadic; lia.
    - rewrite plus_IZR. change (IZR (2 ^ 50)) with (pw 50). rewrite Rmult_plus_distr_r, <- bpow_plus. simpl. lra. }
  assert (F50' : fmt (1 - pw (-50))).
  { replace (1 - pw (-50)) with (IZR (2 ^ 50 - 1) * pw (-50)).
    - apply fmt_dyadic; lia.
    - rewrite minus_IZR. change (IZR (2 ^ 50)) with (pw 50). rewrite Rmult_minus_distr_r, <- bpow_plus. simpl. lra. }
  assert (K200 : 1 <= pw 200 /\ 1 <= pw 201 /\ pw 201 = 2 * pw 200 /\ pw 202 = 2 * pw 201 /\ pw 60 <= pw 200).
  { split; [|split; [|split; [|split]]].
    - change 1 with (pw 0); apply pw_le; lia. - change 1 with (pw 0); apply pw_le; lia.
    - change 201%Z with (1 + 200)%Z. rewrite bpow_plus. reflexivity. - change 202%Z with (1 + 201)%Z. rewrite bpow_plus. reflexivity.
    - apply pw_le; lia. }
  (* the two sums *)
  assert (T : ffin (nadd (nmul lit2 p1) alpha) /\ fval (nadd (nmul lit2 p1) alpha) = rnd (2 + fval alpha) /\ 1 <= fval (nadd (nmul lit2 p1) alpha) <= pw 201).
  { assert (I : inr 1 (pw 201) (nadd (nmul lit2 p1) alpha)).
    { apply add_in; try assumption; [apply (fmt_Z 1); lia|apply fmt_bpow; lia|apply (nbig_pos 0)|apply big_le; lia|].
      replace (fval (nmul (@lit2 A) p1)) with 2 by (symmetry; exact Vt). lra. }
    split; [apply I|split; [|apply I]]. destruct (add_finite_inv be (nmul lit2 p1) alpha (proj1 I)) as (_ & _ & _ & E).
    refine (eq_trans E _). replace (fval (nmul (@lit2 A) p1)) with 2 by (symmetry; exact Vt). reflexivity. }
  assert (U : ffin (nadd p1 alpha) /\ fval (nadd p1 alpha) = rnd (1 + fval alpha) /\ 0 <= fval (nadd p1 alpha) <= pw 201).
  { assert (I : inr 0 (pw 201) (nadd p1 alpha)).
    { apply add_in; try assumption; [apply fmt_0|apply fmt_bpow; lia|apply nbig_0|apply big_le; lia|]. rewrite Vp. lra. }
    split; [apply I|split; [|apply I]]. destruct (add_finite_inv be p1 alpha (proj1 I)) as (_ & _ & _ & E).
    refine (eq_trans E _). rewrite Vp. reflexivity. }
  destruct T as (FT & VT & BT). destruct U as (FU & VU & BU).
  apply off_bound; try assumption.
  - split; [exact Fp|]. rewrite Vp. change (pw 0) with 1. lra.
  - apply plus_param; try assumption; [rewrite Vp; lra|split; assumption].
  - apply plus_param; try assumption; [rewrite Vp; lra|split; assumption].
  - now apply plus_one.
  - destruct (Rle_or_lt 0 (fval alpha + fval beta + 1)) as [Hp|Hn].
    + rewrite Rabs_pos_eq in Hs by exact Hp. left.
      assert (R1 : 0 <= fval (nadd p1 alpha) + fval beta).
      { destruct (Rle_or_lt (fval alpha) 2) as [L|G].
        - pose proof (err4 (1 + fval alpha) ltac:(apply Rabs_le; lra)) as E. apply Rabs_le_inv in E. rewrite VU. lra.
        - assert (1 <= fval (nadd p1 alpha)); [|lra]. rewrite VU. apply (rnd_in 1 (pw 201) (1 + fval alpha)); [apply (fmt_Z 1); lia|apply fmt_bpow; lia|lra]. }
      assert (R2 : 1 + pw (-50) <= fval (nadd (nmul lit2 p1) alpha) + fval beta).
      { destruct (Rle_or_lt (fval alpha) 2) as [L|G].
        - pose proof (err4 (2 + fval alpha) ltac:(apply Rabs_le; lra)) as E. apply Rabs_le_inv in E. rewrite VT. lra.
        - assert (3 <= fval (nadd (nmul lit2 p1) alpha)); [|lra]. rewrite VT. apply (rnd_in 3 (pw 201) (2 + fval alpha)); [apply (fmt_Z 3); lia|apply fmt_bpow; lia|lra]. }
      split.
      * apply add_in; try assumption; [apply fmt_0|apply fmt_bpow; lia|apply nbig_0|apply big_le; lia|lra].
      * assert (I : inr (1 + pw (-50)) (pw 202) (nadd (nadd (nmul lit2 p1) alpha) beta)).
        { apply add_in; try assumption; [apply fmt_bpow; lia| |apply big_le; lia|lra]. pose proof nbig_0. lra. }
        destruct I as [FI I]. eapply (P_weaken (-50) 202); [lia|lia|].
        apply sub_in; try assumption; [apply fmt_bpow; lia|apply fmt_bpow; lia|apply nbig_pos|apply big_le; lia|].
        replace (fval (@lit1 A)) with 1 by (symmetry; exact V1). lra.
    + rewrite Rabs_left in Hs by exact Hn. right.
      pose proof (err4 (1 + fval alpha) ltac:(apply Rabs_le; lra)) as E1. apply Rabs_le_inv in E1.
      pose proof (err4 (2 + fval alpha) ltac:(apply Rabs_le; lra)) as E2. apply Rabs_le_inv in E2.
      assert (I : inr (pw (-53)) (1 - pw (-50)) (nadd (nadd (nmul lit2 p1) alpha) beta)).
      { apply add_in; try assumption; [apply fmt_bpow; lia|apply nbig_pos|  |].
        - pose proof (big_le 0 ltac:(lia)). change (pw 0) with 1 in *. lra.
        - rewrite VT. split; [|lra]. rewrite <- VT. lra. }
      destruct I as [FI I].
      split; [|].
      * apply add_in; try assumption; [apply fmt_opp, fmt_bpow; lia|apply fmt_0|apply nbig_le; lia|apply big_0|].
        split; [lra|]. rewrite VU. lra.
      * assert (J : inr (- pw 1) (- pw (-50)) (nsub (nadd (nadd (nmul lit2 p1) alpha) beta) lit1)).
        { apply sub_in; try assumption; [apply fmt_opp, fmt_bpow; lia|apply fmt_opp, fmt_bpow; lia|apply nbig_le; lia| |].
          - pose proof big_0. lra.
          - replace (fval (@lit1 A)) with 1 by (symmetry; exact V1). change (pw 1) with 2. lra. }
        destruct J as [FJ J]. split; [exact FJ|]. pose proof (pw_le (-60) (-50) ltac:(lia)). lra.
Qed.
End J.
