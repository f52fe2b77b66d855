(** The gamma function in exact arithmetic: sign and reflection formula. *)
From Coq Require Import Reals Lra Lia List ZArith.
From Verif Require Import Arith RInst RInstProof Gamma.
Import ListNotations.
Local Open Scope R_scope.

(** the sum of src/math.rs:128-132 *)
Definition lanczos (y : R) : R := @gamma_fold RA (fun k => y + IZR k - 1).
Definition lanczos_num (y : R) : R :=
  (3815406633973526847360000000000+ y*(3655053526962568929116332872960+ y*(1575679994936009667908241601152+ y*(402538353814262230419059088272+ y*(67487675259344928071552026752+ y*(7758779405455435925318409372+ y*(619452889142176590271748208+ y*(33913662440149807928698488+ y*(1218480703644286314602208+ y*(25943405088086494459228+ y*(248574089138753550000))))))))))).
Definition lanczos_den (y : R) : R :=
  10000000000000000000000000 * (y * (y + 1) * (y + 2) * (y + 3) * (y + 4) * (y + 5) * (y + 6) * (y + 7) * (y + 8) * (y + 9)).

Lemma lanczos_frac : forall y, 0 < y -> lanczos y = lanczos_num y / lanczos_den y.
Proof.
  intros y Hy. unfold lanczos, gamma_fold, gamma_dk. cbn [length seq map combine fold_left fst snd Z.of_nat Pos.of_succ_nat Pos.succ].
  simpl nadd. simpl ndiv. simpl nlit. unfold R_lit. simpl.
  unfold lanczos_num, lanczos_den. field. repeat split; lra.
Qed.
Lemma lanczos_pos : forall y, 0 < y -> 0 < lanczos y.
Proof.
  intros y Hy. rewrite lanczos_frac by exact Hy. apply Rdiv_lt_0_compat.
  - unfold lanczos_num. repeat (apply Rplus_lt_0_compat; [lra|apply Rmult_lt_0_compat; [exact Hy|]]). lra.
  - unfold lanczos_den. repeat (apply Rmult_lt_0_compat; try lra).
Qed.

Definition gamma_c : R := 18603827342052657 / 10000000000000000.
Definition gamma_g : R := 10900511 / 1000000.
Lemma gamma_hi : forall x, / 2 <= x -> @gamma RA x = lanczos x * gamma_c * Rpower ((x - / 2 + gamma_g) / exp 1) (x - / 2).
Proof.
  intros x Hx. unfold gamma.
  destruct (@nlt RA x lit_half) eqn:E; [apply (proj1 (ra_nlt _ _)) in E; rewrite ra_half in E; exfalso; assert (x < / 2) by exact E; lra|].
  rewrite ra_half. reflexivity.
Qed.
Lemma gamma_lo : forall x, x < / 2 -> @gamma RA x =
  PI / (sin (PI * x) * lanczos (1 - x) * gamma_c * Rpower ((/ 2 - x + gamma_g) / exp 1) (/ 2 - x)).
Proof.
  intros x Hx. unfold gamma.
  destruct (@nlt RA x lit_half) eqn:E; [|apply (proj1 (ra_nlt_false _ _)) in E; rewrite ra_half in E; exfalso; assert (/ 2 <= x) by exact E; lra].
  rewrite ra_half.
  assert (F : @gamma_fold RA (fun k => @nsub RA (nofZ k) x) = lanczos (1 - x)).
  { unfold lanczos. f_equal. apply FunctionalExtensionality.functional_extensionality. intros k. simpl. ring. }
  rewrite F. reflexivity.
Qed.

Lemma gamma_c_pos : 0 < gamma_c. Proof. unfold gamma_c. lra. Qed.
Lemma Rpower_gt0 : forall x y, 0 < Rpower x y. Proof. intros. apply exp_pos. Qed.

Lemma sin_PI_pos : forall x, 0 < x < 1 -> 0 < sin (PI * x).
Proof. intros x Hx. assert (P := PI_RGT_0). apply sin_gt_0; nra. Qed.

Lemma gamma_pos : forall x, 0 < x -> 0 < @gamma RA x.
Proof.
  intros x Hx. assert (C := gamma_c_pos). destruct (Rlt_or_le x (/ 2)) as [H|H].
  - rewrite gamma_lo by exact H. apply Rdiv_lt_0_compat; [apply PI_RGT_0|].
    apply Rmult_lt_0_compat; [apply Rmult_lt_0_compat; [apply Rmult_lt_0_compat; [apply sin_PI_pos; lra|apply lanczos_pos; lra]|exact C]|apply Rpower_gt0].
  - rewrite gamma_hi by exact H. apply Rmult_lt_0_compat; [apply Rmult_lt_0_compat; [apply lanczos_pos; lra|exact C]|apply Rpower_gt0].
Qed.
Lemma gamma_neg : forall x, -1 < x < 0 -> @gamma RA x < 0.
Proof.
  intros x Hx. assert (C := gamma_c_pos). rewrite gamma_lo by lra.
  assert (S1 : sin (PI * x) < 0).
  { replace (PI * x) with (- (PI * (- x))) by ring. rewrite sin_neg. assert (P := sin_PI_pos (- x) ltac:(lra)). lra. }
  assert (Q : 0 < lanczos (1 - x) * gamma_c * Rpower ((/ 2 - x + gamma_g) / exp 1) (/ 2 - x))
    by (apply Rmult_lt_0_compat; [apply Rmult_lt_0_compat; [apply lanczos_pos; lra|exact C]|apply Rpower_gt0]).
  assert (D : sin (PI * x) * lanczos (1 - x) * gamma_c * Rpower ((/ 2 - x + gamma_g) / exp 1) (/ 2 - x) < 0).
  { rewrite !Rmult_assoc in *. rewrite <- (Rmult_0_r (sin (PI * x))). apply Rmult_lt_gt_compat_neg_l; [exact S1|exact Q]. }
  assert (I := Rinv_lt_0_compat _ D). assert (P := PI_RGT_0). unfold Rdiv. nra.
Qed.

(** the scale factors *)
Lemma gamma_sin_nz : forall x, (forall k : Z, x <> IZR k) -> sin (PI * x) <> 0.
Proof.
  intros x Hx E. apply sin_eq_0_0 in E. destruct E as [k Hk]. apply (Hx k).
  apply (Rmult_eq_reg_l PI); [lra|]. assert (P := PI_RGT_0). lra.
Qed.
Lemma gamma_reflect_half : forall x, (forall k : Z, x <> IZR k) -> x < / 2 -> @gamma RA x * @gamma RA (1 - x) = PI / sin (PI * x).
Proof.
  intros x Hk Hx. rewrite gamma_lo, gamma_hi by lra. replace (1 - x - / 2) with (/ 2 - x) by lra.
  assert (S1 := gamma_sin_nz x Hk). assert (L := lanczos_pos (1 - x) ltac:(lra)). assert (C := gamma_c_pos).
  assert (Rp := Rpower_gt0 ((/ 2 - x + gamma_g) / exp 1) (/ 2 - x)). 
  set (u := Rpower ((/ 2 - x + gamma_g) / exp 1) (/ 2 - x)) in *.
  change (PI / (sin (PI * x) * lanczos (1 - x) * gamma_c * u) * (lanczos (1 - x) * gamma_c * u) = PI / sin (PI * x)).
  field. repeat split; lra.
Qed.
Lemma gamma_reflect : forall x, (forall k : Z, x <> IZR k) -> x <> / 2 -> @gamma RA x * @gamma RA (1 - x) = PI / sin (PI * x).
Proof.
  intros x Hk Hx. destruct (Rlt_or_le x (/ 2)) as [H|H]; [apply gamma_reflect_half; assumption|].
  assert (Hk' : forall k : Z, 1 - x <> IZR k).
  { intros k E. apply (Hk (1 - k)%Z). rewrite minus_IZR. lra. }
  assert (G := gamma_reflect_half (1 - x) Hk' ltac:(lra)). replace (1 - (1 - x)) with x in G by ring.
  refine (eq_trans (Rmult_comm (@gamma RA x) (@gamma RA (1 - x))) (eq_trans G _)).
  replace (PI * (1 - x)) with (PI - PI * x) by ring. rewrite sin_PI_x. reflexivity.
Qed.

(** At x = 1/2 the formula fails: the square is a rational number below PI. *)
Lemma PI_lower : 31415926535897925 / 10000000000000000 < PI.
Proof.
  assert (H := proj1 (PI_2_3_7_ineq 7)).
  unfold tg_alt, PI_2_3_7_tg, Ratan_seq in H. simpl in H. lra.
Qed.
Lemma gamma_half_wrong : @gamma RA (/ 2) * @gamma RA (1 - / 2) < PI / sin (PI * / 2).
Proof.
  replace (1 - / 2) with (/ 2) by lra. rewrite gamma_hi by lra. rewrite lanczos_frac by lra.
  replace (/ 2 - / 2) with 0 by ring. assert (E : Rpower ((0 + gamma_g) / exp 1) 0 = 1) by (unfold Rpower; rewrite Rmult_0_l; apply exp_0).
  rewrite E. replace (PI * / 2) with (PI / 2) by reflexivity. rewrite sin_PI2.
  eapply Rlt_trans; [|apply (Rlt_le_trans _ _ _ PI_lower); right; field].
  unfold lanczos_num, lanczos_den, gamma_c. 
  match goal with |- ?x < _ => change (x < 31415926535897925 / 10000000000000000) end.
  lra.
Qed.
Lemma half_not_integer : forall k : Z, / 2 <> IZR k.
Proof. intros k E. assert (H : IZR (2 * k) = IZR 1) by (rewrite mult_IZR; lra). apply eq_IZR in H. lia. Qed.
