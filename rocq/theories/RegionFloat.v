(** Regions with computed boundaries. *)
From Coq Require Import Reals ZArith List Lia Lra.
From Coquelicot Require Import Coquelicot.
From Flocq Require Import Core.
From Verif Require Import Arith F64 F64Spec Machine Rules Par NewtonCotes IntegrateSpec NCSpec InsideSpec NCFloatSpec FinSpec LipSpec DoubleSpec DoubleFloatSpec DoubleFloat.
Local Open Scope R_scope.

Section OneVariable.
Variables (lo hi K B : R) (f : R -> R).
Hypothesis HK : 0 <= K.
Hypothesis Hf : lipschitz_on lo hi K f.
Hypothesis Hb : forall x, lo <= x <= hi -> Rabs (f x) <= B.
Lemma int_part : forall u v, lo <= u <= hi -> lo <= v <= hi -> ex_RInt f u v.
Proof.
  assert (Q : forall u v, u <= v -> lo <= u <= hi -> lo <= v <= hi -> ex_RInt f u v) by (intros u v H Hu Hv; apply (lip_int u v K); [exact H|exact HK|intros x y Hx Hy; apply Hf; lra]).
  intros u v Hu Hv. destruct (Rle_dec u v); [apply Q; assumption|]. apply ex_RInt_swap, Q; [lra|assumption|assumption].
Qed.
Lemma int_small : forall u v, lo <= u <= hi -> lo <= v <= hi -> Rabs (RInt f u v) <= B * Rabs (v - u).
Proof.
  assert (Q : forall u v, u <= v -> lo <= u <= hi -> lo <= v <= hi -> Rabs (RInt f u v) <= B * Rabs (v - u)).
  { intros u v H Hu Hv. rewrite (Rabs_pos_eq (v - u)), Rmult_comm by lra. apply abs_RInt_le_const; [exact H|apply int_part; assumption|]. intros x Hx. apply Hb. lra. }
  intros u v Hu Hv. destruct (Rle_dec u v); [apply Q; assumption|]. assert (S := opp_RInt_swap (V := R_CompleteNormedModule) f v u (int_part v u Hv Hu)). change (- RInt f v u = RInt f u v) in S.
  rewrite <- S, Rabs_Ropp, Rabs_minus_sym. apply Q; [lra|assumption|assumption].
Qed.
Lemma int_bounds : forall u v p q, lo <= u <= hi -> lo <= v <= hi -> lo <= p <= hi -> lo <= q <= hi -> Rabs (RInt f u v - RInt f p q) <= B * Rabs (u - p) + B * Rabs (v - q).
Proof.
  intros u v p q Hu Hv Hp Hq. assert (C1 := RInt_Chasles (V := R_CompleteNormedModule) f u p v (int_part u p Hu Hp) (int_part p v Hp Hv)).
  assert (C2 := RInt_Chasles (V := R_CompleteNormedModule) f p q v (int_part p q Hp Hq) (int_part q v Hq Hv)).
  change (RInt f u p + RInt f p v = RInt f u v) in C1. change (RInt f p q + RInt f q v = RInt f p v) in C2.
  assert (S1 := int_small u p Hu Hp). assert (S2 := int_small q v Hq Hv). rewrite (Rabs_minus_sym p u) in S1.
  replace (RInt f u v - RInt f p q) with (RInt f u p + RInt f q v) by lra. eapply Rle_trans; [apply Rabs_triang|]. lra.
Qed.
End OneVariable.
Lemma excess_mono : forall m c d lo hi e L B, (1 <= m)%Z -> lo <= c -> c <= d -> d <= hi -> 0 <= e -> 0 <= L -> 0 <= B ->
  float_excess m c d e L B <= float_excess m lo hi e (2 * L) B.
Proof.
  intros m c d lo hi e L B Hm H1 H2 H3 He HL HB. unfold float_excess. rewrite !(Rabs_pos_eq (_ - _)) by lra.
  assert (M : 1 <= IZR m) by (apply IZR_le, Hm).
  assert (S : Rabs c + Rabs d <= 2 * (Rabs lo + Rabs hi)).
  { pose proof (Rle_abs lo). pose proof (Rle_abs hi). pose proof (Rle_abs (- lo)). pose proof (Rle_abs (- hi)). rewrite Rabs_Ropp in *. assert (forall z, lo <= z <= hi -> Rabs z <= Rabs lo + Rabs hi) as T by (intros z Hz; pose proof (Rabs_pos lo); pose proof (Rabs_pos hi); apply Rabs_le; lra).
    pose proof (T c ltac:(lra)). pose proof (T d ltac:(lra)). lra. }
  assert (U := bpow_ge_0 radix2 (-50)). assert (V := bpow_ge_0 radix2 (-52)). assert (W := bpow_ge_0 radix2 (-1074)).
  apply Rplus_le_compat; [apply Rplus_le_compat|].
  - apply Rmult_le_compat; [lra| |lra|].
    + apply Rplus_le_le_0_compat; [exact He|]. apply Rmult_le_pos; [exact HL|]. apply Rmult_le_pos; [exact U|]. pose proof (Rabs_pos c). pose proof (Rabs_pos d). lra.
    + apply Rplus_le_compat_l. replace (2 * L * (bpow radix2 (-50) * (Rabs lo + Rabs hi))) with (L * (bpow radix2 (-50) * (2 * (Rabs lo + Rabs hi)))) by ring.
      apply Rmult_le_compat_l; [exact HL|]. apply Rmult_le_compat_l; [exact U|exact S].
  - apply Rmult_le_compat_l; [apply Rmult_le_pos; lra|]. apply Rmult_le_compat_r; lra.
  - apply Rmult_le_compat_r; lra.
Qed.
Theorem region_float : forall (be : Backend) V1 V2 n m (a b : F64 be) (c d : F64 be -> F64 be) C D (g : F64 be -> F64 be -> F64 be) G lo hi e eb Lx Ly Lb B (q : F64 be -> F64 be) (result : F64 be),
  plain_interval n a b -> moderate_bounds a b -> fval a <= fval b ->
  computes_region m c d C D g G a b lo hi e eb Lx Ly Lb B ->
  let W := hi - lo in let E := W ^ 2 / (4 * IZR m) * Ly + float_excess m lo hi e (2 * Ly) B + 2 * B * eb in let L := W * Lx + 2 * B * Lb in
  B + e <= bpow radix2 900 -> W * B + E <= bpow radix2 900 ->
  (forall x, inside a b x -> nc_returns be V2 m (g x) (c x) (d x) (q x)) -> nc_returns be V1 n q a b result ->
  ffin result /\
  Rabs (fval result - region_integral (fval a) (fval b) C D G) <= (fval b - fval a) ^ 2 / (4 * IZR n) * L + float_excess n (fval a) (fval b) E L (W * B).
Proof.
  intros be V1 V2 n m a b c d C D g G lo hi e eb Lx Ly Lb B q result P1 M1 Hab (HLx & HLy & HLb & Hcd & HCD & HLC & Hg & HGx & HGy & HB) W E L S1 S2 Hq Hr.
  pose proof P1 as ((Hn & _) & Fa & _).
  assert (BT : forall x, fval a <= x <= fval b -> between (fval a) (fval b) x) by (intros x H; unfold between; rewrite Rmin_left, Rmax_right; assumption).
  assert (Ia : inside a b a) by (split; [exact Fa|apply BT; lra]).
  assert (B0 : 0 <= B) by (destruct (HCD (fval a) (proj2 Ia)) as [Z _]; pose proof (HB (fval a) (C (fval a)) (proj2 Ia) Z); pose proof (Rabs_pos (G (fval a) (C (fval a)))); lra).
  assert (W0 : 0 <= W) by (destruct (HCD (fval a) (proj2 Ia)) as [Z _]; unfold W; lra).
  assert (E0 : 0 <= e) by (destruct (Hcd a Ia) as ((_ & Fc & _) & _ & Z1 & Z2 & _); destruct (Hg a (c a) Ia Fc ltac:(lra)) as [_ Z]; pose proof (Rabs_pos (fval (g a (c a)) - G (fval a) (fval (c a)))); lra).
  set (H := fun x => RInt (G x) (C x) (D x)).
  assert (LG : forall x, between (fval a) (fval b) x -> lipschitz_on lo hi Ly (G x)) by (intros x Hx y z Hy Hz; apply HGy; auto).
  assert (HH : forall x, between (fval a) (fval b) x -> Rabs (H x) <= W * B).
  { intros x Hx. destruct (HCD x Hx) as [Z1 Z2]. eapply Rle_trans; [apply (int_small lo hi Ly B (G x) HLy (LG x Hx)); auto|]. rewrite Rmult_comm. apply Rmult_le_compat_r; [exact B0|]. apply Rabs_le. unfold W. lra. }
  assert (LH : forall x z, between (fval a) (fval b) x -> between (fval a) (fval b) z -> Rabs (H x - H z) <= L * Rabs (x - z)).
  { intros x z Hx Hz. destruct (HCD x Hx) as [X1 X2]. destruct (HCD z Hz) as [Z1 Z2]. destruct (HLC x z Hx Hz) as [T1 T2].
    assert (Q1 := int_bounds lo hi Ly B (G x) HLy (LG x Hx) (fun y => HB x y Hx) (C x) (D x) (C z) (D z) X1 X2 Z1 Z2).
    assert (Q2 : Rabs (RInt (G x) (C z) (D z) - RInt (G z) (C z) (D z)) <= W * Lx * Rabs (x - z)).
    { assert (XM := RInt_minus (V := R_CompleteNormedModule) (G x) (G z) (C z) (D z) (int_part lo hi Ly (G x) HLy (LG x Hx) _ _ Z1 Z2) (int_part lo hi Ly (G z) HLy (LG z Hz) _ _ Z1 Z2)).
      change (RInt (fun y => G x y - G z y) (C z) (D z) = RInt (G x) (C z) (D z) - RInt (G z) (C z) (D z)) in XM. rewrite <- XM.
      eapply Rle_trans; [apply (int_small lo hi (Ly + Ly) (Lx * Rabs (x - z)) (fun y => G x y - G z y)); [lra| | |exact Z1|exact Z2]|].
      - intros u v Hu Hv. replace (G x u - G z u - (G x v - G z v)) with ((G x u - G x v) + - (G z u - G z v)) by ring. eapply Rle_trans; [apply Rabs_triang|]. rewrite Rabs_Ropp.
        pose proof (HGy x u v Hx Hu Hv). pose proof (HGy z u v Hz Hu Hv). lra.
      - intros y Hy. apply HGx; assumption.
      - replace (W * Lx * Rabs (x - z)) with (Lx * Rabs (x - z) * W) by ring. apply Rmult_le_compat_l; [apply Rmult_le_pos; [exact HLx|apply Rabs_pos]|]. apply Rabs_le. unfold W. lra. }
    assert (Q3 : B * Rabs (C x - C z) <= B * (Lb * Rabs (x - z))) by (apply Rmult_le_compat_l; assumption).
    assert (Q4 : B * Rabs (D x - D z) <= B * (Lb * Rabs (x - z))) by (apply Rmult_le_compat_l; assumption).
    unfold H, L. replace (RInt (G x) (C x) (D x) - RInt (G z) (C z) (D z)) with ((RInt (G x) (C x) (D x) - RInt (G x) (C z) (D z)) + (RInt (G x) (C z) (D z) - RInt (G z) (C z) (D z))) by ring.
    eapply Rle_trans; [apply Rabs_triang|]. lra. }
  assert (CQ : forall x, inside a b x -> ffin (q x) /\ Rabs (fval (q x) - H (fval x)) <= E).
  { intros x Hx. destruct (Hcd x Hx) as (P2 & M2 & Z1 & Z2 & Z3 & Z4). pose proof P2 as ((Hm & _) & Fc & Fd & _). destruct (HCD _ (proj2 Hx)) as [Y1 Y2].
    assert (IN : forall y, between (fval (c x)) (fval (d x)) y -> lo <= y <= hi) by (intros y Hy; unfold between in Hy; rewrite Rmin_left, Rmax_right in Hy by lra; lra).
    assert (F : ffin (q x)).
    { apply (returns_finite be V2 m (g x) (c x) (d x)); [exact P2|exact M2| |apply Hq, Hx]. intros y [Fy Hy]. destruct (Hg x y Hx Fy (IN _ Hy)) as [F1 F2]. split; [exact F1|].
      assert (F3 := HB (fval x) (fval y) (proj2 Hx) (IN _ Hy)). replace (fval (g x y)) with ((fval (g x y) - G (fval x) (fval y)) + G (fval x) (fval y)) by ring.
      eapply Rle_trans; [apply Rabs_triang|]. lra. }
    split; [exact F|]. assert (CC : computes (g x) (G (fval x)) (c x) (d x) e Ly B).
    { split; [exact HLy|]. split; [intros y [Fy Hy]; apply Hg; auto|]. split; [intros y z Hy Hz; apply HGy; auto; apply Hx|intros y Hy; apply HB; auto; apply Hx]. }
    assert (Q1 := returns_close be V2 m (g x) (c x) (d x) (q x) _ e Ly B P2 CC (Hq x Hx) F).
    assert (Q1' := excess_mono m (fval (c x)) (fval (d x)) lo hi e Ly B Hm ltac:(lra) ltac:(lra) ltac:(lra) E0 HLy B0).
    assert (Q2 := returns_lip be V2 m (g x) (c x) (d x) (q x) (G (fval x)) Ly (Hq x Hx) Hm ltac:(lra) HLy ltac:(intros y z Hy Hz; apply (LG _ (proj2 Hx)); lra)).
    assert (Q2' : (fval (d x) - fval (c x)) ^ 2 / (4 * IZR m) * Ly <= W ^ 2 / (4 * IZR m) * Ly).
    { apply Rmult_le_compat_r; [exact HLy|]. apply Rmult_le_compat_r; [left; apply Rinv_0_lt_compat; assert (1 <= IZR m) by (apply IZR_le, Hm); lra|]. apply pow_incr. unfold W. lra. }
    assert (Q3 := int_bounds lo hi Ly B (G (fval x)) HLy (LG _ (proj2 Hx)) (fun y => HB _ y (proj2 Hx)) (fval (c x)) (fval (d x)) _ _ ltac:(lra) ltac:(lra) Y1 Y2). fold (H (fval x)) in Q3.
    assert (Q4 : B * Rabs (fval (c x) - C (fval x)) <= B * eb) by (apply Rmult_le_compat_l; assumption). assert (Q5 : B * Rabs (fval (d x) - D (fval x)) <= B * eb) by (apply Rmult_le_compat_l; assumption).
    unfold E. revert Q1 Q2 Q3. generalize (V2 (Z.to_nat m) (fval (c x)) (fval (d x)) (G (fval x))) (RInt (G (fval x)) (fval (c x)) (fval (d x))). intros v w Q1 Q2 Q3. apply Rabs_le_between in Q1. apply Rabs_le_between in Q2. apply Rabs_le_between in Q3. apply Rabs_le_between. lra. }
  assert (F : ffin result).
  { apply (returns_finite be V1 n q a b); [exact P1|exact M1| |exact Hr]. intros x Hx. destruct (CQ x Hx) as [F1 F2]. split; [exact F1|]. assert (F3 := HH (fval x) (proj2 Hx)).
    replace (fval (q x)) with ((fval (q x) - H (fval x)) + H (fval x)) by ring. eapply Rle_trans; [apply Rabs_triang|]. lra. }
  split; [exact F|]. assert (L0 : 0 <= L) by (unfold L; apply Rplus_le_le_0_compat; apply Rmult_le_pos; lra).
  assert (CC : computes q H a b E L (W * B)).
  { split; [exact L0|]. split; [intros x Hx; apply CQ, Hx|]. split; [exact LH|exact HH]. }
  assert (Q1 := returns_close be V1 n q a b result H E _ _ P1 CC Hr F).
  assert (Q2 := returns_lip be V1 n q a b result H L Hr Hn Hab L0 ltac:(intros x z Hx Hz; apply LH; auto)). change (RInt H (fval a) (fval b)) with (region_integral (fval a) (fval b) C D G) in Q2.
  revert Q1 Q2. generalize (V1 (Z.to_nat n) (fval a) (fval b) H). intros v Q1 Q2. apply Rabs_le_between in Q1. apply Rabs_le_between in Q2. apply Rabs_le_between. lra.
Qed.
