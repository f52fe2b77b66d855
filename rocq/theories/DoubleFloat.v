(** Nested Newton-Cotes rules in double arithmetic. *)
From Coq Require Import Reals ZArith List Lia Lra.
From Coquelicot Require Import Coquelicot.
From Flocq Require Import Core.
From Verif Require Import Arith F64 F64Spec F64Proof Machine Rules Par NewtonCotes IntegrateSpec NCSpec InsideSpec NCFloatSpec NCFloat NCFloatEnd FinSpec FiniteCall ErrorSpec LegConv LipSpec LipLeg DoubleSpec DoubleFloatSpec.
Local Open Scope R_scope.

Lemma lip_int : forall a b K f, a <= b -> 0 <= K -> lipschitz_on a b K f -> ex_RInt f a b.
Proof.
  intros a b K f Hab HK H. apply continuous_on_int. intros x Hx eps He. unfold closed_between in Hx. rewrite Rmin_left, Rmax_right in Hx by exact Hab.
  assert (Dp : 0 < eps / (K + 1)) by (apply Rdiv_lt_0_compat; lra).
  exists (eps / (K + 1)). split; [exact Dp|]. intros y Hy Hyx. unfold closed_between in Hy. rewrite Rmin_left, Rmax_right in Hy by exact Hab.
  eapply Rle_lt_trans; [apply H; assumption|]. apply Rle_lt_trans with ((K + 1) * Rabs (y - x)); [pose proof (Rabs_pos (y - x)); nra|].
  apply Rmult_lt_compat_l with (r := K + 1) in Hyx; [|lra]. replace ((K + 1) * (eps / (K + 1))) with eps in Hyx by (field; lra). exact Hyx.
Qed.
Section Nested.
Variable be : Backend.
Notation A := (F64 be).
Lemma returns_finite : forall V n (g : A -> A) (a b result : A), plain_interval n a b -> moderate_bounds a b -> tame (inside a b) g -> nc_returns be V n g a b result -> ffin result.
Proof.
  intros V n g a b result P Mb T [[_ H]|[[_ H]|[_ H]]].
  - exact (midpoint_finite be n a b g P Mb T result H).
  - exact (trapezoid_finite be n a b g P Mb T result H).
  - exact (simpson_finite be n a b g P Mb T result H).
Qed.
Lemma returns_close : forall V n (g : A -> A) (a b result : A) G e L B, plain_interval n a b -> computes g G a b e L B -> nc_returns be V n g a b result -> ffin result ->
  Rabs (fval result - V (Z.to_nat n) (fval a) (fval b) G) <= float_excess n (fval a) (fval b) e L B.
Proof.
  intros V n g a b result G e L B P C [[-> H]|[[-> H]|[-> H]]] F.
  - exact (midpoint_close be n a b g G e L B P C result H F).
  - exact (trapezoid_close be n a b g G e L B P C result H F).
  - exact (simpson_close be n a b g G e L B P C result H F).
Qed.
Lemma returns_lip : forall V n (g : A -> A) (a b result : A) f K, nc_returns be V n g a b result -> (1 <= n)%Z -> fval a <= fval b -> 0 <= K -> lipschitz_on (fval a) (fval b) K f ->
  Rabs (V (Z.to_nat n) (fval a) (fval b) f - RInt f (fval a) (fval b)) <= (fval b - fval a) ^ 2 / (4 * IZR n) * K.
Proof.
  intros V n g a b result f K H Hn Hab HK HL. assert (X := lip_int _ _ K f Hab HK HL).
  assert (N := newton_cotes_lip f (fval a) (fval b) (Z.to_nat n) K Hab ltac:(lia) X HL). rewrite INR_IZR_INZ, Z2Nat.id in N by lia.
  destruct N as (N1 & N2 & N3). destruct H as [[-> _]|[[-> _]|[-> _]]]; assumption.
Qed.
Theorem double_float : forall V1 V2 n m (a b c d : A) (g : A -> A -> A) G e Lx Ly B (q : A -> A) (result : A),
  plain_interval n a b -> plain_interval m c d -> moderate_bounds a b -> moderate_bounds c d -> fval a <= fval b -> fval c <= fval d ->
  computes2 g G a b c d e Lx Ly B ->
  let W := fval d - fval c in let E := (fval d - fval c) ^ 2 / (4 * IZR m) * Ly + float_excess m (fval c) (fval d) e Ly B in
  B + e <= bpow radix2 900 -> W * B + E <= bpow radix2 900 ->
  (forall x, inside a b x -> nc_returns be V2 m (g x) c d (q x)) -> nc_returns be V1 n q a b result ->
  ffin result /\
  Rabs (fval result - region_integral (fval a) (fval b) (fun _ => fval c) (fun _ => fval d) G) <=
    (fval b - fval a) ^ 2 / (4 * IZR n) * (W * Lx) + float_excess n (fval a) (fval b) E (W * Lx) (W * B).
Proof.
  intros V1 V2 n m a b c d g G e Lx Ly B q result P1 P2 M1 M2 Hab Hcd (HLx & HLy & Hg & HGx & HGy & HB) W E S1 S2 Hq Hr.
  assert (W0 : 0 <= W) by (unfold W; lra). pose proof P1 as ((Hn & _) & _). pose proof P2 as ((Hm & _) & _).
  assert (BT : forall u v x, u <= v -> u <= x <= v -> between u v x) by (intros u v x H1 H2; unfold between; rewrite Rmin_left, Rmax_right; assumption).
  assert (TB : forall u v x, u <= v -> between u v x -> u <= x <= v) by (intros u v x H1 H2; unfold between in H2; rewrite Rmin_left, Rmax_right in H2; assumption).
  set (H := fun x => RInt (G x) (fval c) (fval d)).
  assert (LG : forall x, between (fval a) (fval b) x -> lipschitz_on (fval c) (fval d) Ly (G x)) by (intros x Hx y z Hy Hz; apply HGy; auto).
  assert (XG : forall x, between (fval a) (fval b) x -> ex_RInt (G x) (fval c) (fval d)) by (intros x Hx; apply (lip_int _ _ Ly); auto).
  assert (HH : forall x, between (fval a) (fval b) x -> Rabs (H x) <= W * B) by (intros x Hx; apply abs_RInt_le_const; auto).
  assert (LH : forall x z, between (fval a) (fval b) x -> between (fval a) (fval b) z -> Rabs (H x - H z) <= W * Lx * Rabs (x - z)).
  { intros x z Hx Hz. unfold H. replace (RInt (G x) (fval c) (fval d) - RInt (G z) (fval c) (fval d)) with (RInt (fun y => G x y - G z y) (fval c) (fval d)).
    - rewrite Rmult_assoc. apply abs_RInt_le_const; [exact Hcd|exact (ex_RInt_minus (V := R_NormedModule) _ _ _ _ (XG x Hx) (XG z Hz))|]. intros y Hy. apply HGx; auto.
    - exact (RInt_minus (V := R_CompleteNormedModule) _ _ _ _ (XG x Hx) (XG z Hz)). }
  assert (CQ : forall x, inside a b x -> ffin (q x) /\ Rabs (fval (q x) - H (fval x)) <= E).
  { intros x Hx. assert (F : ffin (q x)).
    { apply (returns_finite V2 m (g x) c d); [exact P2|exact M2| |apply Hq, Hx]. intros y Hy. destruct (Hg x y Hx Hy) as [F1 F2]. split; [exact F1|].
      assert (F3 := HB (fval x) (fval y) (proj2 Hx) (proj2 Hy)). replace (fval (g x y)) with ((fval (g x y) - G (fval x) (fval y)) + G (fval x) (fval y)) by ring.
      eapply Rle_trans; [apply Rabs_triang|]. lra. }
    split; [exact F|]. assert (C : computes (g x) (G (fval x)) c d e Ly B).
    { split; [exact HLy|]. split; [intros y Hy; apply Hg; assumption|]. split; [intros y z Hy Hz; apply HGy; auto; apply Hx|intros y Hy; apply HB; auto; apply Hx]. }
    assert (Q1 := returns_close V2 m (g x) c d (q x) _ e Ly B P2 C (Hq x Hx) F).
    assert (Q2 := returns_lip V2 m (g x) c d (q x) (G (fval x)) Ly (Hq x Hx) Hm Hcd HLy (LG _ (proj2 Hx))). fold (H (fval x)) in Q2.
    unfold E. revert Q1 Q2. generalize (V2 (Z.to_nat m) (fval c) (fval d) (G (fval x))). intros v Q1 Q2. apply Rabs_le_between in Q1. apply Rabs_le_between in Q2. apply Rabs_le_between. lra. }
  assert (F : ffin result).
  { apply (returns_finite V1 n q a b); [exact P1|exact M1| |exact Hr]. intros x Hx. destruct (CQ x Hx) as [F1 F2]. split; [exact F1|]. assert (F3 := HH (fval x) (proj2 Hx)).
    replace (fval (q x)) with ((fval (q x) - H (fval x)) + H (fval x)) by ring. eapply Rle_trans; [apply Rabs_triang|]. lra. }
  split; [exact F|]. assert (L0 : 0 <= W * Lx) by (apply Rmult_le_pos; assumption).
  assert (C : computes q H a b E (W * Lx) (W * B)).
  { split; [exact L0|]. split; [intros x Hx; apply CQ, Hx|]. split; [exact LH|exact HH]. }
  assert (Q1 := returns_close V1 n q a b result H E _ _ P1 C Hr F).
  assert (Q2 := returns_lip V1 n q a b result H (W * Lx) Hr Hn Hab L0 ltac:(intros x z Hx Hz; apply LH; auto)). change (RInt H (fval a) (fval b)) with (region_integral (fval a) (fval b) (fun _ => fval c) (fun _ => fval d) G) in Q2.
  revert Q1 Q2. generalize (V1 (Z.to_nat n) (fval a) (fval b) H). intros v Q1 Q2. apply Rabs_le_between in Q1. apply Rabs_le_between in Q2. apply Rabs_le_between. lra.
Qed.
End Nested.
