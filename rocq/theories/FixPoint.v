(** Fixed-point arithmetic with error bounds, in units of 2^-120; used to check tables. *)
From Coq Require Import Reals ZArith List Lia Lra Bool.
From Verif Require Import LegAsym Fix63.
Import ListNotations.
Local Open Scope R_scope.

Definition SC : Z := (2 ^ 120)%Z.
Notation sc := (IZR SC).
Lemma SC_pos : (0 < SC)%Z. Proof. reflexivity. Qed.
Lemma sc_val : sc = 2 ^ 120. Proof. unfold SC. rewrite (pow_IZR 2 120). reflexivity. Qed.
Lemma sc_big : 10 ^ 36 < sc. Proof. rewrite (pow_IZR 10 36). apply IZR_lt. reflexivity. Qed.
Opaque SC.
Lemma sc_pos : 0 < sc. Proof. apply (IZR_lt 0), SC_pos. Qed.

(** x approximates r * 2^120 with an error of at most e *)
Definition ap (x : Z) (r e : R) : Prop := Rabs (r * sc - IZR x) <= e.

Lemma ap_weaken : forall x r e f, ap x r e -> e <= f -> ap x r f.
Proof. unfold ap. intros. lra. Qed.
Lemma ap_nonneg : forall x r e, ap x r e -> 0 <= e.
Proof. unfold ap. intros x r e H. pose proof (Rabs_pos (r * sc - IZR x)). lra. Qed.
Lemma ap_add : forall x y r q e f, ap x r e -> ap y q f -> ap (x + y) (r + q) (e + f).
Proof.
  unfold ap. intros x y r q e f H1 H2. rewrite plus_IZR. replace ((r + q) * sc - (IZR x + IZR y)) with ((r * sc - IZR x) + (q * sc - IZR y)) by ring.
  eapply Rle_trans; [apply Rabs_triang|lra].
Qed.
Lemma ap_opp : forall x r e, ap x r e -> ap (- x) (- r) e.
Proof. unfold ap. intros x r e H. rewrite opp_IZR. replace (- r * sc - - IZR x) with (- (r * sc - IZR x)) by ring. rewrite Rabs_Ropp. exact H. Qed.
Lemma ap_sub : forall x y r q e f, ap x r e -> ap y q f -> ap (x - y) (r - q) (e + f).
Proof. intros x y r q e f H1 H2. unfold Z.sub, Rminus. apply ap_add; [exact H1|apply ap_opp; exact H2]. Qed.
Lemma ap_scal : forall k x r e, ap x r e -> ap (k * x) (IZR k * r) (Rabs (IZR k) * e).
Proof.
  unfold ap. intros k x r e H. rewrite mult_IZR. replace (IZR k * r * sc - IZR k * IZR x) with (IZR k * (r * sc - IZR x)) by ring.
  rewrite Rabs_mult. apply Rmult_le_compat_l; [apply Rabs_pos|exact H].
Qed.
Lemma ap_one : ap SC 1 0.
Proof. unfold ap. rewrite Rmult_1_l, Rminus_diag_eq, Rabs_R0 by reflexivity. lra. Qed.
Lemma floor_div : forall a d, (0 < d)%Z -> Rabs (IZR a / IZR d - IZR (a / d)) <= 1.
Proof.
  intros a d Hd. assert (D : 0 < IZR d) by (apply (IZR_lt 0); exact Hd).
  pose proof (Z.div_mod a d ltac:(lia)) as E. pose proof (Z.mod_pos_bound a d Hd) as B.
  apply (f_equal IZR) in E. rewrite plus_IZR, mult_IZR in E.
  replace (IZR a / IZR d - IZR (a / d)) with (IZR (a mod d) / IZR d) by (rewrite E; field; lra).
  assert (0 <= IZR (a mod d)) by (apply (IZR_le 0); lia). assert (IZR (a mod d) <= IZR d) by (apply IZR_le; lia).
  rewrite Rabs_pos_eq; [apply Rmult_le_reg_r with (IZR d); [exact D|]; unfold Rdiv; rewrite Rmult_assoc, Rinv_l by lra; lra|].
  apply Rmult_le_pos; [assumption|left; apply Rinv_0_lt_compat; exact D].
Qed.
Lemma ap_div : forall x r e d, (0 < d)%Z -> ap x r e -> ap (x / d) (r / IZR d) (e / IZR d + 1).
Proof.
  unfold ap. intros x r e d Hd H. assert (D : 0 < IZR d) by (apply (IZR_lt 0); exact Hd).
  replace (r / IZR d * sc - IZR (x / d)) with ((r * sc - IZR x) / IZR d + (IZR x / IZR d - IZR (x / d))) by (field; lra).
  eapply Rle_trans; [apply Rabs_triang|]. apply Rplus_le_compat; [|apply floor_div; exact Hd].
  unfold Rdiv. rewrite Rabs_mult, (Rabs_pos_eq (/ IZR d)) by (left; apply Rinv_0_lt_compat; exact D).
  apply Rmult_le_compat_r; [left; apply Rinv_0_lt_compat; exact D|exact H].
Qed.
Lemma ap_mul : forall x y r q e f a b, ap x r e -> ap y q f -> Rabs r <= a -> Rabs q <= b ->
  ap (x * y / SC) (r * q) (a * f + b * e + e * f / sc + 1).
Proof.
  unfold ap. intros x y r q e f a b H1 H2 Ha Hb. pose proof sc_pos as P.
  set (al := r * sc - IZR x) in *. set (be := q * sc - IZR y) in *.
  replace (r * q * sc - IZR (x * y / SC)) with ((r * be + q * al + - (al * be / sc)) + (IZR (x * y) / sc - IZR (x * y / SC))).
  2:{ rewrite mult_IZR. replace (IZR x) with (r * sc - al) by (unfold al; ring). replace (IZR y) with (q * sc - be) by (unfold be; ring). field. lra. }
  eapply Rle_trans; [apply Rabs_triang|]. apply Rplus_le_compat; [|apply floor_div; exact SC_pos].
  eapply Rle_trans; [apply Rabs_triang|]. apply Rplus_le_compat.
  - eapply Rle_trans; [apply Rabs_triang|]. rewrite !Rabs_mult. apply Rplus_le_compat; apply Rmult_le_compat; try apply Rabs_pos; assumption.
  - rewrite Rabs_Ropp. unfold Rdiv. rewrite !Rabs_mult, (Rabs_pos_eq (/ sc)) by (left; apply Rinv_0_lt_compat; exact P).
    apply Rmult_le_compat_r; [left; apply Rinv_0_lt_compat; exact P|]. apply Rmult_le_compat; try apply Rabs_pos; assumption.
Qed.
Lemma small_prod : forall e f, 0 <= e <= 10 ^ 9 -> 0 <= f <= 10 ^ 9 -> e * f / sc <= 1.
Proof.
  intros e f He Hf. pose proof sc_big as B. apply Rmult_le_reg_r with sc; [lra|]. unfold Rdiv. rewrite Rmult_assoc, Rinv_l by lra.
  assert (e * f <= 10 ^ 9 * 10 ^ 9) by (apply Rmult_le_compat; lra). lra.
Qed.

(** * The operations on machine numbers *)
Lemma ap_range : forall z r e, ap z r e -> Rabs r <= 16 -> e <= 10 ^ 30 -> (- 2 ^ 125 < z < 2 ^ 125)%Z.
Proof.
  intros z r e H Hr He. unfold ap in H. pose proof sc_big as SB. apply abs_upper in H as H1. apply abs_lower in H as H2.
  apply abs_upper in Hr as R1. apply abs_lower in Hr as R2.
  assert (A : r * sc <= 16 * sc) by (apply Rmult_le_compat_r; lra). assert (B : - 16 * sc <= r * sc) by (apply Rmult_le_compat_r; lra).
  assert (C : 32 * sc = IZR (2 ^ 125)) by (rewrite <- mult_IZR; reflexivity).
  split; apply lt_IZR; rewrite ?opp_IZR, <- C; lra.
Qed.
Lemma ap_fadd : forall x y r q e f, ap (sz x) r e -> ap (sz y) q f -> Rabs (r + q) <= 16 -> e + f <= 10 ^ 30 -> ap (sz (fadd x y)) (r + q) (e + f).
Proof.
  intros x y r q e f H1 H2 Hr He. pose proof (ap_add _ _ _ _ _ _ H1 H2) as H. rewrite sz_fadd; [exact H|].
  pose proof (ap_range _ _ _ H Hr He). lia.
Qed.
Lemma ap_fsub : forall x y r q e f, ap (sz x) r e -> ap (sz y) q f -> Rabs (r - q) <= 16 -> e + f <= 10 ^ 30 -> ap (sz (fsub x y)) (r - q) (e + f).
Proof.
  intros x y r q e f H1 H2 Hr He. pose proof (ap_sub _ _ _ _ _ _ H1 H2) as H. rewrite sz_fsub; [exact H|].
  pose proof (ap_range _ _ _ H Hr He). lia.
Qed.
Lemma mul_residue : forall x y, (Z.abs (sz x) <= 5 * SC)%Z -> (Z.abs (sz y) <= 5 * SC)%Z -> Rabs (IZR (sz x * sz y) / sc - IZR (sz (fmul x y))) <= 192.
Proof.
  intros x y Hx Hy. pose proof sc_pos as P.
  assert (B : (Z.abs (sz x * sz y) < 2 ^ 245)%Z).
  { rewrite Z.abs_mul. apply Z.le_lt_trans with (5 * SC * (5 * SC))%Z; [apply Z.mul_le_mono_nonneg; lia|]. reflexivity. }
  pose proof (sz_fmul x y B) as M. change (2 ^ 120)%Z with SC in M.
  replace (IZR (sz x * sz y) / sc - IZR (sz (fmul x y))) with (IZR (sz x * sz y - sz (fmul x y) * SC) / sc) by (rewrite minus_IZR, (mult_IZR _ SC); field; lra).
  unfold Rdiv. rewrite Rabs_mult, (Rabs_pos_eq (/ sc)) by (left; apply Rinv_0_lt_compat; exact P).
  apply Rmult_le_reg_r with sc; [exact P|]. rewrite Rmult_assoc, Rinv_l, Rmult_1_r by lra. rewrite <- abs_IZR, <- mult_IZR. apply IZR_le. lia.
Qed.
Lemma ap_size : forall z r e, ap z r e -> Rabs r <= 4 -> e <= 10 ^ 30 -> (Z.abs z <= 5 * SC)%Z.
Proof.
  intros z r e H Hr He. unfold ap in H. pose proof sc_big as SB. apply le_IZR. rewrite abs_IZR, mult_IZR.
  replace (IZR z) with (r * sc - (r * sc - IZR z)) by ring. unfold Rminus at 1. eapply Rle_trans; [apply Rabs_triang|]. rewrite Rabs_Ropp, Rabs_mult, (Rabs_pos_eq sc) by lra.
  assert (Rabs r * sc <= 4 * sc) by (apply Rmult_le_compat_r; lra). lra.
Qed.
(** the factors are at most a and b, the errors are small *)
Lemma ap_fmul : forall x y r q e f a b g, ap (sz x) r e -> ap (sz y) q f -> Rabs r <= a -> Rabs q <= b -> a <= 4 -> b <= 4 -> e <= 10 ^ 9 -> f <= 10 ^ 9 ->
  a * f + b * e + 193 <= g -> ap (sz (fmul x y)) (r * q) g.
Proof.
  intros x y r q e f a b g H1 H2 Ha Hb A4 B4 He Hf Hg. pose proof sc_pos as P.
  pose proof (mul_residue x y (ap_size _ _ _ H1 ltac:(lra) ltac:(lra)) (ap_size _ _ _ H2 ltac:(lra) ltac:(lra))) as M.
  pose proof (small_prod e f (conj (ap_nonneg _ _ _ H1) He) (conj (ap_nonneg _ _ _ H2) Hf)) as SM.
  unfold ap in *. set (al := r * sc - IZR (sz x)) in *. set (be := q * sc - IZR (sz y)) in *.
  replace (r * q * sc - IZR (sz (fmul x y))) with ((r * be + q * al + - (al * be / sc)) + (IZR (sz x * sz y) / sc - IZR (sz (fmul x y)))).
  2:{ rewrite mult_IZR. replace (IZR (sz x)) with (r * sc - al) by (unfold al; ring). replace (IZR (sz y)) with (q * sc - be) by (unfold be; ring). field. lra. }
  eapply Rle_trans; [apply Rabs_triang|]. apply Rle_trans with ((a * f + b * e + 1) + 192); [|lra]. apply Rplus_le_compat; [|exact M].
  eapply Rle_trans; [apply Rabs_triang|]. apply Rplus_le_compat.
  - eapply Rle_trans; [apply Rabs_triang|]. rewrite !Rabs_mult. apply Rplus_le_compat; apply Rmult_le_compat; try apply Rabs_pos; assumption.
  - rewrite Rabs_Ropp. eapply Rle_trans; [|exact SM]. unfold Rdiv. rewrite !Rabs_mult, (Rabs_pos_eq (/ sc)) by (left; apply Rinv_0_lt_compat; exact P).
    apply Rmult_le_compat_r; [left; apply Rinv_0_lt_compat; exact P|]. apply Rmult_le_compat; try apply Rabs_pos; assumption.
Qed.
Lemma ap_ofZ : forall z r e, ap z r e -> Rabs r <= 16 -> e <= 10 ^ 30 -> ap (sz (ofZ z)) r e.
Proof. intros z r e H Hr He. rewrite sz_ofZ; [exact H|]. pose proof (ap_range z r e H Hr He). lia. Qed.
(** sums: no overflow if the final sum is small *)
Definition fsum (l : list F) : F := fold_left fadd l fzero.
Lemma fsum_mod : forall l x, (vz (fold_left fadd l x) = (vz x + fold_right (fun y s => sz y + s) 0 l) mod 2 ^ 126)%Z.
Proof.
  induction l as [|y l IH]; intros x; cbn [fold_left fold_right].
  - rewrite Z.add_0_r. symmetry. apply Z.mod_small, vz_range.
  - rewrite IH, vz_fadd, Zplus_mod_idemp_l.
    replace (vz x + vz y + fold_right (fun y s => sz y + s) 0 l)%Z with (vz y + (vz x + fold_right (fun y s => sz y + s) 0 l))%Z by lia.
    rewrite (sz_mod y), Zplus_mod_idemp_l. f_equal. lia.
Qed.
Definition fone : F := Eval vm_compute in ofZ SC.
Lemma sz_fone : sz fone = SC. Proof. reflexivity. Qed.
Lemma fone_ap : ap (sz fone) 1 0.
Proof. rewrite sz_fone. apply ap_one. Qed.
(** * The cosine *)
(** 1 / ((2k+1)(2k+2)) for k = 0, ..., 16 *)
Definition den (k : nat) : Z := ((2 * Z.of_nat k + 1) * (2 * Z.of_nat k + 2))%Z.
Definition recips : list F := Eval vm_compute in map (fun k => ofZ (SC / den k)) (seq 0 17).
Lemma recips_eq : recips = map (fun k => ofZ (SC / den k)) (seq 0 17). Proof. vm_compute. reflexivity. Qed.
Fixpoint cosF (t : F) (rs : list F) : F :=
  match rs with
  | nil => fone
  | r :: rs => fsub fone (fmul r (fmul t (cosF t rs)))
  end.
Fixpoint cosR (x : R) (k : nat) (fuel : nat) : R :=
  match fuel with
  | O => 1
  | S f => 1 - x * cosR x (S k) f / (INR (2 * k + 1) * INR (2 * k + 2))
  end.
Lemma den_INR : forall k, INR (2 * k + 1) * INR (2 * k + 2) = IZR ((2 * Z.of_nat k + 1) * (2 * Z.of_nat k + 2)).
Proof. intros k. rewrite !INR_IZR_INZ, <- mult_IZR. f_equal. f_equal; lia. Qed.
Lemma den_ge : forall k m, (Z.of_nat m <= Z.of_nat k)%Z -> IZR ((2 * Z.of_nat m + 1) * (2 * Z.of_nat m + 2)) <= INR (2 * k + 1) * INR (2 * k + 2).
Proof. intros k m H. rewrite den_INR. apply IZR_le. apply Z.mul_le_mono_nonneg; lia. Qed.

Lemma cosR_bound1 : forall x f k, 0 <= x <= 5 / 2 -> Rabs (cosR x (S k) f) <= 3 / 2.
Proof.
  intros x f. induction f as [|f IH]; intros k Hx; cbn [cosR]; [rewrite Rabs_R1; lra|].
  pose proof (den_ge (S k) 1 ltac:(lia)) as D. change (IZR ((2 * Z.of_nat 1 + 1) * (2 * Z.of_nat 1 + 2))) with 12 in D.
  set (d := INR (2 * S k + 1) * INR (2 * S k + 2)) in *. specialize (IH (S k) Hx).
  assert (Q : Rabs (x * cosR x (S (S k)) f / d) <= 1 / 2).
  { unfold Rdiv. assert (I : 0 < / d <= / 12). { split; [apply Rinv_0_lt_compat; lra|apply Rinv_le_contravar; lra]. }
    apply (hmul _ _ (15 / 4) (/ 12)); [|rewrite Rabs_pos_eq; lra|lra]. apply (hmul _ _ (5 / 2) (3 / 2)); [rewrite Rabs_pos_eq; lra|exact IH|lra]. }
  unfold Rminus. eapply Rle_trans; [apply Rabs_triang|]. rewrite Rabs_R1, Rabs_Ropp. lra.
Qed.
Lemma recip_ap : forall k, ap (sz (ofZ (SC / den k))) (/ (INR (2 * k + 1) * INR (2 * k + 2))) 1.
Proof.
  intros k. rewrite den_INR. fold (den k). assert (P : (2 <= den k)%Z) by (unfold den; nia). assert (D : 2 <= IZR (den k)) by (apply IZR_le; exact P).
  apply ap_ofZ; [|rewrite Rabs_pos_eq; [|left; apply Rinv_0_lt_compat; lra]; apply Rle_trans with (/ 2); [apply Rinv_le_contravar; lra|lra]|lra].
  pose proof (ap_div SC 1 0 (den k) ltac:(lia) ap_one) as A. unfold Rdiv in A. rewrite Rmult_1_l, Rmult_0_l, Rplus_0_l in A. exact A.
Qed.
Lemma recip_small : forall k m, (m <= k)%nat -> 0 < / (INR (2 * k + 1) * INR (2 * k + 2)) <= / IZR (den m).
Proof.
  intros k m H. pose proof (den_ge k m ltac:(lia)) as D. fold (den m) in D. assert (P : (2 <= den m)%Z) by (unfold den; nia). assert (Q : 2 <= IZR (den m)) by (apply IZR_le; exact P).
  split; [apply Rinv_0_lt_compat; lra|apply Rinv_le_contravar; lra].
Qed.
Lemma cosF_err1 : forall x t f k, 0 <= x <= 5 / 2 -> ap (sz t) x 1000 -> ap (sz (cosF t (map (fun k => ofZ (SC / den k)) (seq (S k) f)))) (cosR x (S k) f) 500.
Proof.
  intros x t f. induction f as [|f IH]; intros k Hx Ht; cbn [seq map cosF cosR]; [eapply ap_weaken; [apply fone_ap|lra]|].
  specialize (IH (S k) Hx Ht). pose proof (recip_small (S k) 1 ltac:(lia)) as I. change (IZR (den 1)) with 12 in I.
  pose proof (cosR_bound1 x (S f) k Hx) as CB. cbn [cosR] in CB.
  unfold Rdiv in CB |- *. rewrite (Rmult_comm (x * _)) in CB |- *. set (ir := / (INR (2 * S k + 1) * INR (2 * S k + 2))) in *.
  apply (ap_weaken _ _ (0 + 490)); [|lra]. apply ap_fsub; [apply fone_ap| |lra|lra].
  apply (ap_fmul _ _ _ _ 1 2943 (/ 12) 4 490).
  - apply recip_ap.
  - apply (ap_fmul _ _ _ _ 1000 500 (5 / 2) (3 / 2)); [exact Ht|exact IH|rewrite Rabs_pos_eq; lra|apply cosR_bound1; exact Hx|lra|lra|lra|lra|lra].
  - rewrite Rabs_pos_eq; lra.
  - apply (hmul _ _ (5 / 2) (3 / 2)); [rewrite Rabs_pos_eq; lra|apply cosR_bound1; exact Hx|lra].
  - lra.
  - lra.
  - lra.
  - lra.
  - lra.
Qed.
Lemma cosF_err : forall x t f, 0 <= x <= 5 / 2 -> ap (sz t) x 1000 -> ap (sz (cosF t (map (fun k => ofZ (SC / den k)) (seq 0 (S f))))) (cosR x 0 (S f)) 1700.
Proof.
  intros x t f Hx Ht. cbn [seq map cosF cosR]. pose proof (cosF_err1 x t f 0 Hx Ht) as IH.
  pose proof (recip_ap 0) as R0. replace (/ (INR (2 * 0 + 1) * INR (2 * 0 + 2))) with (/ 2) in R0 by (simpl; field).
  replace (x * cosR x 1 f / (INR (2 * 0 + 1) * INR (2 * 0 + 2))) with (/ 2 * (x * cosR x 1 f)) by (simpl; field).
  assert (B : Rabs (x * cosR x 1 f) <= 4) by (apply (hmul _ _ (5 / 2) (3 / 2)); [rewrite Rabs_pos_eq; lra|apply cosR_bound1; exact Hx|lra]).
  apply (ap_weaken _ _ (0 + 1690)); [|lra]. apply ap_fsub; [apply fone_ap| | |lra].
  - apply (ap_fmul _ _ _ _ 1 2943 (/ 2) 4 1690); [exact R0| |rewrite Rabs_pos_eq; lra|exact B|lra|lra|lra|lra|lra].
    apply (ap_fmul _ _ _ _ 1000 500 (5 / 2) (3 / 2)); [exact Ht|exact IH|rewrite Rabs_pos_eq; lra|apply cosR_bound1; exact Hx|lra|lra|lra|lra|lra].
  - unfold Rminus. eapply Rle_trans; [apply Rabs_triang|]. rewrite Rabs_R1, Rabs_Ropp, Rabs_mult, (Rabs_pos_eq (/ 2)) by lra. lra.
Qed.

(** the partial sums of the cosine series *)
Lemma cosR_sum : forall x f k, cosR x k f / INR (fact (2 * k)) = sum_f_R0 (fun i => (-1) ^ i * x ^ i / INR (fact (2 * (k + i)))) f.
Proof.
  intros x f. induction f as [|f IH]; intros k.
  - cbn [sum_f_R0 cosR]. rewrite Nat.add_0_r. rewrite !pow_O. unfold Rdiv. ring.
  - rewrite decomp_sum by lia. cbn [pred cosR].
    assert (F : INR (fact (2 * S k)) = INR (2 * k + 1) * INR (2 * k + 2) * INR (fact (2 * k))).
    { replace (2 * S k)%nat with (S (S (2 * k))) by lia. rewrite !fact_simpl, !mult_INR.
      replace (S (S (2 * k))) with (2 * k + 2)%nat by lia. replace (S (2 * k)) with (2 * k + 1)%nat by lia. ring. }
    assert (N : INR (fact (2 * k)) <> 0) by apply INR_fact_neq_0.
    assert (N1 : INR (2 * k + 1) <> 0) by (apply not_0_INR; lia). assert (N2 : INR (2 * k + 2) <> 0) by (apply not_0_INR; lia).
    replace ((1 - x * cosR x (S k) f / (INR (2 * k + 1) * INR (2 * k + 2))) / INR (fact (2 * k)))
      with (1 / INR (fact (2 * k)) - x * (cosR x (S k) f / INR (fact (2 * S k)))) by (rewrite F; field; repeat split; assumption).
    rewrite IH. replace (k + 0)%nat with k by lia. unfold Rminus. f_equal; [rewrite !pow_O; unfold Rdiv; ring|].
    rewrite Ropp_mult_distr_l, scal_sum. apply sum_eq. intros i Hi. replace (k + S i)%nat with (S k + i)%nat by lia. cbn [pow]. unfold Rdiv. ring.
Qed.
Lemma cosR_approx : forall a n, cosR (a * a) 0 n = cos_approx a n.
Proof.
  intros a n. pose proof (cosR_sum (a * a) n 0) as E. simpl (fact (2 * 0)) in E. simpl INR at 1 in E. unfold Rdiv at 1 in E. rewrite Rinv_1, Rmult_1_r in E.
  rewrite E. unfold cos_approx, cos_term. apply sum_eq. intros i Hi. rewrite Nat.add_0_l. rewrite pow_mult. simpl (a ^ 2). rewrite Rmult_1_r. unfold Rdiv. ring.
Qed.
Lemma cosR_step : forall x n, cosR x 0 (S n) - cosR x 0 n = (-1) ^ S n * x ^ S n / INR (fact (2 * S n)).
Proof.
  intros x n. pose proof (cosR_sum x n 0) as E1. pose proof (cosR_sum x (S n) 0) as E2. simpl (fact (2 * 0)) in *. simpl INR at 1 in E1. simpl INR at 1 in E2.
  unfold Rdiv at 1 in E1. unfold Rdiv at 1 in E2. rewrite Rinv_1, Rmult_1_r in E1, E2. rewrite E1, E2, tech5. rewrite Nat.add_0_l. ring.
Qed.
(** 18 terms are enough *)
Lemma cos_err : forall a t, 0 <= a <= 157 / 100 -> ap (sz t) (a * a) 1000 -> ap (sz (cosF t recips)) (cos a) 2000.
Proof.
  intros a t Ha Ht. assert (X : 0 <= a * a <= 5 / 2) by nra.
  pose proof (cosF_err (a * a) t 16 X Ht) as E. rewrite <- recips_eq in E. unfold ap in *.
  pose proof (pre_cos_bound a 8 ltac:(lra) ltac:(lra)) as [B1 B2]. rewrite <- !cosR_approx in B1, B2.
  change (2 * 8 + 1)%nat with 17%nat in B1. change (2 * (8 + 1))%nat with 18%nat in B2.
  pose proof (cosR_step (a * a) 17) as D.
  assert (T : (-1) ^ 18 * (a * a) ^ 18 / INR (fact (2 * 18)) <= 300 / sc).
  { replace ((-1) ^ 18) with 1 by ring. rewrite Rmult_1_l.
    assert (P : (a * a) ^ 18 <= (5 / 2) ^ 18) by (apply pow_incr; exact X).
    assert (F : 10 ^ 41 <= INR (fact (2 * 18))).
    { rewrite INR_IZR_INZ, (pow_IZR 10 41). apply IZR_le.
      assert (G : forall n, Z.of_nat (fact n) = fold_right Z.mul 1%Z (map (fun i => Z.of_nat (S i)) (seq 0 n))).
      { induction n as [|n IH]; [reflexivity|]. rewrite seq_S, map_app, fold_right_app. cbn [map fold_right].
        rewrite fact_simpl, Nat2Z.inj_mul, IH. generalize (map (fun i => Z.of_nat (S i)) (seq 0 n)). intros l.
        replace (Z.of_nat (S (0 + n)) * 1)%Z with (Z.of_nat (S n)) by lia.
        generalize (Z.of_nat (S n)). intros z. induction l as [|y l IHl]; cbn [fold_right]; lia. }
      rewrite G. vm_compute. discriminate. }
    pose proof sc_pos as SP. assert (SU : sc <= 2 * 10 ^ 36) by (rewrite (pow_IZR 10 36), <- mult_IZR; apply IZR_le; vm_compute; discriminate).
    apply Rle_trans with ((5 / 2) ^ 18 / 10 ^ 41).
    - unfold Rdiv. apply Rmult_le_compat; [apply pow_le; lra|left; apply Rinv_0_lt_compat; lra|exact P|apply Rinv_le_contravar; lra].
    - apply Rle_trans with (300 * / (2 * 10 ^ 36)); [lra|]. unfold Rdiv. apply Rmult_le_compat_l; [lra|]. apply Rinv_le_contravar; [exact SP|exact SU]. }
  assert (C : Rabs ((cos a - cosR (a * a) 0 17) * sc) <= 300).
  { pose proof sc_pos. rewrite Rabs_pos_eq by (apply Rmult_le_pos; lra).
    apply Rle_trans with (300 / sc * sc); [apply Rmult_le_compat_r; lra|unfold Rdiv; rewrite Rmult_assoc, Rinv_l; lra]. }
  replace (cos a * sc - IZR (sz (cosF t recips))) with ((cosR (a * a) 0 17 * sc - IZR (sz (cosF t recips))) + (cos a - cosR (a * a) 0 17) * sc) by ring.
  eapply Rle_trans; [apply Rabs_triang|lra].
Qed.
