(** Legendre polynomials in the angle: F(t) = P_n(cos t), and the Gauss weights 2 / F'(t)^2. *)
From Coq Require Import Reals Lra Lia Psatz List.
From Coquelicot Require Import Coquelicot.
From Verif Require Import RSum PolySpec PolyProof EigenSpec EigenProof OrthoProof GWRoots.
Local Open Scope R_scope.

Definition la (i : nat) : R := 0.
Definition lb (i : nat) : R := sqrt (INR (S i) * INR (S i) / (4 * INR (S i) * INR (S i) - 1)).
Lemma lb_sq : forall i, lb i * lb i = INR (S i) * INR (S i) / (4 * INR (S i) * INR (S i) - 1).
Proof. intros i. unfold lb. rewrite sqrt_sqrt; [reflexivity|]. rewrite S_INR. pose proof (pos_INR i). apply Rmult_le_pos; [nra|left; apply Rinv_0_lt_compat; nra]. Qed.
Lemma lb_pos : forall i, 0 < lb i.
Proof. intros i. unfold lb. apply sqrt_lt_R0. rewrite S_INR. pose proof (pos_INR i). apply Rdiv_lt_0_compat; nra. Qed.
Notation P := (monic la lb). Notation P' := (dmonic la lb). Notation P'' := (ddmonic la lb).

Lemma leg_s : forall k x, (1 - x * x) * P' (S k) x = - INR (S k) * x * P (S k) x + (2 * INR (S k) + 1) * (lb k * lb k) * P k x.
Proof.
  intros k x. pose proof (jacobi_s 0 0 la lb ltac:(lra) ltac:(lra)) as J. unfold la at 1 in J. specialize (J ltac:(field)).
  specialize (J ltac:(intros j; unfold la; pose proof (pos_INR (S j)); rewrite S_INR in *; pose proof (pos_INR j); field; split; lra)).
  specialize (J ltac:(rewrite lb_sq; simpl; field)).
  specialize (J ltac:(intros j; rewrite lb_sq; rewrite !S_INR; pose proof (pos_INR j); field; repeat split; nra) (S k) x). cbn [prevP] in J. rewrite J.
  replace (INR (S k) * (0 - 0) / (2 * INR (S k) + 0 + 0)) with 0 by (pose proof (pos_INR k); rewrite S_INR; field; lra). ring.
Qed.
Lemma leg_ode : forall k x, -1 < x < 1 -> (1 - x * x) * P'' k x - 2 * x * P' k x = - (INR k * (INR k + 1)) * P k x.
Proof.
  intros k x Hx. pose proof (jacobi_ode 0 0 la lb ltac:(lra) ltac:(lra)) as J. unfold la at 1 in J. specialize (J ltac:(field)).
  specialize (J ltac:(intros j; unfold la; pose proof (pos_INR (S j)); rewrite S_INR in *; pose proof (pos_INR j); field; split; lra)).
  specialize (J ltac:(rewrite lb_sq; simpl; field)).
  specialize (J ltac:(intros j; rewrite lb_sq; rewrite !S_INR; pose proof (pos_INR j); field; repeat split; nra) k x Hx).
  replace (INR k * (INR k + 1)) with (INR k * (INR k + 0 + 0 + 1)) by ring. rewrite <- J. ring.
Qed.
Lemma leg_one : forall k, 0 < P k 1 /\ P (S k) 1 = P k 1 * ((INR k + 1) / (2 * INR k + 1)).
Proof.
  induction k as [|k [H0 H1]].
  - simpl. unfold la. split; [lra|field].
  - pose proof (pos_INR k). split. { rewrite H1. apply Rmult_lt_0_compat; [lra|apply Rdiv_lt_0_compat; lra]. }
    rewrite monic_SS, lb_sq, H1, !S_INR. unfold la. field. split; nra.
Qed.
Lemma leg_norm : forall k, P k 1 * P k 1 = (2 * INR k + 1) * (bprod lb k * bprod lb k).
Proof.
  induction k as [|k IH]; [simpl; ring|]. destruct (leg_one k) as [_ ->]. cbn [bprod].
  replace (lb k * bprod lb k * (lb k * bprod lb k)) with (lb k * lb k * (bprod lb k * bprod lb k)) by ring. rewrite lb_sq.
  replace (P k 1 * ((INR k + 1) / (2 * INR k + 1)) * (P k 1 * ((INR k + 1) / (2 * INR k + 1)))) with (P k 1 * P k 1 * ((INR k + 1) / (2 * INR k + 1) * ((INR k + 1) / (2 * INR k + 1)))) by ring.
  rewrite IH, !S_INR. pose proof (pos_INR k). field. split; nra.
Qed.
Lemma bprod_pos : forall k, 0 < bprod lb k.
Proof. induction k as [|k IH]; cbn [bprod]; [lra|]. pose proof (lb_pos k). nra. Qed.
(** Christoffel and Darboux *)
Lemma leg_cd : forall k x, ksum (S k) la lb x * (bprod lb k * bprod lb k) = P' (S k) x * P k x - P (S k) x * P' k x.
Proof.
  induction k as [|k IH]; intros x.
  - unfold ksum. simpl. unfold la. field.
  - specialize (IH x). unfold ksum in *. cbn [rsum] in *. rewrite dmonic_SS. rewrite (monic_SS la lb k). unfold la at 2 3.
    pose proof (bprod_pos k) as B. pose proof (lb_pos k) as B2. set (s := rsum k _ + _) in *. clearbody s.
    change (bprod lb (S k)) with (lb k * bprod lb k).
    transitivity (s * (bprod lb k * bprod lb k) * (lb k * lb k) + P (S k) x * P (S k) x); [field; split; lra|]. rewrite IH. ring.
Qed.
Lemma leg_weight : forall k x, P (S k) x = 0 -> ksum (S k) la lb x = (1 - x * x) * (P' (S k) x / P (S k) 1 * (P' (S k) x / P (S k) 1)).
Proof.
  intros k x Z. pose proof (leg_cd k x) as C. pose proof (leg_s k x) as J. rewrite Z in C, J. pose proof (leg_norm (S k)) as Nm. pose proof (bprod_pos k) as B. pose proof (lb_pos k) as B2.
  destruct (leg_one (S k)) as [O _]. pose proof (pos_INR (S k)) as I. change (bprod lb (S k)) with (lb k * bprod lb k) in Nm.
  set (q := P (S k) 1) in *. set (D := P' (S k) x) in *. set (c := INR (S k)) in *. set (bb := bprod lb k) in *. set (l := lb k) in *.
  assert (E : ksum (S k) la lb x * (q * q) = (1 - x * x) * (D * D)).
  { rewrite Nm. transitivity ((ksum (S k) la lb x * (bb * bb)) * (2 * c + 1) * (l * l)); [ring|]. rewrite C. transitivity (D * (- c * x * 0 + (2 * c + 1) * (l * l) * P k x)); [ring|]. rewrite <- J. ring. }
  apply Rmult_eq_reg_r with (q * q); [|nra]. rewrite E. field. lra.
Qed.

(** In the angle *)
Section A.
Variable n : nat.
Definition F (t : R) : R := P n (cos t) / P n 1.
Definition F1 (t : R) : R := - sin t * (P' n (cos t) / P n 1).
Definition F2 (t : R) : R := sin t * sin t * (P'' n (cos t) / P n 1) - cos t * (P' n (cos t) / P n 1).
Lemma Pn1 : P n 1 <> 0. Proof. destruct (leg_one n) as [H _]. lra. Qed.
Lemma dcos : forall t, is_derive cos t (- sin t). Proof. intros t. apply is_derive_Reals. apply derivable_pt_lim_cos. Qed.
Lemma dsin : forall t, is_derive sin t (cos t). Proof. intros t. apply is_derive_Reals. apply derivable_pt_lim_sin. Qed.
Lemma F_d : forall t, is_derive F t (F1 t).
Proof.
  intros t. unfold F, F1. apply (is_derive_ext (fun t => / P n 1 * P n (cos t))); [intros s; apply Rmult_comm|]. evar_last.
  { apply is_derive_scal. apply (is_derive_comp (P n) cos); [apply dmonic_der|apply dcos]. } unfold scal; simpl. unfold mult; simpl. field. apply Pn1.
Qed.
Lemma F1_d : forall t, is_derive F1 t (F2 t).
Proof.
  intros t. unfold F1, F2. apply (is_derive_ext (fun t => - / P n 1 * (sin t * P' n (cos t)))); [intros s; unfold Rdiv; simpl; ring|]. evar_last.
  { apply is_derive_scal. apply (is_derive_mult sin (fun t => P' n (cos t))); [apply dsin|apply (is_derive_comp (P' n) cos); [apply ddmonic_der|apply dcos]|intros; apply Rmult_comm]. }
  unfold plus, scal, mult; simpl. unfold mult; simpl. field. apply Pn1.
Qed.
Lemma F_ode : forall t, 0 < t < PI -> F2 t + cos t / sin t * F1 t + INR n * (INR n + 1) * F t = 0.
Proof.
  intros t Ht. pose proof (sin_gt_0 t ltac:(lra) ltac:(lra)) as Sp. pose proof (sin2_cos2 t) as SC. unfold Rsqr in SC. unfold F, F1, F2. pose proof Pn1 as Z.
  assert (C : -1 < cos t < 1) by (split; nra). pose proof (leg_ode n (cos t) C) as O.
  transitivity (((1 - cos t * cos t) * P'' n (cos t) - 2 * cos t * P' n (cos t) + INR n * (INR n + 1) * P n (cos t)) / P n 1).
  - replace (1 - cos t * cos t) with (sin t * sin t) by lra. field. split; [exact Z|lra].
  - rewrite O. field. exact Z.
Qed.
Lemma F_0 : F 0 = 1. Proof. unfold F. rewrite cos_0. field. apply Pn1. Qed.
Lemma F1_0 : F1 0 = 0. Proof. unfold F1. rewrite sin_0. ring. Qed.
Lemma F_root : forall t, F t = 0 -> P n (cos t) = 0.
Proof. intros t H. unfold F in H. apply Rmult_integral in H. destruct H as [H|H]; [exact H|]. exfalso. apply (Rinv_neq_0_compat _ Pn1). exact H. Qed.
End A.
Lemma F_weight : forall k t, F (S k) t = 0 -> ksum (S k) la lb (cos t) = F1 (S k) t * F1 (S k) t.
Proof. intros k t H. rewrite (leg_weight k _ (F_root _ _ H)). unfold F1. pose proof (sin2_cos2 t) as SC. unfold Rsqr in SC. replace (1 - cos t * cos t) with (sin t * sin t) by lra. ring. Qed.
