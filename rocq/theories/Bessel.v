(** The series sum (-y)^j / (j! (j+c)!) and its values. *)
From Coq Require Import Reals ZArith Bool Lra Lia Psatz.
From Coquelicot Require Import Coquelicot.
From Verif Require Import TM.
Local Open Scope R_scope.

Definition bc (c k j : nat) : R := (-1) ^ j * (INR (fact k) * INR (fact (k + c)) / (INR (fact (k + j)) * INR (fact (k + j + c)))).
Definition H (c k : nat) (y : R) : R := PSeries (bc c k) y.

Lemma fact_p : forall k, 0 < INR (fact k). Proof. intros. apply INR_fact_lt_0. Qed.
Lemma bc_nz : forall c k j, bc c k j <> 0.
Proof.
  intros. unfold bc. apply Rmult_integral_contrapositive_currified; [apply pow_nonzero; lra|].
  pose proof (fact_p k). pose proof (fact_p (k + c)). pose proof (fact_p (k + j)). pose proof (fact_p (k + j + c)).
  apply Rgt_not_eq. apply Rdiv_lt_0_compat; apply Rmult_lt_0_compat; lra.
Qed.
Lemma bc_S : forall c k j, bc c k (S j) = - bc c k j / (INR (k + S j) * INR (k + S j + c)).
Proof.
  intros. unfold bc. replace (k + S j + c)%nat with (S (k + j + c)) by lia. replace (k + S j)%nat with (S (k + j)) by lia. rewrite !fact_simpl, !mult_INR. cbn [pow].
  pose proof (fact_p (k + j)). pose proof (fact_p (k + j + c)). pose proof (lt_0_INR (S (k + j)) ltac:(lia)). pose proof (lt_0_INR (S (k + j + c)) ltac:(lia)). field. repeat split; lra.
Qed.
Lemma bc_radius : forall c k, CV_radius (bc c k) = p_infty.
Proof.
  intros c k. apply CV_radius_infinite_DAlembert; [apply bc_nz|].
  apply (is_lim_seq_ext (fun j => / (INR (S (k + j)) * INR (S (k + j + c))))).
  { intros j. rewrite bc_S. pose proof (bc_nz c k j). replace (k + S j)%nat with (S (k + j)) by lia. replace (S (k + j) + c)%nat with (S (k + j + c)) by lia.
    pose proof (lt_0_INR (S (k + j)) ltac:(lia)). pose proof (lt_0_INR (S (k + j + c)) ltac:(lia)).
    replace (- bc c k j / (INR (S (k + j)) * INR (S (k + j + c))) / bc c k j) with (- / (INR (S (k + j)) * INR (S (k + j + c)))) by (field; repeat split; lra).
    rewrite Rabs_Ropp, Rabs_pos_eq; [reflexivity|]. left. apply Rinv_0_lt_compat. nra. }
  apply is_lim_seq_le_le with (u := fun _ => 0) (w := fun j => / INR (S j)).
  - intros j. pose proof (lt_0_INR (S (k + j)) ltac:(lia)) as A. pose proof (lt_0_INR (S j) ltac:(lia)) as B. assert (C : 1 <= INR (S (k + j + c))) by (rewrite S_INR; pose proof (pos_INR (k + j + c)); lra).
    assert (D : INR (S j) <= INR (S (k + j))) by (apply le_INR; lia). split; [left; apply Rinv_0_lt_compat; nra|]. apply Rinv_le_contravar; nra.
  - apply is_lim_seq_const.
  - apply (is_lim_seq_incr_1 (fun j => / INR j)). evar_last; [apply is_lim_seq_inv; [apply is_lim_seq_INR|discriminate]|reflexivity].
Qed.
Lemma bc_ex : forall c k y, ex_pseries (bc c k) y.
Proof. intros. apply CV_radius_inside. rewrite bc_radius. exact I. Qed.
Lemma H_step : forall c k y, H c k y = 1 - y / (INR (S k) * INR (S (k + c))) * H c (S k) y.
Proof.
  intros c k y. unfold H. rewrite (PSeries_decr_1 _ _ (bc_ex c k y)).
  assert (E0 : bc c k 0 = 1). { unfold bc. rewrite !Nat.add_0_r. pose proof (fact_p k). pose proof (fact_p (k + c)). cbn [pow]. field. split; lra. }
  rewrite E0. assert (E1 : forall j, PS_decr_1 (bc c k) j = (- / (INR (S k) * INR (S (k + c)))) * bc c (S k) j).
  { intros j. unfold PS_decr_1, bc. match goal with |- ?a = ?b => change (@eq R a b) end. replace (k + S j)%nat with (S k + j)%nat by lia. replace (S k + c)%nat with (S (k + c)) by lia. rewrite (fact_simpl k), (fact_simpl (k + c)), !mult_INR. cbn [pow].
    pose proof (fact_p (S k + j)). pose proof (fact_p (S k + j + c)). pose proof (lt_0_INR (S k) ltac:(lia)). pose proof (lt_0_INR (S (k + c)) ltac:(lia)). field. repeat split; lra. }
  rewrite (PSeries_ext _ _ y E1). replace (PSeries (fun j => (- / (INR (S k) * INR (S (k + c)))) * bc c (S k) j) y) with ((- / (INR (S k) * INR (S (k + c)))) * PSeries (bc c (S k)) y) by (symmetry; apply PSeries_scal).
  pose proof (lt_0_INR (S k) ltac:(lia)). pose proof (lt_0_INR (S (k + c)) ltac:(lia)). field. split; lra.
Qed.
Lemma H_tail : forall c k y, 0 <= y -> 2 * y <= INR (S k) * INR (S k) -> Rabs (H c k y) <= 2.
Proof.
  intros c k y Hy Hk. assert (B : forall j, Rabs (bc c k j * y ^ j) <= (1 / 2) ^ j).
  { induction j as [|j IH]. { unfold bc. rewrite !Nat.add_0_r. pose proof (fact_p k). pose proof (fact_p (k + c)). cbn [pow]. replace (1 * (INR (fact k) * INR (fact (k + c)) / (INR (fact k) * INR (fact (k + c)))) * 1) with 1 by (field; split; lra). rewrite Rabs_R1. lra. }
    rewrite bc_S. cbn [pow]. set (a := INR (k + S j)). set (b := INR (k + S j + c)). assert (Ha : INR (S k) <= a) by (apply le_INR; lia). assert (Hb : INR (S k) <= b) by (apply le_INR; lia). pose proof (lt_0_INR (S k) ltac:(lia)) as P0.
    replace (- bc c k j / (a * b) * (y * y ^ j)) with ((bc c k j * y ^ j) * (- (y / (a * b)))) by (field; split; lra). rewrite Rabs_mult, Rmult_comm.
    apply Rmult_le_compat; [apply Rabs_pos|apply Rabs_pos| |exact IH]. rewrite Rabs_Ropp, Rabs_pos_eq by (apply Rmult_le_pos; [exact Hy|left; apply Rinv_0_lt_compat; nra]).
    apply Rmult_le_reg_r with (a * b); [nra|]. unfold Rdiv. rewrite Rmult_assoc, Rinv_l by nra. nra. }
  assert (G : is_series (fun j => (1 / 2) ^ j) (/ (1 - 1 / 2))) by (apply is_series_geom; rewrite Rabs_pos_eq; lra).
  assert (Ea : ex_series (fun j => Rabs (bc c k j * y ^ j))) by (apply (ex_series_le (fun j => Rabs (bc c k j * y ^ j)) (fun j => (1 / 2) ^ j)); [intros j; unfold norm; simpl; unfold abs; simpl; rewrite Rabs_Rabsolu; apply B|eexists; exact G]).
  unfold H, PSeries. eapply Rle_trans; [apply Series_Rabs; exact Ea|]. eapply Rle_trans; [apply (Series_le _ (fun j => (1 / 2) ^ j)); [intros j; split; [apply Rabs_pos|apply B]|eexists; exact G]|].
  rewrite (is_series_unique _ _ G). lra.
Qed.

(** Values in fixed point *)
Fixpoint hev (c : Z) (p q sc : Z) (k : nat) (i : Z) : Z * Z :=
  match k with
  | O => (0, 2 * sc)%Z
  | S k => let (v, e) := hev c p q sc k (i + 1) in
           let d := (q * (i + 1) * (i + 1 + c))%Z in (sc - p * v / d, p * e / d + 2)%Z
  end.
Lemma hev_ok : forall c p q sc k i, (0 <= p)%Z -> (0 < q)%Z -> (0 < sc)%Z -> 2 * (IZR p / IZR q) <= INR (S (i + k)) * INR (S (i + k)) ->
  let '(v, e) := hev (Z.of_nat c) p q sc k (Z.of_nat i) in (0 <= e)%Z /\ Rabs (H c i (IZR p / IZR q) * IZR sc - IZR v) <= IZR e.
Proof.
  intros c p q sc k. induction k as [|k IH]; intros i Hp Hq Hs Hk; cbn [hev].
  - split; [lia|]. rewrite Nat.add_0_r in Hk. apply IZR_le in Hp. apply IZR_lt in Hq. apply IZR_lt in Hs. rewrite mult_IZR. unfold Rminus. rewrite Ropp_0, Rplus_0_r, Rabs_mult, (Rabs_pos_eq (IZR sc)) by lra.
    apply Rmult_le_compat_r; [lra|]. apply H_tail; [apply Rmult_le_pos; [lra|left; apply Rinv_0_lt_compat; lra]|exact Hk].
  - replace (Z.of_nat i + 1)%Z with (Z.of_nat (S i)) by lia. specialize (IH (S i) Hp Hq Hs). replace (S i + k)%nat with (i + S k)%nat in IH by lia. specialize (IH Hk).
    destruct (hev (Z.of_nat c) p q sc k (Z.of_nat (S i))) as [v e]. destruct IH as [E0 IH]. set (d := (q * Z.of_nat (S i) * (Z.of_nat (S i) + Z.of_nat c))%Z).
    assert (D0 : (0 < d)%Z) by (unfold d; apply Z.mul_pos_pos; [apply Z.mul_pos_pos; lia|lia]).
    split; [pose proof (Z.div_pos (p * e) d ltac:(apply Z.mul_nonneg_nonneg; lia) D0); lia|].
    rewrite H_step. pose proof (zdiv_err (p * v) d D0) as Z1. pose proof (zdiv_err (p * e) d D0) as Z2. rewrite minus_IZR, plus_IZR. rewrite !mult_IZR in Z1, Z2. set (w := IZR (p * v / d)) in *. set (f := IZR (p * e / d)) in *.
    assert (Ed : IZR d = IZR q * (INR (S i) * INR (S (i + c)))). { unfold d. rewrite !mult_IZR, <- Nat2Z.inj_add, <- !INR_IZR_INZ. replace (S i + c)%nat with (S (i + c)) by lia. ring. }
    apply IZR_lt in Hq. apply IZR_le in Hp. pose proof (lt_0_INR (S i) ltac:(lia)) as A. pose proof (lt_0_INR (S (i + c)) ltac:(lia)) as B. set (h := H c (S i) _) in *.
    assert (D1 : 0 < IZR d) by (apply IZR_lt; exact D0). assert (Dp : 0 <= IZR p / IZR d) by (apply Rmult_le_pos; [lra|left; apply Rinv_0_lt_compat; lra]).
    replace ((1 - IZR p / IZR q / (INR (S i) * INR (S (i + c))) * h) * IZR sc - (IZR sc - w)) with (- (IZR p / IZR d * (h * IZR sc - IZR v)) + (w - IZR p * IZR v / IZR d)).
    2: { rewrite Ed. field. repeat split; lra. }
    eapply Rle_trans; [apply Rabs_triang|]. rewrite Rabs_Ropp, Rabs_mult, (Rabs_pos_eq _ Dp). apply Rmult_le_compat_l with (r := IZR p / IZR d) in IH; [|exact Dp].
    replace (IZR p / IZR d * IZR e) with (IZR p * IZR e / IZR d) in IH by (field; lra). assert (W : Rabs (w - IZR p * IZR v / IZR d) <= 1) by (apply Rabs_le; lra). lra.
Qed.
(** the value of the series: a certificate *)
Definition near (c : Z) (p q sc : Z) (k : nat) (lo hi : Z) : bool :=
  ((0 <=? p)%Z && (0 <? q)%Z && (0 <? sc)%Z && (2 * p <=? q * (Z.of_nat k * Z.of_nat k))%Z && let (v, e) := hev c p q sc k 0 in ((lo <=? v - e)%Z && (v + e <=? hi)%Z))%bool.
Lemma near_ok : forall c p q sc k lo hi, near (Z.of_nat c) p q sc k lo hi = true -> IZR lo <= H c 0 (IZR p / IZR q) * IZR sc <= IZR hi.
Proof.
  intros c p q sc k lo hi N. unfold near in N. apply andb_prop in N. destruct N as [N1 N2]. apply andb_prop in N1. destruct N1 as [N1 Hk]. apply andb_prop in N1. destruct N1 as [N1 Hs]. apply andb_prop in N1. destruct N1 as [Hp Hq].
  apply Z.leb_le in Hp. apply Z.ltb_lt in Hq. apply Z.ltb_lt in Hs. apply Z.leb_le in Hk. pose proof (hev_ok c p q sc k 0 Hp Hq Hs) as K.
  assert (Q : 0 < IZR q) by (apply IZR_lt; exact Hq). apply IZR_le in Hk. rewrite !mult_IZR, <- INR_IZR_INZ in Hk.
  assert (T : 2 * (IZR p / IZR q) <= INR (S (0 + k)) * INR (S (0 + k))).
  { rewrite Nat.add_0_l, S_INR. pose proof (pos_INR k). apply Rle_trans with (INR k * INR k); [|nra]. apply Rmult_le_reg_r with (IZR q); [exact Q|]. replace (2 * (IZR p / IZR q) * IZR q) with (2 * IZR p) by (field; lra). lra. }
  specialize (K T). change (Z.of_nat 0) with 0%Z in K. destruct (hev (Z.of_nat c) p q sc k 0) as [v e]. destruct K as [_ K]. apply andb_prop in N2. destruct N2 as [A B]. apply Z.leb_le in A. apply Z.leb_le in B.
  apply IZR_le in A. apply IZR_le in B. rewrite minus_IZR in A. rewrite plus_IZR in B. apply abs_both in K. lra.
Qed.

(** The function B(y) = sum (-y)^j / (j!)^2 and its differential equation *)
Definition B (y : R) : R := H 0 0 y.
Definition B1 (y : R) : R := - H 1 0 y.
Definition B2 (y : R) : R := H 2 0 y / 2.
Lemma H_d : forall c y, is_derive (H c 0) y (- / INR (S c) * H (S c) 0 y).
Proof.
  intros c y. unfold H. evar_last. { apply is_derive_PSeries. rewrite bc_radius. exact I. }
  rewrite (PSeries_ext (PS_derive (bc c 0)) (fun j => - / INR (S c) * bc (S c) 0 j)); [apply PSeries_scal|].
  intros j. unfold PS_derive. match goal with |- ?a = ?b => change (@eq R a b) end. unfold bc. cbn [Nat.add]. replace (S j + c)%nat with (S (j + c)) by lia. replace (j + S c)%nat with (S (j + c)) by lia.
  rewrite (fact_simpl j), (fact_simpl c), !mult_INR. cbn [pow]. pose proof (fact_p j). pose proof (fact_p c). pose proof (fact_p (S (j + c))). pose proof (lt_0_INR (S j) ltac:(lia)). pose proof (lt_0_INR (S c) ltac:(lia)). change (INR (fact 0)) with 1. field. repeat split; lra.
Qed.
Lemma B_d : forall y, is_derive B y (B1 y). Proof. intros y. unfold B, B1. evar_last; [apply H_d|]. simpl. field. Qed.
Lemma B1_d : forall y, is_derive B1 y (B2 y). Proof. intros y. unfold B1, B2. evar_last; [apply (is_derive_opp (H 1 0)); apply H_d|]. unfold opp; simpl. field. Qed.
Lemma B_ode : forall y, y * B2 y + B1 y + B y = 0.
Proof.
  intros y. unfold B, B1, B2. rewrite (H_step 0 0), (H_step 1 0).
  assert (E : - H 0 1 y + / 2 * H 1 1 y + / 2 * H 2 0 y = 0).
  { unfold H. replace (- PSeries (bc 0 1) y) with (-1 * PSeries (bc 0 1) y) by ring. rewrite <- !PSeries_scal, <- !PSeries_plus.
    - rewrite (PSeries_ext _ (fun _ => 0)); [apply PSeries_const_0|]. intros j. unfold PS_plus, PS_scal. cbv [plus scal mult]. simpl. change (@eq R (-1 * bc 0 1 j + / 2 * bc 1 1 j + / 2 * bc 2 0 j) 0).
      unfold bc. cbn [Nat.add]. rewrite !Nat.add_0_r. replace (S (j + 1)) with (S (S j)) by lia. replace (j + 2)%nat with (S (S j)) by lia. rewrite (fact_simpl (S j)), (fact_simpl j), !mult_INR. pose proof (fact_p j). pose proof (lt_0_INR (S j) ltac:(lia)). pose proof (lt_0_INR (S (S j)) ltac:(lia)).
      change (INR (fact 0)) with 1. change (INR (fact 1)) with 1. change (INR (fact 2)) with (1 + 1). rewrite !S_INR in *. pose proof (pos_INR j). field. repeat split; lra.
    - apply ex_pseries_plus; apply ex_pseries_scal; try apply bc_ex; intros; apply Rmult_comm.
    - apply ex_pseries_scal; [apply Rmult_comm|apply bc_ex].
    - apply ex_pseries_scal; [apply Rmult_comm|apply bc_ex].
    - apply ex_pseries_scal; [apply Rmult_comm|apply bc_ex]. }
  simpl INR. transitivity (y * (- H 0 1 y + / 2 * H 1 1 y + / 2 * H 2 0 y)); [field|rewrite E; ring].
Qed.
