(** The tabulated zeros of J_0 and values of J_1^2, checked with the series. *)
From Coq Require Import Reals ZArith Bool List Lra Lia Psatz.
From Coquelicot Require Import Coquelicot.
From Verif Require Import Arith RInst Machine Rules Par LegendreData Legendre SizeProof RInstProof LegSym GammaProof LegAsym TM Bessel BesselJ.
Import ListNotations.
Local Open Scope R_scope.

(** J_0 and its derivative *)
Definition J0 (z : R) : R := B (z * z / 4).
Definition J0' (z : R) : R := z / 2 * B1 (z * z / 4).

(** nu is a zero up to t, b is J_0'(nu)^2 up to the relative error r *)
Definition bessel_pair (t r nu b : R) : Prop :=
  0 < nu /\ 0 < b /\ Rabs (J0 nu) <= t * Rabs (J0' nu) /\ (1 - r) * b <= J0' nu * J0' nu <= (1 + r) * b /\ 63 / 100 <= nu * b <= 65 / 100.

Definition check (K : nat) (sc m q mb qb : Z) : bool :=
  (0 <? m)%Z && (0 <? q)%Z && (0 <? mb)%Z && (0 <? qb)%Z && (0 <? sc)%Z && (2 * (m * m) <=? 4 * q * q * (Z.of_nat K * Z.of_nat K))%Z &&
  let (v0, e0) := hev 0 (m * m) (4 * q * q) sc K 0 in let (v1, e1) := hev 1 (m * m) (4 * q * q) sc K 0 in
  let lo := (Z.abs v1 - e1)%Z in let hi := (Z.abs v1 + e1)%Z in
  (0 <=? lo)%Z && ((Z.abs v0 + e0) * 10 ^ 15 * (2 * q) <=? 6 * m * lo)%Z &&
  (m * m * (hi * hi) * qb * 10 ^ 15 <=? 4 * q * q * (sc * sc) * mb * (10 ^ 15 + 1))%Z &&
  (4 * q * q * (sc * sc) * mb * (10 ^ 15 - 1) <=? m * m * (lo * lo) * qb * 10 ^ 15)%Z &&
  (63 * q * qb <=? 100 * m * mb)%Z && (100 * m * mb <=? 65 * q * qb)%Z.
Lemma hev_0 : forall c p q sc k, (0 <= p)%Z -> (0 < q)%Z -> (0 < sc)%Z -> (2 * p <= q * (Z.of_nat k * Z.of_nat k))%Z ->
  let '(v, e) := hev (Z.of_nat c) p q sc k 0 in (0 <= e)%Z /\ Rabs (H c 0 (IZR p / IZR q) * IZR sc - IZR v) <= IZR e.
Proof.
  intros c p q sc k Hp Hq Hs Hk. pose proof (hev_ok c p q sc k 0 Hp Hq Hs) as K. assert (Q : 0 < IZR q) by (apply IZR_lt; exact Hq). apply IZR_le in Hk. rewrite !mult_IZR, <- INR_IZR_INZ in Hk.
  apply K. rewrite Nat.add_0_l, S_INR. pose proof (pos_INR k). apply Rle_trans with (INR k * INR k); [|nra]. apply Rmult_le_reg_r with (IZR q); [exact Q|]. replace (2 * (IZR p / IZR q) * IZR q) with (2 * IZR p) by (field; lra). lra.
Qed.
Ltac push H := repeat (first [rewrite mult_IZR in H | rewrite plus_IZR in H | rewrite abs_IZR in H]).
Lemma check_ok : forall K sc m q mb qb, check K sc m q mb qb = true -> bessel_pair (6 / 10 ^ 15) (/ 10 ^ 15) (IZR m / IZR q) (IZR mb / IZR qb).
Proof.
  intros K sc m q mb qb C. unfold check in C. rewrite !andb_true_iff in C. destruct C as [[[[[[Hm Hq] Hmb] Hqb] Hsc] HK] C].
  apply Z.ltb_lt in Hm. apply Z.ltb_lt in Hq. apply Z.ltb_lt in Hmb. apply Z.ltb_lt in Hqb. apply Z.ltb_lt in Hsc. apply Z.leb_le in HK.
  pose proof (hev_0 0 (m * m) (4 * q * q) sc K ltac:(nia) ltac:(nia) Hsc ltac:(nia)) as E0. pose proof (hev_0 1 (m * m) (4 * q * q) sc K ltac:(nia) ltac:(nia) Hsc ltac:(nia)) as E1.
  change (Z.of_nat 0) with 0%Z in E0. change (Z.of_nat 1) with 1%Z in E1. destruct (hev 0 (m * m) (4 * q * q) sc K 0) as [v0 e0]. destruct (hev 1 (m * m) (4 * q * q) sc K 0) as [v1 e1].
  destruct E0 as [P0 E0]. destruct E1 as [P1 E1]. cbv zeta in C. rewrite !andb_true_iff in C. destruct C as [[[[[L0 C1] C2] C3] C4] C5].
  apply Z.leb_le in L0. apply Z.leb_le in C1. apply Z.leb_le in C2. apply Z.leb_le in C3. apply Z.leb_le in C4. apply Z.leb_le in C5.
  set (lo := (Z.abs v1 - e1)%Z) in *. set (hi := (Z.abs v1 + e1)%Z) in *.
  apply IZR_lt in Hm. apply IZR_lt in Hq. apply IZR_lt in Hmb. apply IZR_lt in Hqb. apply IZR_lt in Hsc. apply IZR_le in L0. apply IZR_le in C1. apply IZR_le in C2. apply IZR_le in C3. apply IZR_le in C4. apply IZR_le in C5.
  change (10 ^ 15)%Z with 1000000000000000%Z in *. change (1000000000000000 + 1)%Z with 1000000000000001%Z in *. change (1000000000000000 - 1)%Z with 999999999999999%Z in *. push C1. push C2. push C3. push C4. push C5.
  assert (Ey : IZR (m * m) / IZR (4 * q * q) = IZR m / IZR q * (IZR m / IZR q) / 4) by (rewrite !mult_IZR; field; lra). rewrite Ey in E0, E1.
  set (nu := IZR m / IZR q) in *. assert (Nu : 0 < nu) by (apply Rdiv_lt_0_compat; lra). assert (Em : IZR m = nu * IZR q) by (unfold nu; field; lra). set (b := IZR mb / IZR qb). assert (Pb : 0 < b) by (apply Rdiv_lt_0_compat; lra). assert (Emb : IZR mb = b * IZR qb) by (unfold b; field; lra).
  rewrite Em in C1, C2, C3, C4, C5. rewrite Emb in C2, C3, C4, C5. clearbody nu b. clear Em Emb Ey. set (s := IZR sc) in *. set (Q := IZR q) in *. set (Qb := IZR qb) in *.
  set (h0 := H 0 0 (nu * nu / 4)) in *. set (h1 := H 1 0 (nu * nu / 4)) in *.
  assert (B0 : Rabs h0 * s <= Rabs (IZR v0) + IZR e0). { rewrite <- (Rabs_pos_eq s) by lra. rewrite <- Rabs_mult. replace (h0 * s) with (IZR v0 + (h0 * s - IZR v0)) by ring. eapply Rle_trans; [apply Rabs_triang|]. lra. }
  assert (B1h : Rabs h1 * s <= IZR hi). { unfold hi. rewrite plus_IZR, abs_IZR, <- (Rabs_pos_eq s) by lra. rewrite <- Rabs_mult. replace (h1 * s) with (IZR v1 + (h1 * s - IZR v1)) by ring. eapply Rle_trans; [apply Rabs_triang|]. lra. }
  assert (B1l : IZR lo <= Rabs h1 * s). { unfold lo. rewrite minus_IZR, abs_IZR, <- (Rabs_pos_eq s) by lra. rewrite <- Rabs_mult. pose proof (Rabs_triang (h1 * s) (IZR v1 - h1 * s)) as T. replace (h1 * s + (IZR v1 - h1 * s)) with (IZR v1) in T by ring. rewrite (Rabs_minus_sym (IZR v1)) in T. lra. }
  clearbody lo hi. clear P0 P1 E0 E1 HK.
  unfold bessel_pair, J0, J0', B, B1. fold h0 h1.
  assert (A1 : Rabs (nu / 2 * - h1) = nu / 2 * Rabs h1) by (rewrite Rabs_mult, Rabs_Ropp, (Rabs_pos_eq (nu / 2)) by lra; reflexivity).
  assert (A2 : nu / 2 * - h1 * (nu / 2 * - h1) = nu * nu / 4 * (Rabs h1 * Rabs h1)) by (rewrite <- Rabs_mult, (Rabs_pos_eq (h1 * h1)) by nra; field).
  rewrite A1, A2. pose proof (Rabs_pos h0) as H0p. pose proof (Rabs_pos h1) as H1p. set (z0 := Rabs h0) in *. set (z1 := Rabs h1) in *. clearbody z0 z1. clear A1 A2 h0 h1.
  set (V := Rabs (IZR v0) + IZR e0) in *. set (LO := IZR lo) in *. set (HI := IZR hi) in *. clearbody V LO HI s Q Qb.
  assert (SS : 0 < s * s) by nra. assert (QQ : 0 < Q * Q) by nra.
  split; [exact Nu|]. split; [exact Pb|]. split; [|split].
  - assert (X : V * 10 ^ 15 * 2 <= 6 * nu * LO). { apply Rmult_le_reg_r with Q; [exact Hq|]. lra. } assert (Y : z0 * s * 10 ^ 15 * 2 <= 6 * nu * (z1 * s)). { apply Rle_trans with (6 * nu * LO); [lra|]. apply Rmult_le_compat_l; lra. }
    assert (W : z0 * 10 ^ 15 * 2 <= 6 * nu * z1). { apply Rmult_le_reg_r with s; [exact Hsc|]. lra. } lra.
  - assert (HH : z1 * s * (z1 * s) <= HI * HI) by (apply Rmult_le_compat; nra). assert (LL : LO * LO <= z1 * s * (z1 * s)) by (apply Rmult_le_compat; nra).
    assert (Qpos : 0 < Q * Q * Qb) by nra.
    assert (X : nu * nu * (HI * HI) * 10 ^ 15 <= 4 * (s * s) * b * (10 ^ 15 + 1)). { apply Rmult_le_reg_r with (Q * Q * Qb); [exact Qpos|]. lra. }
    assert (Y : 4 * (s * s) * b * (10 ^ 15 - 1) <= nu * nu * (LO * LO) * 10 ^ 15). { apply Rmult_le_reg_r with (Q * Q * Qb); [exact Qpos|]. lra. }
    assert (NN : 0 < nu * nu) by nra.
    assert (X' : nu * nu * (z1 * z1) * 10 ^ 15 <= 4 * b * (10 ^ 15 + 1)). { apply Rmult_le_reg_r with (s * s); [exact SS|]. apply Rle_trans with (nu * nu * (HI * HI) * 10 ^ 15); [|lra]. replace (nu * nu * (z1 * z1) * 10 ^ 15 * (s * s)) with (nu * nu * (z1 * s * (z1 * s)) * 10 ^ 15) by ring. apply Rmult_le_compat_r; [lra|]. apply Rmult_le_compat_l; lra. }
    assert (Y' : 4 * b * (10 ^ 15 - 1) <= nu * nu * (z1 * z1) * 10 ^ 15). { apply Rmult_le_reg_r with (s * s); [exact SS|]. apply Rle_trans with (nu * nu * (LO * LO) * 10 ^ 15); [lra|]. replace (nu * nu * (z1 * z1) * 10 ^ 15 * (s * s)) with (nu * nu * (z1 * s * (z1 * s)) * 10 ^ 15) by ring. apply Rmult_le_compat_r; [lra|]. apply Rmult_le_compat_l; lra. }
    split; lra.
  - assert (QQb : 0 < Q * Qb) by nra. split.
    + apply Rmult_le_reg_r with (Q * Qb); [exact QQb|]. lra.
    + apply Rmult_le_reg_r with (Q * Qb); [exact QQb|]. lra.
Qed.
Definition check_entry (i : nat) : bool :=
  let '(m, e) := nth i JZ (0, 0)%Z in let '(mb, eb) := nth i J1 (0, 0)%Z in
  (e <? 0)%Z && (eb <? 0)%Z && check (18 + 4 * i + Nat.div2 i) (2 ^ (60 + 5 * Z.of_nat i)) m (10 ^ (- e)) mb (10 ^ (- eb)).
Lemma check_all : forallb check_entry (seq 0 20) = true. Proof. vm_cast_no_check (eq_refl true). Qed.
Lemma lit_frac : forall m e, (e < 0)%Z -> R_lit m e = IZR m / IZR (10 ^ (- e)).
Proof. intros m e He. unfold R_lit. destruct (Z.ltb_spec e 0); [reflexivity|lia]. Qed.
Theorem table_pair : forall t k nu b, (100 <= usize_max t)%Z -> (1 <= k <= 20)%Z -> @bessel_j0_zero RA t k = Ok nu -> @bessel_j1_squared RA t k = Ok b ->
  bessel_pair (6 / 10 ^ 15) (/ 10 ^ 15) nu b.
Proof.
  intros t k nu b Hu Hk E1 E2. unfold bessel_j0_zero in E1. unfold bessel_j1_squared in E2.
  destruct (Z.ltb_spec 20 k); [lia|]. destruct (Z.ltb_spec 21 k); [lia|]. rewrite usize_sub_ok in E1, E2 by lia. cbn [bind] in E1, E2.
  apply tab_R in E1. destruct E1 as (d1 & E1 & ->). apply tab_R in E2. destruct E2 as (d2 & E2 & ->).
  set (i := Z.to_nat (k - 1)) in *. assert (Hi : (i < 20)%nat) by (unfold i; lia).
  pose proof check_all as C. rewrite forallb_forall in C. specialize (C i ltac:(apply in_seq; lia)). unfold check_entry in C.
  rewrite (nth_error_nth _ _ (0, 0)%Z E1), (nth_error_nth _ _ (0, 0)%Z E2) in C. destruct d1 as [m e]. destruct d2 as [mb eb]. cbn [fst snd].
  rewrite !andb_true_iff in C. destruct C as [[C1 C2] C]. apply Z.ltb_lt in C1. apply Z.ltb_lt in C2. cbn [nlit RA]. rewrite !lit_frac by assumption. exact (check_ok _ _ _ _ _ _ C).
Qed.
