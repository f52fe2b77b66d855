(** Signed fixed-point numbers of 126 bits on two machine integers. *)
From Coq Require Import ZArith Lia Bool Uint63 Psatz.
Local Open Scope Z_scope.

Definition F : Type := (int * int)%type.
Definition vz (x : F) : Z := to_Z (fst x) * 2 ^ 63 + to_Z (snd x).
(** two's complement *)
Definition sz (x : F) : Z := if vz x <? 2 ^ 125 then vz x else vz x - 2 ^ 126.

Definition fadd (x y : F) : F :=
  let l := (snd x + snd y)%uint63 in let h := (fst x + fst y)%uint63 in
  (if (l <? snd x)%uint63 then (h + 1)%uint63 else h, l).
Definition fsub (x y : F) : F :=
  let l := (snd x - snd y)%uint63 in let h := (fst x - fst y)%uint63 in
  (if (snd x <? snd y)%uint63 then (h - 1)%uint63 else h, l).
Definition fzero : F := (0%uint63, 0%uint63).
Definition fneg (x : F) : F := fsub fzero x.
Definition isneg (x : F) : bool := (4611686018427387904 <=? fst x)%uint63.
Definition fabs (x : F) : F := if isneg x then fneg x else x.
(** the upper half of the product *)
Definition mulhi (x y : F) : F :=
  let hh := mulc (fst x) (fst y) in
  fadd (fadd (fst hh, snd hh) (0%uint63, fst (mulc (fst x) (snd y)))) (0%uint63, fst (mulc (snd x) (fst y))).
(** times 64 *)
Definition shl (x : F) : F := let l := mulc (snd x) 64 in ((snd (mulc (fst x) 64) + fst l)%uint63, snd l).
Definition umul (x y : F) : F := shl (mulhi x y).
Definition fmul (x y : F) : F :=
  let m := umul (fabs x) (fabs y) in if xorb (isneg x) (isneg y) then fneg m else m.
Definition ofZ (z : Z) : F := (of_Z (Z.shiftr z 63), of_Z z).

Lemma wBe : wB = 2 ^ 63. Proof. reflexivity. Qed.
Lemma limb : forall i, 0 <= to_Z i < 2 ^ 63. Proof. intros i. exact (to_Z_bounded i). Qed.
Lemma vz_range : forall x, 0 <= vz x < 2 ^ 126.
Proof. intros [h l]. unfold vz. cbn [fst snd]. pose proof (limb h). pose proof (limb l). change (2 ^ 126) with (2 ^ 63 * 2 ^ 63). nia. Qed.
Lemma vz_fadd : forall x y, vz (fadd x y) = (vz x + vz y) mod 2 ^ 126.
Proof.
  intros [a b] [c d]. unfold fadd. cbn [fst snd]. pose proof (limb a) as Ha. pose proof (limb b) as Hb. pose proof (limb c) as Hc. pose proof (limb d) as Hd.
  assert (L : to_Z (b + d)%uint63 = if Z.ltb (to_Z b + to_Z d) (2 ^ 63) then to_Z b + to_Z d else to_Z b + to_Z d - 2 ^ 63).
  { rewrite add_spec, wBe. destruct (Z.ltb_spec (to_Z b + to_Z d) (2 ^ 63)); [apply Z.mod_small; lia|]. symmetry. apply (Z.mod_unique _ _ 1); lia. }
  assert (C : (b + d <? b)%uint63 = negb (Z.ltb (to_Z b + to_Z d) (2 ^ 63))).
  { destruct (Z.ltb_spec (to_Z b + to_Z d) (2 ^ 63)) as [H|H]; cbn [negb].
    - apply Bool.not_true_is_false. rewrite ltb_spec. rewrite L. destruct (Z.ltb_spec (to_Z b + to_Z d) (2 ^ 63)); lia.
    - rewrite ltb_spec. rewrite L. destruct (Z.ltb_spec (to_Z b + to_Z d) (2 ^ 63)); lia. }
  rewrite C. unfold vz. cbn [fst snd]. rewrite L.
  assert (H63 : 2 ^ 126 = 2 ^ 63 * 2 ^ 63) by reflexivity.
  assert (M : forall h, to_Z h = (to_Z a + to_Z c + (if Z.ltb (to_Z b + to_Z d) (2 ^ 63) then 0 else 1)) mod 2 ^ 63 ->
     to_Z h * 2 ^ 63 + (if Z.ltb (to_Z b + to_Z d) (2 ^ 63) then to_Z b + to_Z d else to_Z b + to_Z d - 2 ^ 63) = (to_Z a * 2 ^ 63 + to_Z b + (to_Z c * 2 ^ 63 + to_Z d)) mod 2 ^ 126).
  { intros h E. set (k := (to_Z a + to_Z c + (if Z.ltb (to_Z b + to_Z d) (2 ^ 63) then 0 else 1))) in *.
    pose proof (Z.div_mod k (2 ^ 63) ltac:(lia)) as DM. pose proof (limb h) as Hh.
    apply (Z.mod_unique _ _ (k / 2 ^ 63)); [left|].
    - rewrite H63. destruct (Z.ltb_spec (to_Z b + to_Z d) (2 ^ 63)); nia.
    - rewrite H63. rewrite <- E in DM. unfold k in DM at 1. destruct (Z.ltb_spec (to_Z b + to_Z d) (2 ^ 63)); nia. }
  apply M. destruct (Z.ltb (to_Z b + to_Z d) (2 ^ 63)); cbn [negb].
  - rewrite add_spec, wBe, Z.add_0_r. reflexivity.
  - rewrite !add_spec, wBe, to_Z_1. rewrite Zplus_mod_idemp_l. reflexivity.
Qed.
Lemma vz_fsub : forall x y, vz (fsub x y) = (vz x - vz y) mod 2 ^ 126.
Proof.
  intros [a b] [c d]. unfold fsub. cbn [fst snd]. pose proof (limb a) as Ha. pose proof (limb b) as Hb. pose proof (limb c) as Hc. pose proof (limb d) as Hd.
  assert (C : (b <? d)%uint63 = Z.ltb (to_Z b) (to_Z d)).
  { destruct (Z.ltb_spec (to_Z b) (to_Z d)) as [H|H]; [apply ltb_spec; exact H|]. apply Bool.not_true_is_false. rewrite ltb_spec. lia. }
  rewrite C. unfold vz. cbn [fst snd].
  assert (L : to_Z (b - d)%uint63 = if Z.ltb (to_Z b) (to_Z d) then to_Z b - to_Z d + 2 ^ 63 else to_Z b - to_Z d).
  { rewrite sub_spec, wBe. destruct (Z.ltb_spec (to_Z b) (to_Z d)); [|apply Z.mod_small; lia]. symmetry. apply (Z.mod_unique _ _ (-1)); lia. }
  rewrite L. assert (H63 : 2 ^ 126 = 2 ^ 63 * 2 ^ 63) by reflexivity.
  assert (M : forall h, to_Z h = (to_Z a - to_Z c - (if Z.ltb (to_Z b) (to_Z d) then 1 else 0)) mod 2 ^ 63 ->
     to_Z h * 2 ^ 63 + (if Z.ltb (to_Z b) (to_Z d) then to_Z b - to_Z d + 2 ^ 63 else to_Z b - to_Z d) = (to_Z a * 2 ^ 63 + to_Z b - (to_Z c * 2 ^ 63 + to_Z d)) mod 2 ^ 126).
  { intros h E. set (k := (to_Z a - to_Z c - (if Z.ltb (to_Z b) (to_Z d) then 1 else 0))) in *.
    pose proof (Z.div_mod k (2 ^ 63) ltac:(lia)) as DM. pose proof (limb h) as Hh.
    apply (Z.mod_unique _ _ (k / 2 ^ 63)); [left|].
    - rewrite H63. destruct (Z.ltb_spec (to_Z b) (to_Z d)); nia.
    - rewrite H63. rewrite <- E in DM. unfold k in DM at 1. destruct (Z.ltb_spec (to_Z b) (to_Z d)); nia. }
  apply M. destruct (Z.ltb (to_Z b) (to_Z d)).
  - rewrite !sub_spec, wBe, to_Z_1. rewrite Zminus_mod_idemp_l. reflexivity.
  - rewrite sub_spec, wBe, Z.sub_0_r. reflexivity.
Qed.
Lemma vz_fzero : vz fzero = 0. Proof. reflexivity. Qed.
Lemma vz_fneg : forall x, vz (fneg x) = (- vz x) mod 2 ^ 126.
Proof. intros x. unfold fneg. rewrite vz_fsub, vz_fzero. reflexivity. Qed.

Lemma sz_mod : forall x, vz x = sz x mod 2 ^ 126.
Proof.
  intros x. unfold sz. pose proof (vz_range x) as R. destruct (Z.ltb_spec (vz x) (2 ^ 125)); [symmetry; apply Z.mod_small; exact R|].
  apply (Z.mod_unique _ _ (-1)); [left; exact R|lia].
Qed.
Lemma sz_range : forall x, - 2 ^ 125 <= sz x < 2 ^ 125.
Proof.
  intros x. unfold sz. pose proof (vz_range x) as R. change (2 ^ 126) with (2 * 2 ^ 125) in *. destruct (Z.ltb_spec (vz x) (2 ^ 125)); lia.
Qed.
Lemma sz_unique : forall x z, - 2 ^ 125 <= z < 2 ^ 125 -> vz x = z mod 2 ^ 126 -> sz x = z.
Proof.
  intros x z Hz E. unfold sz. rewrite E. change (2 ^ 126) with (2 * 2 ^ 125) in *. destruct (Z_lt_le_dec z 0).
  - replace (z mod (2 * 2 ^ 125)) with (z + 2 * 2 ^ 125) by (apply (Z.mod_unique _ _ (-1)); lia). destruct (Z.ltb_spec (z + 2 * 2 ^ 125) (2 ^ 125)); lia.
  - rewrite Z.mod_small by lia. destruct (Z.ltb_spec z (2 ^ 125)); lia.
Qed.
Lemma sz_fadd : forall x y, - 2 ^ 125 <= sz x + sz y < 2 ^ 125 -> sz (fadd x y) = sz x + sz y.
Proof. intros x y H. apply sz_unique; [exact H|]. rewrite vz_fadd, (sz_mod x), (sz_mod y). rewrite <- Zplus_mod. reflexivity. Qed.
Lemma sz_fsub : forall x y, - 2 ^ 125 <= sz x - sz y < 2 ^ 125 -> sz (fsub x y) = sz x - sz y.
Proof. intros x y H. apply sz_unique; [exact H|]. rewrite vz_fsub, (sz_mod x), (sz_mod y). rewrite <- Zminus_mod. reflexivity. Qed.
Lemma sz_ofZ : forall z, - 2 ^ 125 <= z < 2 ^ 125 -> sz (ofZ z) = z.
Proof.
  intros z H. apply sz_unique; [exact H|]. unfold ofZ, vz. cbn [fst snd]. rewrite !of_Z_spec, wBe, Z.shiftr_div_pow2 by lia.
  change (2 ^ 126) with (2 ^ 63 * 2 ^ 63). rewrite (Z.rem_mul_r z (2 ^ 63) (2 ^ 63)) by lia. lia.
Qed.
Lemma isneg_spec : forall x, isneg x = (sz x <? 0).
Proof.
  intros x. unfold isneg, sz. pose proof (vz_range x) as R. destruct x as [h l]. unfold vz in *. cbn [fst snd] in *. pose proof (limb h) as Hh. pose proof (limb l) as Hl.
  change (2 ^ 126) with (2 ^ 63 * 2 ^ 63) in *. change (2 ^ 125) with (2 ^ 62 * 2 ^ 63).
  assert (C : to_Z 4611686018427387904%uint63 = 2 ^ 62) by reflexivity.
  destruct (Z.ltb_spec (to_Z h * 2 ^ 63 + to_Z l) (2 ^ 62 * 2 ^ 63)) as [H|H].
  - replace (to_Z h * 2 ^ 63 + to_Z l <? 0) with false by (symmetry; apply Z.ltb_ge; lia).
    apply Bool.not_true_is_false. rewrite leb_spec, C. nia.
  - replace (to_Z h * 2 ^ 63 + to_Z l - 2 ^ 63 * 2 ^ 63 <? 0) with true by (symmetry; apply Z.ltb_lt; lia). rewrite leb_spec, C. nia.
Qed.
Lemma vz_fabs : forall x, vz (fabs x) = Z.abs (sz x).
Proof.
  intros x. unfold fabs. rewrite isneg_spec. pose proof (sz_range x) as R. change (2 ^ 126) with (2 * 2 ^ 125) in *. destruct (Z.ltb_spec (sz x) 0) as [H|H].
  - rewrite vz_fneg, sz_mod. rewrite Z.abs_neq by lia.
    assert (E : (- (sz x mod 2 ^ 126)) mod 2 ^ 126 = (- sz x) mod 2 ^ 126).
    { rewrite <- !Z.sub_0_l. apply Zminus_mod_idemp_r. }
    rewrite E. apply Z.mod_small. change (2 ^ 126) with (2 * 2 ^ 125). lia.
  - rewrite sz_mod, Z.abs_eq by lia. apply Z.mod_small. change (2 ^ 126) with (2 * 2 ^ 125). lia.
Qed.
Lemma mulhi_spec : forall x y, 0 <= vz x * vz y - vz (mulhi x y) * 2 ^ 126 < 3 * 2 ^ 126.
Proof.
  intros [a b] [c d]. unfold mulhi. cbn [fst snd]. rewrite !vz_fadd.
  pose proof (limb a) as Ha. pose proof (limb b) as Hb. pose proof (limb c) as Hc. pose proof (limb d) as Hd.
  pose proof (mulc_spec a c) as M1. pose proof (mulc_spec a d) as M2. pose proof (mulc_spec b c) as M3.
  destruct (mulc a c) as [h1 l1]. destruct (mulc a d) as [h2 l2]. destruct (mulc b c) as [h3 l3]. cbn [fst snd] in *. rewrite wBe in *.
  pose proof (limb h1) as Q1. pose proof (limb l1) as Q2. pose proof (limb h2) as Q3. pose proof (limb l2) as Q4. pose proof (limb h3) as Q5. pose proof (limb l3) as Q6.
  unfold vz. cbn [fst snd]. rewrite to_Z_0. rewrite !Z.mul_0_l, !Z.add_0_l. rewrite Zplus_mod_idemp_l.
  change (2 ^ 126) with (2 ^ 63 * 2 ^ 63). set (B := 2 ^ 63) in *. assert (HB : 0 < B) by reflexivity.
  set (A := to_Z a) in *. set (A' := to_Z b) in *. set (C := to_Z c) in *. set (C' := to_Z d) in *. 
  set (H1 := to_Z h1) in *. set (L1 := to_Z l1) in *. set (H2 := to_Z h2) in *. set (L2 := to_Z l2) in *. set (H3 := to_Z h3) in *. set (L3 := to_Z l3) in *.
  clearbody A A' C C' H1 L1 H2 L2 H3 L3 B.
  assert (S : (H1 * B + L1 + H2 + H3) * (B * B) <= (A * B + A') * (C * B + C')) by nia.
  assert (T : (A * B + A') * (C * B + C') < (B * B) * (B * B)).
  { assert (A * B + A' < B * B) by nia. assert (C * B + C' < B * B) by nia. assert (0 <= A * B + A') by nia. assert (0 <= C * B + C') by nia. nia. }
  rewrite Z.mod_small by nia.
  assert (E : (A * B + A') * (C * B + C') - (H1 * B + L1 + H2 + H3) * (B * B) = (L2 + L3) * B + A' * C') by nia.
  rewrite E. nia.
Qed.
Lemma vz_shl : forall x, vz x * 64 < 2 ^ 126 -> vz (shl x) = vz x * 64.
Proof.
  intros [h l] H. unfold shl, vz in *. cbn [fst snd] in *. pose proof (mulc_spec l 64) as L. pose proof (mulc_spec h 64) as K. change (to_Z 64) with 64 in L, K. rewrite wBe in L, K.
  pose proof (limb h). pose proof (limb l). pose proof (limb (fst (mulc l 64))). pose proof (limb (snd (mulc l 64))). pose proof (limb (fst (mulc h 64))). pose proof (limb (snd (mulc h 64))).
  change (2 ^ 126) with (2 ^ 63 * 2 ^ 63) in H. rewrite add_spec, wBe. 
  assert (to_Z (fst (mulc h 64)) = 0) by nia. assert (to_Z (fst (mulc l 64)) < 64) by nia. rewrite Z.mod_small by nia. nia.
Qed.
Lemma umul_spec : forall x y, vz x * vz y < 2 ^ 245 -> 0 <= vz x * vz y - vz (umul x y) * 2 ^ 120 < 192 * 2 ^ 120 /\ vz (umul x y) < 2 ^ 125.
Proof.
  intros x y H. pose proof (mulhi_spec x y) as M. unfold umul. set (m := mulhi x y) in *. pose proof (vz_range m) as R.
  change (2 ^ 245) with (2 ^ 119 * 2 ^ 126) in H. assert (S : vz m < 2 ^ 119) by lia. assert (vz m * 2 ^ 126 = vz m * 64 * 2 ^ 120) by lia.
  change (2 ^ 126) with (2 ^ 7 * 2 ^ 119) in *. 
  assert (E : vz (shl m) = vz m * 64) by (apply vz_shl; change (2 ^ 126) with (2 ^ 7 * 2 ^ 119); lia).
  rewrite E. split; [lia|]. change (2 ^ 125) with (64 * 2 ^ 119). lia.
Qed.
Lemma sz_pos : forall x, vz x < 2 ^ 125 -> sz x = vz x.
Proof. intros x H. unfold sz. destruct (Z.ltb_spec (vz x) (2 ^ 125)); lia. Qed.
Lemma sz_fneg : forall x, - 2 ^ 125 < sz x -> sz (fneg x) = - sz x.
Proof. intros x H. pose proof (sz_range x). unfold fneg. rewrite sz_fsub; [change (sz fzero) with 0; lia|]. change (sz fzero) with 0. lia. Qed.
Lemma sz_fmul : forall x y, Z.abs (sz x * sz y) < 2 ^ 245 -> Z.abs (sz x * sz y - sz (fmul x y) * 2 ^ 120) < 192 * 2 ^ 120.
Proof.
  intros x y H. rewrite Z.abs_mul in H. rewrite <- !vz_fabs in H. destruct (umul_spec (fabs x) (fabs y) H) as [U V].
  unfold fmul. set (m := umul (fabs x) (fabs y)) in *. pose proof (sz_pos m V) as E. pose proof (vz_range m) as R. rewrite !isneg_spec. rewrite !vz_fabs in U.
  destruct (Z.ltb_spec (sz x) 0) as [X|X], (Z.ltb_spec (sz y) 0) as [Y|Y]; cbn [xorb];
    rewrite ?(Z.abs_neq (sz x)) in U by lia; rewrite ?(Z.abs_eq (sz x)) in U by lia; rewrite ?(Z.abs_neq (sz y)) in U by lia; rewrite ?(Z.abs_eq (sz y)) in U by lia;
    rewrite ?sz_fneg by lia; rewrite E; lia.
Qed.
