(** The asymptotic expansion of the zeros of J_0 (McMahon): residual of the differential equation. *)
From Coq Require Import Reals ZArith List Lra Lia Psatz.
From Coquelicot Require Import Coquelicot.
From Verif Require Import TM AccF64.
Import ListNotations.
Local Open Scope R_scope.

Fixpoint hder_from (i : Z) (l : list (Z * Z)) : list (Z * Z) := match l with [] => [] | (a, b) :: l => (i * a, b)%Z :: hder_from (i + 1) l end.
Definition hder (l : list (Z * Z)) : list (Z * Z) := hder_from 1 (tl l).
Lemma hder_from_ev : forall l i x, horner (hder_from i l) x = IZR i * horner l x + x * horner (hder l) x.
Proof.
  induction l as [|[a b] l IH]; intros i x; [unfold hder; cbn; ring|]. change (hder ((a, b) :: l)) with (hder_from 1 l). cbn [hder_from horner]. rewrite !IH, mult_IZR, plus_IZR. unfold Rdiv. ring.
Qed.
Lemma horner_d : forall l x, is_derive (horner l) x (horner (hder l) x).
Proof.
  induction l as [|[a b] l IH]; intros x; [apply (is_derive_const (K := R_AbsRing) (V := R_NormedModule) 0 x)|]. change (hder ((a, b) :: l)) with (hder_from 1 l). rewrite hder_from_ev. cbn [horner]. evar_last.
  { apply (is_derive_plus (fun _ => IZR a / IZR b) (fun x => x * horner l x)); [apply is_derive_const|]. apply (is_derive_mult (fun x => x) (horner l)); [apply is_derive_id|apply IH|intros; apply Rmult_comm]. }
  unfold plus, zero, mult, one; simpl. unfold mult, one; simpl. ring.
Qed.

(** coefficients of src/legendre/bogaert/mod.rs:32-41 *)
Definition MC : list (Z * Z) := [(125, 10 ^ 3); (-8072916666666667, 10 ^ 17); (24602864583333334, 10 ^ 17); (-1824438767206101, 10 ^ 15); (25336414797343906, 10 ^ 15); (-5676444121351834, 10 ^ 13); (18690476528232066, 10 ^ 12); (-8493535802991488, 10 ^ 10); (5092254624022268, 10 ^ 8)]%Z.
(** coefficients of src/legendre/bogaert/mod.rs:53-61 *)
Definition BC : list (Z * Z) := [(20264236728467555, 10 ^ 17); (0, 1); (-30338042971129027, 10 ^ 20); (1989243642459693, 10 ^ 19); (-22896990277211166, 10 ^ 20); (4337107191307463, 10 ^ 19); (-1236323497271754, 10 ^ 18); (49610142326888314, 10 ^ 19); (-26683739370232377, 10 ^ 18); (18539539820634562, 10 ^ 17)]%Z.
Definition MC1 := hder MC. Definition MC2 := hder MC1. Definition MC3 := hder MC2.
Definition g (r : R) : R := horner MC r. Definition g1 (r : R) : R := horner MC1 r. Definition g2 (r : R) : R := horner MC2 r. Definition g3 (r : R) : R := horner MC3 r.
Lemma g_d : forall r, is_derive g r (g1 r). Proof. intros. apply horner_d. Qed.
Lemma g1_d : forall r, is_derive g1 r (g2 r). Proof. intros. apply horner_d. Qed.
Lemma g2_d : forall r, is_derive g2 r (g3 r). Proof. intros. apply horner_d. Qed.
Definition ze (r : R) : R := 1 + r * g r.
Definition eb (r : R) : R := g r + r * (2 / 1 * g1 r).
Definition Bz (r : R) : R := 1 - r * eb r.
Definition mb1 (r : R) : R := g r + r * (5 / 1 * g1 r + r * (2 / 1 * g2 r)).   (* - Bz' *)
Definition mb2 (r : R) : R := 6 / 1 * g1 r + r * (9 / 1 * g2 r + r * (2 / 1 * g3 r)). (* - Bz'' *)
Definition qr (r : R) : R :=
  1 / 4 * (Bz r * / ze r * (Bz r * / ze r)) - eb r * (2 / 1 * 1 - r * eb r) - r * ((3 / 1 * mb1 r + r * (2 / 1 * mb2 r)) * / Bz r) - 3 / 1 * (r * (mb1 r * / Bz r) * (r * (mb1 r * / Bz r))).

Definition tr : tm := tm_scal 1 3844 tm_x.
Definition tg : tm := tm_horner MC tr. Definition tg1 : tm := tm_horner MC1 tr. Definition tg2 : tm := tm_horner MC2 tr. Definition tg3 : tm := tm_horner MC3 tr.
Definition tze : tm := tm_add tm_one (tm_mul tr tg).
Definition teb : tm := tm_add tg (tm_mul tr (tm_scal 2 1 tg1)).
Definition tBz : tm := tm_sub tm_one (tm_mul tr teb).
Definition tmb1 : tm := tm_add tg (tm_mul tr (tm_add (tm_scal 5 1 tg1) (tm_mul tr (tm_scal 2 1 tg2)))).
Definition tmb2 : tm := tm_add (tm_scal 6 1 tg1) (tm_mul tr (tm_add (tm_scal 9 1 tg2) (tm_mul tr (tm_scal 2 1 tg3)))).
Definition giz : list (list Z) := Eval vm_compute in inverse 4 tze. Definition giB : list (list Z) := Eval vm_compute in inverse 4 tBz.
Definition tiz : tm := tm_inv giz tze. Definition tiB : tm := tm_inv giB tBz.
Definition tqr : tm :=
  let a := tm_mul tBz tiz in let c := tm_mul tr (tm_mul tmb1 tiB) in
  tm_sub (tm_sub (tm_sub (tm_scal 1 4 (tm_mul a a)) (tm_mul teb (tm_sub (tm_scal 2 1 tm_one) (tm_mul tr teb)))) (tm_mul tr (tm_mul (tm_add (tm_scal 3 1 tmb1) (tm_mul tr (tm_scal 2 1 tmb2))) tiB))) (tm_scal 3 1 (tm_mul c c)).
(** pi and pi^2 *)
Definition PIz : Z := 3141592653589793238.
Definition tpi : tm := tm_widen 1 (10 ^ 18) (tm_cst PIz (10 ^ 18)).
Definition tbb : tm := tm_mul tpi (tm_mul (tm_horner BC (tm_mul (tm_mul tpi tpi) tr)) (tm_mul tze tBz)).
Definition W0z : Z := 63661977236758134308.
Definition tbb0 : tm := tm_sub tbb (tm_cst W0z (10 ^ 20)).

Definition vqr : tm := Eval vm_compute in tqr.
Definition vbb0 : tm := Eval vm_compute in tbb0.
Lemma vqr_eq : tqr = vqr. Proof. vm_cast_no_check (eq_refl vqr). Qed.
Lemma vbb0_eq : tbb0 = vbb0. Proof. vm_cast_no_check (eq_refl vbb0). Qed.
Lemma vqr_small : (parts 8 (Z.of_nat 8) vqr <= SC / 10 ^ 20)%Z. Proof. vm_compute; discriminate. Qed.
Lemma vbb0_small : (parts 8 (Z.of_nat 8) vbb0 <= SC * 3 / 10 ^ 17)%Z. Proof. vm_compute; discriminate. Qed.
Lemma div_bd : forall a b, (0 < b)%Z -> IZR (SC * a / b) / IZR SC <= IZR a / IZR b.
Proof.
  intros a b Hb. pose proof SC_pos as S. pose proof (zdiv_err (SC * a) b Hb) as E. rewrite mult_IZR in E. apply Rmult_le_reg_r with (IZR SC); [exact S|]. unfold Rdiv at 1. rewrite Rmult_assoc, Rinv_l, Rmult_1_r by lra. replace (IZR a / IZR b * IZR SC) with (IZR SC * IZR a / IZR b) by (unfold Rdiv; ring). lra.
Qed.
Section B.
Variable r : R. Hypothesis Hr : 0 <= r <= / 3844.
Let x := 3844 * r. Let X : 0 <= x <= 1. Proof. unfold x. lra. Qed.
Let Y : 0 <= 0 <= 1. Proof. lra. Qed.
Notation is := (tm_is x 0).
Lemma is_tr : is tr r. Proof. eapply (is_ext _ _ X Y); [apply (is_scal _ _ X Y); apply (is_x _ _ X Y)|]. unfold x. field. Qed.
Let Mul := fun t u f g => is_mul x 0 X Y t u f g. Let Add := fun t u f g => is_add x 0 X Y t u f g. Let Sub := fun t u f g => is_sub x 0 X Y t u f g. Let One := is_one x 0 X Y.
Lemma Scal : forall a b t f, is t f -> is (tm_scal a b t) (IZR a / IZR b * f).
Proof. intros a b t f T. eapply (is_ext _ _ X Y); [apply (is_scal _ _ X Y); exact T|ring]. Qed.
Let Inv := fun k t f => is_inv x 0 X Y k t f.
Lemma is_tg : is tg (g r). Proof. apply (is_horner _ _ X Y). exact is_tr. Qed.
Lemma is_tg1 : is tg1 (g1 r). Proof. apply (is_horner _ _ X Y). exact is_tr. Qed.
Lemma is_tg2 : is tg2 (g2 r). Proof. apply (is_horner _ _ X Y). exact is_tr. Qed.
Lemma is_tg3 : is tg3 (g3 r). Proof. apply (is_horner _ _ X Y). exact is_tr. Qed.
Lemma is_tze : is tze (ze r). Proof. exact (Add _ _ _ _ One (Mul _ _ _ _ is_tr is_tg)). Qed.
Lemma is_teb : is teb (eb r). Proof. exact (Add _ _ _ _ is_tg (Mul _ _ _ _ is_tr (Scal 2 1 _ _ is_tg1))). Qed.
Lemma is_tBz : is tBz (Bz r). Proof. exact (Sub _ _ _ _ One (Mul _ _ _ _ is_tr is_teb)). Qed.
Lemma is_tmb1 : is tmb1 (mb1 r). Proof. exact (Add _ _ _ _ is_tg (Mul _ _ _ _ is_tr (Add _ _ _ _ (Scal 5 1 _ _ is_tg1) (Mul _ _ _ _ is_tr (Scal 2 1 _ _ is_tg2))))). Qed.
Lemma is_tmb2 : is tmb2 (mb2 r). Proof. exact (Add _ _ _ _ (Scal 6 1 _ _ is_tg1) (Mul _ _ _ _ is_tr (Add _ _ _ _ (Scal 9 1 _ _ is_tg2) (Mul _ _ _ _ is_tr (Scal 2 1 _ _ is_tg3))))). Qed.
Lemma is_tqr : is tqr (qr r).
Proof.
  pose proof (Mul _ _ _ _ is_tBz (Inv giz _ _ is_tze)) as Ta. pose proof (Inv giB _ _ is_tBz) as Ti. pose proof (Mul _ _ _ _ is_tr (Mul _ _ _ _ is_tmb1 Ti)) as Tc.
  exact (Sub _ _ _ _ (Sub _ _ _ _ (Sub _ _ _ _ (Scal 1 4 _ _ (Mul _ _ _ _ Ta Ta)) (Mul _ _ _ _ is_teb (Sub _ _ _ _ (Scal 2 1 _ _ One) (Mul _ _ _ _ is_tr is_teb)))) (Mul _ _ _ _ is_tr (Mul _ _ _ _ (Add _ _ _ _ (Scal 3 1 _ _ is_tmb1) (Mul _ _ _ _ is_tr (Scal 2 1 _ _ is_tmb2))) Ti))) (Scal 3 1 _ _ (Mul _ _ _ _ Tc Tc))).
Qed.
Lemma qr_small : Rabs (qr r) <= 1 / 10 ^ 20.
Proof.
  pose proof is_tqr as T. rewrite vqr_eq in T. eapply Rle_trans; [apply (parts_bound 8 vqr _ _ _ _ ltac:(lia) X Y T vqr_small); vm_compute; reflexivity|].
  eapply Rle_trans; [|right; instantiate (1 := IZR 1 / IZR (10 ^ 20)); change (10 ^ 20)%Z with 100000000000000000000%Z; field]. replace (SC / 10 ^ 20)%Z with (SC * 1 / 10 ^ 20)%Z by (rewrite Z.mul_1_r; reflexivity). apply div_bd. reflexivity.
Qed.
Lemma is_tpi : is tpi PI.
Proof. eapply (is_widen _ _ X Y); [apply (is_cst _ _ X Y)|]. pose proof PI_lo30. pose proof PI_hi30. unfold PIz. change (10 ^ 18)%Z with 1000000000000000000%Z. apply Rabs_le. lra. Qed.
Lemma bb_small : Rabs (PI * (horner BC (PI * PI * r) * (ze r * Bz r)) - IZR W0z / IZR (10 ^ 20)) <= 3 / 10 ^ 17.
Proof.
  assert (T : is tbb0 (PI * (horner BC (PI * PI * r) * (ze r * Bz r)) - IZR W0z / IZR (10 ^ 20))).
  { exact (Sub _ _ _ _ (Mul _ _ _ _ is_tpi (Mul _ _ _ _ (is_horner _ _ X Y BC _ _ (Mul _ _ _ _ (Mul _ _ _ _ is_tpi is_tpi) is_tr)) (Mul _ _ _ _ is_tze is_tBz))) (is_cst _ _ X Y W0z (10 ^ 20))). }
  rewrite vbb0_eq in T. eapply Rle_trans; [apply (parts_bound 8 vbb0 _ _ _ _ ltac:(lia) X Y T vbb0_small); vm_compute; reflexivity|].
  eapply Rle_trans; [apply div_bd; reflexivity|]. right. change (10 ^ 17)%Z with 100000000000000000%Z. field.
Qed.
Lemma tm_range : forall t f a b, is t f -> valid t = true -> (0 < b)%Z -> (bound (tm_sub t (tm_cst a b)) * 1000 <=? SC)%Z = true -> Rabs (f - IZR a / IZR b) <= / 1000.
Proof.
  intros t f a b T V Hb C. apply Z.leb_le in C. pose proof (Sub _ _ _ _ T (is_cst _ _ X Y a b)) as U. pose proof (is_bound _ _ X Y _ _ U) as K. eapply Rle_trans; [apply K|]. { cbn [valid tm_sub tm_add tm_opp tm_cst]. rewrite V. apply Z.ltb_lt. exact Hb. }
  apply IZR_le in C. rewrite mult_IZR in C. pose proof SC_pos. apply Rmult_le_reg_r with (IZR SC); [assumption|]. unfold Rdiv. rewrite Rmult_assoc, Rinv_l by lra. lra.
Qed.
Lemma ze_range : Rabs (ze r - 1) <= / 1000.
Proof. replace 1 with (IZR 1 / IZR 1) by field. apply (tm_range tze); [exact is_tze|vm_compute; reflexivity|lia|vm_compute; reflexivity]. Qed.
Lemma Bz_range : Rabs (Bz r - 1) <= / 1000.
Proof. replace 1 with (IZR 1 / IZR 1) by field. apply (tm_range tBz); [exact is_tBz|vm_compute; reflexivity|lia|vm_compute; reflexivity]. Qed.
Lemma mb1_range : Rabs (mb1 r) <= / 5.
Proof. pose proof (tm_range tmb1 _ 125 1000 is_tmb1) as K. specialize (K ltac:(vm_compute; reflexivity) ltac:(lia) ltac:(vm_compute; reflexivity)). apply abs_both in K. apply Rabs_le. lra. Qed.
End B.
