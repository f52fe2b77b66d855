(** The map T(a) = a (1 + h phi(a^2, h)): derivatives and bounds. *)
From Coq Require Import Reals ZArith List Lra Lia Psatz.
From Coquelicot Require Import Coquelicot.
From Verif Require Import TM SinSer BogPoly.
Import ListNotations.
Local Open Scope R_scope.

Lemma der_from_ev : forall l i x, ev1 (der_from i l) x = IZR i * ev1 l x + x * ev1 (der1 l) x.
Proof.
  induction l as [|c l IH]; intros i x; [unfold der1; cbn; ring|]. change (der1 (c :: l)) with (der_from 1 l). cbn [der_from ev1]. rewrite !IH, mult_IZR, plus_IZR. ring.
Qed.
Lemma odd_from_ev : forall l i x, ev1 (odd_from i l) x = IZR i * ev1 l x + 2 * x * ev1 (der1 l) x.
Proof.
  induction l as [|c l IH]; intros i x; [unfold der1; cbn; ring|]. change (der1 (c :: l)) with (der_from 1 l). cbn [odd_from ev1]. rewrite IH, der_from_ev, mult_IZR, plus_IZR. ring.
Qed.
Lemma ev1_d : forall l x, is_derive (ev1 l) x (ev1 (der1 l) x).
Proof.
  induction l as [|c l IH]; intros x; [apply (is_derive_const (K := R_AbsRing) (V := R_NormedModule) 0 x)|]. change (der1 (c :: l)) with (der_from 1 l). rewrite der_from_ev. cbn [ev1]. evar_last.
  { apply (is_derive_plus (fun _ => IZR c) (fun x => x * ev1 l x)); [apply is_derive_const|]. apply (is_derive_mult (fun x => x) (ev1 l)); [apply is_derive_id|apply IH|intros; apply Rmult_comm]. }
  unfold plus, zero, mult, one; simpl. unfold mult, one; simpl. ring.
Qed.
Lemma ev2_d : forall l x y, is_derive (fun x => ev2 l x y) x (ev2 (map der1 l) x y).
Proof.
  induction l as [|c l IH]; intros x y; cbn [ev2 map]; [apply (is_derive_const (K := R_AbsRing) (V := R_NormedModule) 0 x)|]. evar_last.
  { apply (is_derive_plus (ev1 c) (fun x => y * ev2 l x y)); [apply ev1_d|]. apply is_derive_scal. apply IH. } unfold plus; simpl. ring.
Qed.
Lemma ev2_odd : forall l x y, ev2 (map (odd_from 1) l) x y = ev2 l x y + 2 * x * ev2 (map der1 l) x y.
Proof. induction l as [|c l IH]; intros x y; cbn [ev2 map]; [ring|]. rewrite odd_from_ev, IH. ring. Qed.

Lemma gen_d : forall l k h x, is_derive (fun x => ev2 l (ux x) (uh h) * k) x (ev2 (map der1 l) (ux x) (uh h) * (k * (250 / 617))).
Proof.
  intros l k h x. evar_last. { apply (is_derive_ext (fun x => k * ev2 l (ux x) (uh h))); [intros; apply Rmult_comm|]. apply is_derive_scal.
    apply (is_derive_comp (fun x => ev2 l x (uh h)) ux); [apply ev2_d|]. instantiate (1 := 250 / 617). unfold ux. auto_derive; [trivial|ring]. }
  unfold scal; simpl. unfold mult; simpl. field.
Qed.
Lemma phi_d : forall h x, is_derive (phi h) x (phi1 h x).
Proof. intros. unfold phi, phi1. evar_last; [apply (gen_d PH (/ IZR SC))|]. unfold PD. field. apply SC_nz. Qed.
Lemma Af_d : forall h x, is_derive (Af h) x (Af1 h x).
Proof. intros. unfold Af, Af1. evar_last; [apply (gen_d PA (/ IZR SC))|]. unfold PA1. field. apply SC_nz. Qed.
Lemma Af1_d : forall h x, is_derive (Af1 h) x (Af2 h x).
Proof. intros. unfold Af1, Af2. apply (is_derive_ext (fun x => ev2 PA1 (ux x) (uh h) * (/ IZR SC * (250 / 617)))); [intros; simpl; field; apply SC_nz|]. evar_last; [apply (gen_d PA1)|]. unfold PA2. field. apply SC_nz. Qed.
Lemma Af_eq : forall h x, Af h x = phi h x + 2 * x * phi1 h x.
Proof. intros. unfold Af, phi, phi1, PA, PD. rewrite ev2_odd. unfold ux. field. apply SC_nz. Qed.

(** size of the coefficients on the range *)
Definition vphi : tm := Eval vm_compute in tphi.
Definition vphi1 : tm := Eval vm_compute in tphi1.
Definition vA : tm := Eval vm_compute in tA.
Definition vA1 : tm := Eval vm_compute in tA1.
Lemma vphi_small : (parts 8 (Z.of_nat 8) vphi <= SC / 10)%Z. Proof. apply Z.leb_le. vm_compute. reflexivity. Qed.
Lemma vphi1_small : (parts 8 (Z.of_nat 8) vphi1 <= SC / 10)%Z. Proof. apply Z.leb_le. vm_compute. reflexivity. Qed.
Lemma vA_small : (parts 8 (Z.of_nat 8) vA <= 3 * SC / 20)%Z. Proof. apply Z.leb_le. vm_compute. reflexivity. Qed.
Lemma vA1_small : (parts 8 (Z.of_nat 8) vA1 <= SC / 4)%Z. Proof. apply Z.leb_le. vm_compute. reflexivity. Qed.
Section B.
Variables h x : R.
Hypothesis Hx : 0 <= x <= 617 / 250. Hypothesis Hh : 0 <= h <= / 10100.
Lemma sc_bound : forall (v : Z) f a b, (0 < b)%Z -> Rabs f <= IZR (a * SC / b) / IZR SC -> Rabs f <= IZR a / IZR b.
Proof.
  intros v f a b Hb H. eapply Rle_trans; [exact H|]. pose proof SC_pos as P. pose proof (zdiv_err (a * SC) b Hb) as E. rewrite mult_IZR in E. apply Rmult_le_reg_r with (IZR SC); [lra|]. unfold Rdiv at 1. rewrite Rmult_assoc, Rinv_l, Rmult_1_r by lra.
  apply IZR_lt in Hb. replace (IZR a / IZR b * IZR SC) with (IZR a * IZR SC / IZR b) by (field; lra). lra.
Qed.
Lemma phi_small : Rabs (phi h x) <= 1 / 10.
Proof. pose proof (is_tphi h x Hx Hh) as T. assert (E : tphi = vphi) by (vm_cast_no_check (eq_refl vphi)). rewrite E in T. apply (sc_bound 0 _ 1 10 ltac:(lia)). rewrite Z.mul_1_l. apply (parts_bound 8 vphi _ _ _ _ ltac:(lia) (ux_unit x Hx) (uh_unit h Hh) T vphi_small). vm_compute. reflexivity. Qed.
Lemma phi1_small : Rabs (phi1 h x) <= 1 / 10.
Proof. pose proof (is_tphi1 h x Hx Hh) as T. assert (E : tphi1 = vphi1) by (vm_cast_no_check (eq_refl vphi1)). rewrite E in T. apply (sc_bound 0 _ 1 10 ltac:(lia)). rewrite Z.mul_1_l. apply (parts_bound 8 vphi1 _ _ _ _ ltac:(lia) (ux_unit x Hx) (uh_unit h Hh) T vphi1_small). vm_compute. reflexivity. Qed.
Lemma A_small : Rabs (Af h x) <= 3 / 20.
Proof. pose proof (is_tA h x Hx Hh) as T. assert (E : tA = vA) by (vm_cast_no_check (eq_refl vA)). rewrite E in T. apply (sc_bound 0 _ 3 20 ltac:(lia)). apply (parts_bound 8 vA _ _ _ _ ltac:(lia) (ux_unit x Hx) (uh_unit h Hh) T vA_small). vm_compute. reflexivity. Qed.
Lemma A1_small : Rabs (Af1 h x) <= 1 / 4.
Proof. pose proof (is_tA1 h x Hx Hh) as T. assert (E : tA1 = vA1) by (vm_cast_no_check (eq_refl vA1)). rewrite E in T. apply (sc_bound 0 _ 1 4 ltac:(lia)). rewrite Z.mul_1_l. apply (parts_bound 8 vA1 _ _ _ _ ltac:(lia) (ux_unit x Hx) (uh_unit h Hh) T vA1_small). vm_compute. reflexivity. Qed.
End B.
