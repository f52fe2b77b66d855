(** Derivatives of the recurrence polynomials and the differential equations of the
    Hermite, Laguerre and Jacobi families. *)
From Coq Require Import Reals Lra Lia List.
From Coquelicot Require Import Coquelicot.
From Verif Require Import RSum PolySpec PolyProof EigenSpec EigenProof Improper.
Local Open Scope R_scope.

Lemma two_step : forall Q : nat -> Prop, Q O -> Q 1%nat -> (forall k, Q k -> Q (S k) -> Q (S (S k))) -> forall k, Q k.
Proof. intros Q H0 H1 HS k. enough (Q k /\ Q (S k)) by tauto. induction k; [auto|]. destruct IHk; auto. Qed.

Section Derivatives.
Variables (a b : nat -> R).
Notation P := (monic a b).

Fixpoint dmonic (k : nat) (x : R) : R :=
  match k with
  | O => 0
  | S j => P j x + (x - a j) * dmonic j x - match j with O => 0 | S i => b i * b i * dmonic i x end
  end.
Fixpoint ddmonic (k : nat) (x : R) : R :=
  match k with
  | O => 0
  | S j => 2 * dmonic j x + (x - a j) * ddmonic j x - match j with O => 0 | S i => b i * b i * ddmonic i x end
  end.
Lemma dmonic_SS : forall k x, dmonic (S (S k)) x = P (S k) x + (x - a (S k)) * dmonic (S k) x - b k * b k * dmonic k x.
Proof. reflexivity. Qed.
Lemma ddmonic_SS : forall k x, ddmonic (S (S k)) x = 2 * dmonic (S k) x + (x - a (S k)) * ddmonic (S k) x - b k * b k * ddmonic k x.
Proof. reflexivity. Qed.

Lemma lin_derive : forall (f g f' g' : R -> R) c e x, is_derive f x (f' x) -> is_derive g x (g' x) ->
  is_derive (fun y => (y - c) * f y - e * g y) x (f x + (x - c) * f' x - e * g' x).
Proof.
  intros f g f' g' c e x Hf Hg.
  apply (is_derive_minus (K := R_AbsRing) (V := R_NormedModule) (fun y => (y - c) * f y) (fun y => e * g y) x (f x + (x - c) * f' x) (e * g' x)).
  - replace (f x + (x - c) * f' x) with (1 * f x + (x - c) * f' x) by ring.
    apply (is_derive_mult (fun y => y - c) f x 1 (f' x)); [auto_derive; [trivial|ring]|exact Hf|intros; apply Rmult_comm].
  - apply (is_derive_scal g x e (g' x)). exact Hg.
Qed.
Lemma dmonic_der : forall k x, is_derive (P k) x (dmonic k x).
Proof.
  intros k. pattern k. apply two_step; clear k.
  - intros x. apply (is_derive_const (K := R_AbsRing) (V := R_NormedModule) 1 x).
  - intros x. simpl. auto_derive; [trivial|ring].
  - intros k Hk HSk x. rewrite dmonic_SS.
    apply (lin_derive (P (S k)) (P k) (dmonic (S k)) (dmonic k) (a (S k)) (b k * b k) x); [apply HSk|apply Hk].
Qed.
Lemma ddmonic_der : forall k x, is_derive (dmonic k) x (ddmonic k x).
Proof.
  intros k. pattern k. apply two_step; clear k.
  - intros x. apply (is_derive_const (K := R_AbsRing) (V := R_NormedModule) 0 x).
  - intros x. apply (is_derive_ext (fun _ => 1)); [intros y; change (1 = 1 + (y - a O) * 0 - 0); ring|].
    assert (E : forall y : R, ddmonic 1 y = 0) by (intros; simpl; ring). rewrite E. apply (is_derive_const (K := R_AbsRing) (V := R_NormedModule) 1 x).
  - intros k Hk HSk x. rewrite ddmonic_SS.
    replace (2 * dmonic (S k) x + (x - a (S k)) * ddmonic (S k) x - b k * b k * ddmonic k x)
      with (dmonic (S k) x + (dmonic (S k) x + (x - a (S k)) * ddmonic (S k) x - b k * b k * ddmonic k x)) by ring.
    apply (is_derive_ext (fun y => P (S k) y + ((y - a (S k)) * dmonic (S k) y - b k * b k * dmonic k y))).
    { assert (E : forall y : R, P (S k) y + ((y - a (S k)) * dmonic (S k) y - b k * b k * dmonic k y) = dmonic (S (S k)) y)
        by (intros; rewrite dmonic_SS; ring). exact E. }
    apply (is_derive_plus (K := R_AbsRing) (V := R_NormedModule)); [apply dmonic_der|].
    apply (lin_derive (dmonic (S k)) (dmonic k)); [apply HSk|apply Hk].
Qed.
Lemma step_poly : forall k f g c e, polynomial (S k) f -> polynomial k g -> polynomial (S (S k)) (fun x => (x - c) * f x - e * g x).
Proof.
  intros k f g c e Hf Hg.
  apply (poly_ext _ (fun x => (x * f x + (- c) * f x) + (- e) * g x)); [intros; ring|].
  apply poly_add; [apply poly_add; [apply poly_mulx; exact Hf|]|]; apply poly_scal.
  - apply (poly_weaken (S k)); [lia|exact Hf].
  - apply (poly_weaken k); [lia|exact Hg].
Qed.
Lemma dmonic_poly : forall k, polynomial k (dmonic k).
Proof.
  intros k. pattern k. apply two_step; clear k.
  - apply poly_const.
  - apply (poly_ext _ (fun _ => 1)); [intros; simpl; ring|apply poly_const].
  - intros k Hk HSk. apply (poly_ext _ (fun x => P (S k) x + ((x - a (S k)) * dmonic (S k) x - b k * b k * dmonic k x))); [intros; rewrite dmonic_SS; ring|].
    apply poly_add; [apply (poly_weaken (S k)); [lia|apply monic_poly]|]. apply step_poly; assumption.
Qed.
Lemma ddmonic_poly : forall k, polynomial k (ddmonic k).
Proof.
  intros k. pattern k. apply two_step; clear k.
  - apply poly_const.
  - apply (poly_ext _ (fun _ => 0)); [intros; simpl; ring|apply poly_const].
  - intros k Hk HSk. apply (poly_ext _ (fun x => 2 * dmonic (S k) x + ((x - a (S k)) * ddmonic (S k) x - b k * b k * ddmonic k x))); [intros; rewrite ddmonic_SS; ring|].
    apply poly_add; [apply poly_scal; apply (poly_weaken (S k)); [lia|apply dmonic_poly]|]. apply step_poly; assumption.
Qed.
End Derivatives.

Lemma derive_eq : forall (f g : R -> R) x l m, (forall y, f y = g y) -> is_derive f x l -> is_derive g x m -> l = m.
Proof.
  intros f g x l m E Hf Hg. rewrite <- (is_derive_unique f x l Hf), <- (is_derive_unique g x m Hg). apply Derive_ext, E.
Qed.

(** ** Hermite: a = 0, b_i^2 = (i+1)/2 *)
Section HermiteODE.
Variables (a b : nat -> R).
Hypothesis Ha : forall i, a i = 0.
Hypothesis Hb : forall i, b i * b i = INR (S i) / 2.
Notation P := (monic a b). Notation P' := (dmonic a b). Notation P'' := (ddmonic a b).

Lemma hermite_d : forall k x, P' (S k) x = INR (S k) * P k x.
Proof.
  intros k x. pattern k. apply two_step; clear k.
  - simpl. ring.
  - simpl. rewrite !Ha. rewrite Hb. simpl. field.
  - intros k Hk HSk. rewrite dmonic_SS, HSk, Hk, monic_SS, !Ha, !Hb, !S_INR. field.
Qed.
Lemma hermite_dd : forall k x, P'' (S k) x = INR (S k) * P' k x.
Proof.
  intros k x. apply (derive_eq (P' (S k)) (fun y => INR (S k) * P k y) x); [intros; apply hermite_d|apply ddmonic_der|].
  apply (is_derive_scal (P k) x (INR (S k))). apply dmonic_der.
Qed.
Lemma hermite_ode : forall k x, 1 * P'' k x + (-2 * x) * P' k x = (-2 * INR k) * P k x.
Proof.
  intros k x. destruct k as [|k]; [simpl; ring|]. rewrite hermite_dd, hermite_d.
  destruct k as [|k].
  - simpl. rewrite Ha. ring.
  - rewrite hermite_d, monic_SS, Ha, Hb, !S_INR. field.
Qed.
End HermiteODE.

(** ** Laguerre: a_i = 2i+1+alpha, b_i^2 = (i+1)(i+1+alpha) *)
Section LaguerreODE.
Variables (al : R) (a b : nat -> R).
Hypothesis Ha : forall i, a i = al + 1 + 2 * INR i.
Hypothesis Hb : forall i, b i * b i = INR (S i) * (INR (S i) + al).
Notation P := (monic a b). Notation P' := (dmonic a b). Notation P'' := (ddmonic a b).

(** x P_k' = k P_k + b_{k-1}^2 P_{k-1}, and its derivative *)
Lemma laguerre_s : forall k x, x * P' (S k) x = INR (S k) * P (S k) x + b k * b k * P k x.
Proof.
  intros k x. pattern k. apply two_step; clear k.
  - simpl. rewrite !Ha, Hb. simpl. ring.
  - rewrite dmonic_SS, monic_SS. rewrite !Hb, !Ha. simpl. rewrite !Ha, ?Hb. simpl. ring.
  - intros k Hk HSk. rewrite dmonic_SS.
    transitivity (x * P (S (S k)) x + (x - a (S (S k))) * (x * P' (S (S k)) x) - b (S k) * b (S k) * (x * P' (S k) x)); [ring|].
    rewrite HSk, Hk. rewrite (monic_SS a b (S k)), (monic_SS a b k). rewrite !Hb, !Ha, !S_INR. ring.
Qed.
Lemma laguerre_ds : forall k x, P' (S k) x + x * P'' (S k) x = INR (S k) * P' (S k) x + b k * b k * P' k x.
Proof.
  intros k x.
  apply (derive_eq (fun y => y * P' (S k) y) (fun y => INR (S k) * P (S k) y + b k * b k * P k y) x); [intros; apply laguerre_s| |].
  - replace (P' (S k) x + x * P'' (S k) x) with (1 * P' (S k) x + x * P'' (S k) x) by ring.
    apply (is_derive_mult (fun y => y) (P' (S k)) x 1 (P'' (S k) x)); [apply (is_derive_id (K := R_AbsRing))|apply ddmonic_der|intros; apply Rmult_comm].
  - apply (is_derive_plus (K := R_AbsRing) (V := R_NormedModule) (fun y => INR (S k) * P (S k) y) (fun y => b k * b k * P k y)).
    + apply (is_derive_scal (P (S k)) x (INR (S k))). apply dmonic_der.
    + apply (is_derive_scal (P k) x (b k * b k)). apply dmonic_der.
Qed.
(** the differential equation, times x *)
Lemma laguerre_ode : forall k x, 0 < x -> x * P'' k x + (al + 1 - x) * P' k x = (- INR k) * P k x.
Proof.
  intros k x Hx. apply Rmult_eq_reg_l with x; [|lra]. destruct k as [|k]; [simpl; ring|].
  replace (x * P'' (S k) x) with (INR (S k) * P' (S k) x + b k * b k * P' k x - P' (S k) x) by (rewrite <- laguerre_ds; ring).
  transitivity ((INR (S k) + al - x) * (x * P' (S k) x) + b k * b k * (x * P' k x)); [ring|].
  rewrite laguerre_s. destruct k as [|k].
  - simpl. rewrite Ha, Hb. simpl. ring.
  - rewrite laguerre_s, monic_SS, !Hb, !Ha, !S_INR. ring.
Qed.
End LaguerreODE.

(** ** Jacobi *)
Section JacobiODE.
Variables (al be : R) (a b : nat -> R).
Hypothesis Hal : -1 < al.
Hypothesis Hbe : -1 < be.
Let S_ (k : nat) : R := 2 * INR k + al + be.
Hypothesis Ha0 : a O = (be - al) / (2 + be + al).
Hypothesis HaS : forall k, a (S k) = (be * be - al * al) / (S_ (S k) * (S_ (S k) + 2)).
(** b_0^2 in lowest terms: the common factor al + be + 1 is cancelled *)
Hypothesis Hb0 : b O * b O = 4 * (1 + al) * (1 + be) / ((2 + al + be) * (2 + al + be) * (3 + al + be)).
Hypothesis HbS : forall k, b (S k) * b (S k) =
  4 * INR (S (S k)) * (INR (S (S k)) + al) * (INR (S (S k)) + be) * (INR (S (S k)) + al + be)
  / (S_ (S (S k)) * S_ (S (S k)) * (S_ (S (S k)) + 1) * (S_ (S (S k)) - 1)).
Notation P := (monic a b). Notation P' := (dmonic a b). Notation P'' := (ddmonic a b).

Let A (k : nat) : R := match k with O => 0 | S _ => INR k * (al - be) / S_ k end.
Let bt (k : nat) : R := match k with O => 0 | S i => b i * b i end.

Lemma S_pos : forall k, 0 < S_ (S k).
Proof. intros k. unfold S_. rewrite S_INR. assert (H := pos_INR k). lra. Qed.
Lemma S_next : forall k, S_ (S k) = S_ k + 2.
Proof. intros k. unfold S_. rewrite S_INR. ring. Qed.

Lemma I1 : forall k, A k - A (S k) = a k.
Proof.
  intros [|k].
  - rewrite Ha0. unfold A, S_. simpl. field. lra.
  - rewrite HaS. assert (H := S_pos k). assert (H2 := S_pos (S k)). unfold A, S_ in *. rewrite !S_INR in *. field. lra.
Qed.
Lemma AS : forall k, A k * S_ k = INR k * (al - be).
Proof. intros [|k]; [unfold A; simpl; ring|]. assert (H := S_pos k). unfold A. field. lra. Qed.
Lemma I2 : forall k, a (S k) * (S_ (S k) + 2) = a k * S_ k.
Proof.
  intros [|k].
  - rewrite HaS, Ha0. assert (H := S_pos 0). unfold S_ in *. simpl in *. field. lra.
  - rewrite !HaS. assert (H := S_pos k). assert (H2 := S_pos (S k)). unfold S_ in *. rewrite !S_INR in *. field. lra.
Qed.
Lemma J2 : forall k, A k * A k + (be - al) * A k - (S_ k + 1) * (S_ k - 1) * bt k = - (INR k * (INR k + al + be)).
Proof.
  intros [|[|k]].
  - unfold A, bt. simpl. ring.
  - unfold bt. rewrite Hb0. unfold A, S_. simpl. field. lra.
  - unfold bt. rewrite HbS. assert (H := S_pos (S k)). assert (K := pos_INR k). unfold A, S_ in *. rewrite !S_INR in *. field. lra.
Qed.
Lemma I3 : forall k, 1 - a k * a k + (S_ k - 1) * bt k = (S_ k + 3) * bt (S k).
Proof.
  intros [|[|k]].
  - unfold bt. rewrite Ha0, Hb0. unfold S_. simpl. field. lra.
  - unfold bt. rewrite HaS, Hb0, HbS. unfold S_. simpl. field. lra.
  - unfold bt. rewrite HaS, !HbS. assert (K := pos_INR k). unfold S_ in *. rewrite !S_INR in *. field. repeat split; lra.
Qed.

Definition prevP (k : nat) (x : R) : R := match k with O => 0 | S i => P i x end.
Lemma monic_rec : forall k x, P (S k) x = (x - a k) * P k x - bt k * prevP k x.
Proof. intros [|k] x; [simpl; ring|reflexivity]. Qed.
Lemma monic_prev : forall k x, bt k * prevP k x = (x - a k) * P k x - P (S k) x.
Proof. intros k x. rewrite monic_rec. ring. Qed.

Lemma jacobi_s : forall k x, (1 - x * x) * P' k x = (A k - INR k * x) * P k x + (S_ k + 1) * bt k * prevP k x.
Proof.
  intros k x. pattern k. apply two_step; clear k.
  - unfold A, bt. simpl. ring.
  - assert (E1 := I1 0). assert (E3 := I3 0). rewrite (S_next 0). simpl prevP. unfold bt in *.
    assert (E0 : A 0 = 0) by reflexivity. rewrite E0 in E1.
    transitivity (1 - x * x); [simpl; ring|].
    replace ((S_ 0 + 2 + 1) * (b O * b O)) with (1 - a O * a O) by lra.
    replace (A 1) with (- a O) by lra. simpl. ring.
  - intros k Hk HSk.
    transitivity ((1 - x * x) * P (S k) x + (x - a (S k)) * ((1 - x * x) * P' (S k) x) - bt (S k) * ((1 - x * x) * P' k x)).
    { rewrite dmonic_SS. unfold bt. ring. }
    rewrite Hk, HSk. 
    replace ((S_ k + 1) * bt k * prevP k x) with ((S_ k + 1) * ((x - a k) * P k x - P (S k) x)) by (rewrite <- monic_prev; ring).
    rewrite (monic_rec (S k)). change (prevP (S (S k)) x) with (P (S k) x). change (prevP (S k) x) with (P k x).
    assert (E1 := I1 (S k)). assert (E1' := I1 k). assert (E2 := I2 k). assert (E3 := I3 (S k)). rewrite !S_next in *.
    set (p1 := P (S k) x) in *. set (p0 := P k x) in *. set (s := S_ k) in *.
    set (b1 := bt (S k)) in *. set (b2 := bt (S (S k))) in *. set (a1 := a (S k)) in *. set (a0 := a k) in *.
    rewrite !S_INR. set (n := INR k) in *.
    replace (A (S (S k))) with (A k - a0 - a1) by lra. replace (A (S k)) with (A k - a0) by lra. set (A0 := A k) in *.
    replace ((s + 2 + 2 + 1) * b2 * p1) with ((1 - a1 * a1 + (s + 2 - 1) * b1) * p1) by (rewrite E3; ring).
    apply Rminus_diag_uniq.
    match goal with |- ?l - ?r = 0 => replace (l - r) with (- (b1 * p0) * (a1 * (s + 2 + 2) - a0 * s)) by ring end.
    rewrite E2. ring.
Qed.
Lemma jacobi_ds : forall k x, -2 * x * P' k x + (1 - x * x) * P'' k x =
  - INR k * P k x + (A k - INR k * x) * P' k x + (S_ k + 1) * bt k * (match k with O => 0 | S i => P' i x end).
Proof.
  intros k x.
  apply (derive_eq (fun y => (1 - y * y) * P' k y) (fun y => (A k - INR k * y) * P k y + (S_ k + 1) * bt k * prevP k y) x); [intros; apply jacobi_s| |].
  - apply (is_derive_mult (fun y => 1 - y * y) (P' k) x (-2 * x) (P'' k x)); [auto_derive; [trivial|ring]|apply ddmonic_der|intros; apply Rmult_comm].
  - apply (is_derive_plus (K := R_AbsRing) (V := R_NormedModule) (fun y => (A k - INR k * y) * P k y) (fun y => (S_ k + 1) * bt k * prevP k y)).
    + apply (is_derive_mult (fun y => A k - INR k * y) (P k) x (- INR k) (P' k x)); [auto_derive; [trivial|ring]|apply dmonic_der|intros; apply Rmult_comm].
    + apply (is_derive_scal (prevP k) x ((S_ k + 1) * bt k)). destruct k; [apply (is_derive_const (K := R_AbsRing) (V := R_NormedModule) 0 x)|apply dmonic_der].
Qed.
Lemma jacobi_ode : forall k x, -1 < x < 1 ->
  (1 - x * x) * P'' k x + (be - al - (al + be + 2) * x) * P' k x = (- (INR k * (INR k + al + be + 1))) * P k x.
Proof.
  intros k x Hx. apply Rmult_eq_reg_l with (1 - x * x); [|nra].
  destruct k as [|k]; [simpl; ring|].
  assert (D := jacobi_ds (S k) x). cbn [S_] in D.
  replace ((1 - x * x) * P'' (S k) x) with (2 * x * P' (S k) x - INR (S k) * P (S k) x + (A (S k) - INR (S k) * x) * P' (S k) x + (S_ (S k) + 1) * bt (S k) * P' k x) by lra.
  transitivity ((A (S k) + be - al - (INR (S k) + al + be) * x) * ((1 - x * x) * P' (S k) x) + (S_ (S k) + 1) * bt (S k) * ((1 - x * x) * P' k x)
                - (1 - x * x) * INR (S k) * P (S k) x); [ring|].
  rewrite !jacobi_s.
  replace ((S_ k + 1) * bt k * prevP k x) with ((S_ k + 1) * ((x - a k) * P k x - P (S k) x)) by (rewrite <- monic_prev; ring).
  change (prevP (S k) x) with (P k x). assert (E1 := I1 k). assert (E2 := AS k). assert (E3 := AS (S k)). assert (E4 := J2 (S k)).
  assert (ES : S_ k = 2 * INR k + al + be) by reflexivity.
  rewrite !S_next in *. rewrite ES in *. rewrite !S_INR in *.
  set (p1 := P (S k) x) in *. set (p0 := P k x) in *. set (n := INR k) in *.
  set (b1 := bt (S k)) in *. set (A1 := A (S k)) in *. set (A0 := A k) in *.
  replace (a k) with (A0 - A1) by lra.
  apply Rminus_diag_uniq.
  match goal with |- ?l - ?r = 0 => replace (l - r) with
    ((2 * n + al + be + 3) * b1 * p0 * (A1 * (2 * n + al + be + 2) - A0 * (2 * n + al + be) + be - al)
     + p1 * (A1 * A1 + (be - al) * A1 - (2 * n + al + be + 2 + 1) * (2 * n + al + be + 2 - 1) * b1 + (n + 1) * (n + 1 + al + be))
     - p1 * x * (A1 * (2 * n + al + be + 2) - (n + 1) * (al - be))) by ring end.
  rewrite E2, E3, E4. ring.
Qed.
End JacobiODE.
