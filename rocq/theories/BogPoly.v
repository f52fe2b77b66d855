(** The map from Bessel to Legendre angles as a polynomial: T = a (1 + h phi(a^2, h)), h = 1 / (n + 1/2)^2. *)
From Coq Require Import Reals ZArith List Lra Lia Psatz.
From Coquelicot Require Import Coquelicot.
From Verif Require Import TM SinSer.
Import ListNotations.
Local Open Scope R_scope.

Definition PH : list (list Z) := ([ [(-50371909150609105673290); (-8287858118957398930762); (-1948041317169086791045); (-480776601192587911698); (-119854195810340283934); (-29948427252366735340); (-7487529872983070901); (-1872252714259433562); (-468171819620162735); (-117071068950228547); (-29274853430644823); (-7320488699564192); (-1830566323567785); (-457752657703348); (-114465941157657); (-28623431207064); (-7157594705735); (-1789833008015); (-447566861267); (-111918874224); (-27986509931); (-6998325739); (-1750006102); (-437607718); (-109428484); (-27363761)];
  [976683056425358441; 587756767073897379; 286499513316982073; 119188571583283254; 44813828260739223; 15751389763710654; 5265042805120043; 1695330809435729; 531102186768409; 162946378551333; 49162515947379; 14624673502062; 4297438332041; 1249218715565; 359666745207; 102670554547; 29084686752; 8182627049; 2287829852; 636080686; 175946617; 48442338; 13280564; 3626661];
  [(-49301818281743); (-63768116214826); (-53368032780638); (-33862462870714); (-17994206007062); (-8511889523377); (-3689017272337); (-1488479481078); (-567833609582); (-208372983782); (-74801793480); (-26618369959); (-9461298364); (-3365617609); (-1195777071); (-422753997); (-148170288); (-51337497); (-17552582); (-5917254)] ])%Z.

Fixpoint der_from (i : Z) (l : list Z) : list Z := match l with [] => [] | c :: l => (i * c)%Z :: der_from (i + 1) l end.
Definition der1 (l : list Z) : list Z := der_from 1 (tl l).
Fixpoint odd_from (i : Z) (l : list Z) : list Z := match l with [] => [] | c :: l => (i * c)%Z :: odd_from (i + 2) l end.
Definition PA : list (list Z) := map (odd_from 1) PH.
Definition PD : list (list Z) := map der1 PH.
Definition PA1 : list (list Z) := map der1 PA.
Definition PA2 : list (list Z) := map der1 PA1.

Definition tx : tm := tm_scal 617 250 tm_x.
Definition th : tm := tm_scal 1 10100 tm_y.
Definition tphi : tm := tm_exact PH.
Definition tphi1 : tm := tm_scal 250 617 (tm_exact PD).
Definition tA : tm := tm_exact PA.
Definition tA1 : tm := tm_scal 250 617 (tm_exact PA1).
Definition tA2 : tm := tm_scal (250 * 250) (617 * 617) (tm_exact PA2).
Definition tu : tm := tm_add tm_one (tm_mul th tphi).
Definition tv : tm := tm_add tm_one (tm_mul th tA).
Definition ty : tm := tm_mul tx (tm_mul tu tu).
Definition tP1 : tm := tm_horner (alt 3 0 13) ty.
Definition tS : tm := tm_widen 1 (10 ^ 24) (tm_sub tm_one (tm_mul ty tP1)).
Definition tS1 : tm := tm_widen 1 (10 ^ 24) tP1.
Definition giS : list (list Z) := Eval vm_compute in inverse 8 tS.
Definition tiS : tm := tm_inv giS tS.
Definition trho : tm := tm_mul (tm_mul tS1 (tm_add tm_one tS)) (tm_mul tiS tiS).
Definition giu : list (list Z) := Eval vm_compute in inverse 4 tu.
Definition tiu : tm := tm_inv giu tu.
Definition giv : list (list Z) := Eval vm_compute in inverse 4 tv.
Definition tiv : tm := tm_inv giv tv.
Definition tQ : tm :=
  let a := tm_mul th (tm_mul tphi1 tiu) in
  let b := tm_mul th (tm_mul tA1 tiv) in
  tm_sub (tm_add (tm_add (tm_add (tm_add (tm_mul tA (tm_add (tm_scal 2 1 tm_one) (tm_mul th tA))) a) (tm_mul tx (tm_mul a a))) (tm_scal 1 4 (tm_mul (tm_mul tv tv) trho)))
    (tm_mul (tm_mul th (tm_add tA1 (tm_mul tx (tm_scal 2 1 tA2)))) tiv)) (tm_scal 3 1 (tm_mul tx (tm_mul b b))).

Definition vQ : tm := Eval vm_compute in tQ.
Lemma vQ_eq : tQ = vQ. Proof. vm_cast_no_check (eq_refl vQ). Qed.
Lemma vQ_small : (parts 32 (Z.of_nat 32) vQ <= 17 * SC / 10 ^ 13)%Z. Proof. apply Z.leb_le. vm_cast_no_check (eq_refl true). Qed.

(** The functions of x = a^2 and h *)
Definition ux (x : R) : R := x * (250 / 617).
Definition uh (h : R) : R := h * 10100.
Definition phi (h x : R) : R := ev2 PH (ux x) (uh h) / IZR SC.
Definition phi1 (h x : R) : R := ev2 PD (ux x) (uh h) / IZR SC * (250 / 617).
Definition Af (h x : R) : R := ev2 PA (ux x) (uh h) / IZR SC.
Definition Af1 (h x : R) : R := ev2 PA1 (ux x) (uh h) / IZR SC * (250 / 617).
Definition Af2 (h x : R) : R := ev2 PA2 (ux x) (uh h) / IZR SC * (250 * 250 / (617 * 617)).
Definition Qf (h x rho : R) : R :=
  let f := phi h x in let f1 := phi1 h x in let A := Af h x in let A1 := Af1 h x in let A2 := Af2 h x in
  A * (2 + h * A) + h * (f1 * / (1 + h * f)) + x * (h * (f1 * / (1 + h * f)) * (h * (f1 * / (1 + h * f)))) + (1 + h * A) * (1 + h * A) * rho * (1 / 4) +
  h * (A1 + x * (A2 * (2 / 1))) * / (1 + h * A) - x * (h * (A1 * / (1 + h * A)) * (h * (A1 * / (1 + h * A)))) * (3 / 1).
(** sin T / T and (1 - sin T / T) / T^2 as functions of y = T^2 *)
Definition sinc_pair (y S S1 : R) : Prop := Rabs (S - horner (alt 1 0 14) y) <= IZR 1 / IZR (10 ^ 24) /\ Rabs (S1 - horner (alt 3 0 13) y) <= IZR 1 / IZR (10 ^ 24).

Section B.
Variables h x : R.
Hypothesis Hx : 0 <= x <= 617 / 250. Hypothesis Hh : 0 <= h <= / 10100.
Lemma ux_unit : 0 <= ux x <= 1. Proof. unfold ux. lra. Qed.
Lemma uh_unit : 0 <= uh h <= 1. Proof. unfold uh. lra. Qed.
Notation is := (tm_is (ux x) (uh h)).
Let X := ux_unit. Let Y := uh_unit.
Lemma is_tx : is tx x. Proof. eapply (is_ext _ _ X Y); [apply (is_scal _ _ X Y); apply (is_x _ _ X Y)|unfold ux; field]. Qed.
Lemma is_th : is th h. Proof. eapply (is_ext _ _ X Y); [apply (is_scal _ _ X Y); apply (is_y _ _ X Y)|unfold uh; field]. Qed.
Lemma SC_nz : IZR SC <> 0. Proof. pose proof SC_pos. lra. Qed.
Lemma is_tphi : is tphi (phi h x). Proof. apply (is_exact _ _ X Y). unfold phi. pose proof SC_nz. field. exact H. Qed.
Lemma is_tA : is tA (Af h x). Proof. apply (is_exact _ _ X Y). unfold Af. pose proof SC_nz. field. exact H. Qed.
Lemma is_tphi1 : is tphi1 (phi1 h x).
Proof. eapply (is_ext _ _ X Y); [apply (is_scal _ _ X Y); apply (is_exact _ _ X Y _ (ev2 PD (ux x) (uh h) / IZR SC)); pose proof SC_nz as Z; field; exact Z|reflexivity]. Qed.
Lemma is_tA1 : is tA1 (Af1 h x).
Proof. eapply (is_ext _ _ X Y); [apply (is_scal _ _ X Y); apply (is_exact _ _ X Y _ (ev2 PA1 (ux x) (uh h) / IZR SC)); pose proof SC_nz as Z; field; exact Z|reflexivity]. Qed.
Lemma is_tA2 : is tA2 (Af2 h x).
Proof. eapply (is_ext _ _ X Y); [apply (is_scal _ _ X Y); apply (is_exact _ _ X Y _ (ev2 PA2 (ux x) (uh h) / IZR SC)); pose proof SC_nz as Z; field; exact Z|unfold Af2; rewrite !mult_IZR; reflexivity]. Qed.
Lemma is_two : is (tm_scal 2 1 tm_one) 2. Proof. eapply (is_ext _ _ X Y); [apply (is_scal _ _ X Y); apply (is_one _ _ X Y)|field]. Qed.
Lemma is_tu : is tu (1 + h * phi h x). Proof. apply (is_add _ _ X Y); [apply (is_one _ _ X Y)|apply (is_mul _ _ X Y); [apply is_th|apply is_tphi]]. Qed.
Lemma is_tv : is tv (1 + h * Af h x). Proof. apply (is_add _ _ X Y); [apply (is_one _ _ X Y)|apply (is_mul _ _ X Y); [apply is_th|apply is_tA]]. Qed.
Lemma is_ty : is ty (x * ((1 + h * phi h x) * (1 + h * phi h x))). Proof. apply (is_mul _ _ X Y); [apply is_tx|apply (is_mul _ _ X Y); apply is_tu]. Qed.
Lemma alt_shift : forall m k y, horner (alt 1 (S k) m) y = - horner (alt 3 k m) y.
Proof.
  induction m as [|m IH]; intros k y; [cbn [alt horner]; ring|].
  change (IZR (if Nat.even (S k) then 1 else -1) / IZR (zfact (2 * S k + 1)) + y * horner (alt 1 (S (S k)) m) y =
    - (IZR (if Nat.even k then 1 else -1) / IZR (zfact (2 * k + 3)) + y * horner (alt 3 (S k) m) y)).
  rewrite IH, !sgn. replace (2 * S k + 1)%nat with (2 * k + 3)%nat by lia. cbn [pow]. unfold Rdiv. ring.
Qed.
Lemma alt_one : forall y, horner (alt 1 0 14) y = 1 - y * horner (alt 3 0 13) y.
Proof.
  intros y. change (horner (alt 1 0 14) y) with (IZR 1 / IZR 1 + y * horner (alt 1 1 13) y). rewrite alt_shift. field.
Qed.
Lemma is_tS_of : forall S, Rabs (S - horner (alt 1 0 14) (x * ((1 + h * phi h x) * (1 + h * phi h x)))) <= IZR 1 / IZR (10 ^ 24) -> is tS S.
Proof.
  intros S E. rewrite alt_one in E. eapply (is_widen _ _ X Y); [|exact E].
  apply (is_sub _ _ X Y); [apply (is_one _ _ X Y)|]. apply (is_mul _ _ X Y); [apply is_ty|apply (is_horner _ _ X Y); apply is_ty].
Qed.
Section SS.
Variables S S1 : R.
Hypothesis HS : sinc_pair (x * ((1 + h * phi h x) * (1 + h * phi h x))) S S1.
Lemma is_tS : is tS S.
Proof. exact (is_tS_of S (proj1 HS)). Qed.
Lemma is_tS1 : is tS1 S1. Proof. eapply (is_widen _ _ X Y); [apply (is_horner _ _ X Y); apply is_ty|apply HS]. Qed.
Notation Mul := (is_mul _ _ X Y _ _ _ _). Notation Add := (is_add _ _ X Y _ _ _ _). Notation Sub := (is_sub _ _ X Y _ _ _ _). Notation Inv k := (is_inv _ _ X Y k _ _). Notation Scal a b := (is_scal _ _ X Y a b _ _).
Lemma is_trho : is trho (S1 * (1 + S) * (/ S * / S)).
Proof. exact (Mul (Mul is_tS1 (Add (is_one _ _ X Y) is_tS)) (Mul (Inv giS is_tS) (Inv giS is_tS))). Qed.
Lemma is_tQ : is tQ (Qf h x (S1 * (1 + S) * (/ S * / S))).
Proof.
  pose proof (Mul is_th (Mul is_tphi1 (Inv giu is_tu))) as Ta. pose proof (Mul is_th (Mul is_tA1 (Inv giv is_tv))) as Tb.
  exact (Sub (Add (Add (Add (Add (Mul is_tA (Add is_two (Mul is_th is_tA))) Ta) (Mul is_tx (Mul Ta Ta))) (Scal 1%Z 4%Z (Mul (Mul is_tv is_tv) is_trho)))
    (Mul (Mul is_th (Add is_tA1 (Mul is_tx (Scal 2%Z 1%Z is_tA2)))) (Inv giv is_tv))) (Scal 3%Z 1%Z (Mul is_tx (Mul Tb Tb)))).
Qed.
Lemma Q_small : Rabs (Qf h x (S1 * (1 + S) * (/ S * / S))) <= 17 / 10 ^ 13.
Proof.
  pose proof is_tQ as T. rewrite vQ_eq in T. eapply Rle_trans; [apply (parts_bound 32 vQ _ _ _ _ ltac:(lia) X Y T vQ_small); vm_compute; reflexivity|].
  pose proof (zdiv_err (17 * SC) (10 ^ 13) ltac:(lia)) as E. rewrite mult_IZR in E. pose proof SC_pos as P. set (z := IZR (17 * SC / 10 ^ 13)) in *. apply Rmult_le_reg_r with (IZR SC); [lra|]. unfold Rdiv at 1. rewrite Rmult_assoc, Rinv_l, Rmult_1_r by lra. lra.
Qed.
End SS.
End B.
