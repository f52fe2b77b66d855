(** The expansion coefficients of the code against the polynomial map and the exact weights. *)
From Coq Require Import Reals ZArith List Lra Lia Psatz.
From Coquelicot Require Import Coquelicot.
From Verif Require Import Arith RInst Machine Legendre RInstProof BesselTab TM SinSer BogPoly BogLeg McPoly.
Import ListNotations.
Local Open Scope R_scope.

(** coefficients of src/legendre/bogaert/mod.rs:141-148, constant term first *)
Definition S1c : list (Z * Z) := [(-416666666666663, 10 ^ 16); (4166666666651934, 10 ^ 18); (-14880952371390914, 10 ^ 20); (27557316896206124, 10 ^ 22); (-31314865463599204, 10 ^ 24); (24072468586433013, 10 ^ 26); (-12905299627428051, 10 ^ 28)]%Z.
Definition S2c : list (Z * Z) := [(8159722217729322, 10 ^ 18); (-2090222483878529, 10 ^ 18); (28211688605756045, 10 ^ 20); (-253300326008232, 10 ^ 19); (16196925945383627, 10 ^ 22); (-7530367713737693, 10 ^ 23); (220639421781871, 10 ^ 23)]%Z.
Definition S3c : list (Z * Z) := [(-4160121656202043, 10 ^ 18); (12865419854284513, 10 ^ 19); (-2513952932839659, 10 ^ 19); (4184981003295046, 10 ^ 20); (-5677978413568331, 10 ^ 21); (5558453302237962, 10 ^ 22); (-29705822537552623, 10 ^ 24)]%Z.
Definition W1c : list (Z * Z) := [(8333333333333333, 10 ^ 17); (-305555555555553, 10 ^ 16); (4365079365075981, 10 ^ 18); (-3262786595944122, 10 ^ 19); (14964459362502864, 10 ^ 21); (-4639686475532213, 10 ^ 22); (1037560669279168, 10 ^ 23); (-1752577007354238, 10 ^ 25); (23036572686037738, 10 ^ 28); (-22090286104461664, 10 ^ 30)]%Z.
Definition W2c : list (Z * Z) := [(-11111111111121492, 10 ^ 18); (2689594356947297, 10 ^ 18); (-40729718561133575, 10 ^ 20); (4659695306949684, 10 ^ 20); (-3818179186800454, 10 ^ 21); (21148388068594716, 10 ^ 23); (-7129128572336422, 10 ^ 24); (7676435450698932, 10 ^ 26); (3631174121526548, 10 ^ 27)]%Z.
Definition W3c : list (Z * Z) := [(6569664899264848, 10 ^ 18); (-9479693089585773, 10 ^ 20); (-10564605025407614, 10 ^ 20); (-4228880592829212, 10 ^ 20); (20055932639645834, 10 ^ 21); (-39793331651913525, 10 ^ 22); (5088983472886716, 10 ^ 22); (-4386471225202067, 10 ^ 23); (2018267912567033, 10 ^ 24)]%Z.

Definition tS0 : tm := tm_widen 1 (10 ^ 24) (tm_horner (alt 1 0 14) tx).
Definition gsg : list (list Z) := Eval vm_compute in inverse 8 tS0.
Definition tsg : tm := tm_inv gsg tS0.
Definition ths : tm := tm_mul th (tm_mul tsg tsg).
Definition tphc : tm := tm_mul tsg (tm_add (tm_horner S1c tx) (tm_mul ths (tm_add (tm_horner S2c tx) (tm_mul ths (tm_horner S3c tx))))).
Definition tdp : tm := tm_sub tphi tphc.
Definition twc : tm := tm_add tm_one (tm_mul ths (tm_add (tm_horner W1c tx) (tm_mul ths (tm_add (tm_horner W2c tx) (tm_mul ths (tm_horner W3c tx)))))).
Definition tdw : tm := tm_sub (tm_mul (tm_mul tS (tm_mul tu tv)) (tm_mul tsg twc)) tm_one.
Definition vdp : tm := Eval vm_compute in tdp.
Definition vdw : tm := Eval vm_compute in tdw.
Lemma vdp_eq : tdp = vdp. Proof. vm_cast_no_check (eq_refl vdp). Qed.
Lemma vdw_eq : tdw = vdw. Proof. vm_cast_no_check (eq_refl vdw). Qed.
Lemma vdp_small : (parts 32 (Z.of_nat 32) vdp <= SC * 2 / 10 ^ 16)%Z. Proof. apply Z.leb_le. vm_cast_no_check (eq_refl true). Qed.
Lemma vdw_small : (parts 32 (Z.of_nat 32) vdw <= SC * 4 / 10 ^ 15)%Z. Proof. apply Z.leb_le. vm_cast_no_check (eq_refl true). Qed.
Definition phc (h x s : R) : R := s * (horner S1c x + h * (s * s) * (horner S2c x + h * (s * s) * horner S3c x)).
Definition wcf (h x s : R) : R := 1 + h * (s * s) * (horner W1c x + h * (s * s) * (horner W2c x + h * (s * s) * horner W3c x)).
Section B.
Variables h x S0 S : R.
Hypothesis Hx : 0 <= x <= 617 / 250. Hypothesis Hh : 0 <= h <= / 10100.
Hypothesis HS0 : Rabs (S0 - horner (alt 1 0 14) x) <= IZR 1 / IZR (10 ^ 24).
Hypothesis HS : Rabs (S - horner (alt 1 0 14) (x * ((1 + h * phi h x) * (1 + h * phi h x)))) <= IZR 1 / IZR (10 ^ 24).
Notation is := (tm_is (ux x) (uh h)).
Let X := ux_unit x Hx. Let Y := uh_unit h Hh.
Notation Mul := (is_mul _ _ X Y _ _ _ _). Notation Add := (is_add _ _ X Y _ _ _ _). Notation Sub := (is_sub _ _ X Y _ _ _ _). Notation Inv k := (is_inv _ _ X Y k _ _).
Let Tx : is tx x := is_tx h x Hx Hh. Let Th : is BogPoly.th h := is_th h x Hx Hh.
Notation Hor l := (is_horner _ _ X Y l _ _ Tx).
Lemma is_tS0 : is tS0 S0. Proof. exact (is_widen _ _ X Y 1 (10 ^ 24) _ _ _ (Hor (alt 1 0 14)) HS0). Qed.
Lemma is_tSs : is tS S. Proof. exact (is_tS_of h x Hx Hh S HS). Qed.
Lemma is_tsg : is tsg (/ S0). Proof. exact (Inv gsg is_tS0). Qed.
Lemma is_ths : is ths (h * (/ S0 * / S0)). Proof. exact (Mul Th (Mul is_tsg is_tsg)). Qed.
Lemma phi_code : Rabs (phi h x - phc h x (/ S0)) <= 2 / 10 ^ 16.
Proof.
  assert (T : is tdp (phi h x - phc h x (/ S0))) by exact (Sub (is_tphi h x Hx Hh) (Mul is_tsg (Add (Hor S1c) (Mul is_ths (Add (Hor S2c) (Mul is_ths (Hor S3c))))))).
  rewrite vdp_eq in T. eapply Rle_trans; [apply (parts_bound 32 vdp _ _ _ _ ltac:(lia) X Y T vdp_small); vm_compute; reflexivity|]. eapply Rle_trans; [apply div_bd; reflexivity|]. right. change (10 ^ 16)%Z with 10000000000000000%Z. field.
Qed.
Lemma weight_code : Rabs (S * ((1 + h * phi h x) * (1 + h * Af h x)) * (/ S0 * wcf h x (/ S0)) - 1) <= 4 / 10 ^ 15.
Proof.
  assert (T : is tdw (S * ((1 + h * phi h x) * (1 + h * Af h x)) * (/ S0 * wcf h x (/ S0)) - 1)) by exact (Sub (Mul (Mul is_tSs (Mul (is_tu h x Hx Hh) (is_tv h x Hx Hh))) (Mul is_tsg (Add (is_one _ _ X Y) (Mul is_ths (Add (Hor W1c) (Mul is_ths (Add (Hor W2c) (Mul is_ths (Hor W3c))))))))) (is_one _ _ X Y)).
  rewrite vdw_eq in T. eapply Rle_trans; [apply (parts_bound 32 vdw _ _ _ _ ltac:(lia) X Y T vdw_small); vm_compute; reflexivity|]. eapply Rle_trans; [apply div_bd; reflexivity|]. right. change (10 ^ 15)%Z with 1000000000000000%Z. field.
Qed.
End B.

(** the formulas of the code *)
Ltac lits := rewrite !lit_frac by lia; cbn [Z.opp horner].
Lemma sf1_eq : forall x, @sf1t RA x = horner S1c x.
Proof. intros x. unfold sf1t, S1c. cbn [nadd nsub nmul nlit RA]. lits. match goal with |- ?a = ?b => change (@eq R a b) end. lra. Qed.
Lemma sf2_eq : forall x, @sf2t RA x = horner S2c x.
Proof. intros x. unfold sf2t, S2c. cbn [nadd nsub nmul nlit RA]. lits. match goal with |- ?a = ?b => change (@eq R a b) end. lra. Qed.
Lemma sf3_eq : forall x, @sf3t RA x = horner S3c x.
Proof. intros x. unfold sf3t, S3c. cbn [nadd nsub nmul nlit RA]. lits. match goal with |- ?a = ?b => change (@eq R a b) end. lra. Qed.
Lemma wsf1_eq : forall x, @wsf1t RA x = horner W1c x.
Proof. intros x. unfold wsf1t, W1c. cbn [nadd nsub nmul nlit RA]. lits. match goal with |- ?a = ?b => change (@eq R a b) end. lra. Qed.
Lemma wsf2_eq : forall x, @wsf2t RA x = horner W2c x.
Proof. intros x. unfold wsf2t, W2c. cbn [nadd nsub nmul nlit RA]. lits. match goal with |- ?a = ?b => change (@eq R a b) end. lra. Qed.
Lemma wsf3_eq : forall x, @wsf3t RA x = horner W3c x.
Proof. intros x. unfold wsf3t, W3c. cbn [nadd nsub nmul nlit RA]. lits. match goal with |- ?a = ?b => change (@eq R a b) end. lra. Qed.
Lemma div_comm_sin : forall w nu s, w <> 0 -> nu <> 0 -> s <> 0 -> w * w * (nu / s) = w * / (s / (w * nu)). Proof. intros. field. repeat split; assumption. Qed.
Lemma exp_eq : forall n nu b, (101 <= n)%nat -> let N := Nn n in let a := nu / N in 0 < nu -> 0 < b -> 0 < sin a -> let s := / (sin a / a) in 0 < wcf (hh n) (a * a) s ->
  @expansion RA (Z.of_nat n) nu b = (a * (1 + hh n * phc (hh n) (a * a) s), 2 * hh n / (b * (s * wcf (hh n) (a * a) s))).
Proof.
  intros n nu b Hn N a Hnu Hb Hs s Hw. pose proof (N_big n Hn) as NB. fold N in NB. unfold expansion. unfold lit1, lit2, lit_half. cbn [nadd nsub nmul ndiv nsin nofZ nlit RA]. rewrite !rl1, !rl2, !rlhalf. rewrite sf1_eq, sf2_eq, sf3_eq, wsf1_eq, wsf2_eq, wsf3_eq. rewrite <- INR_IZR_INZ. change (INR n + / 2) with N.
  assert (Ea : 1 / N * nu = a) by (unfold a; field; lra). rewrite Ea. set (x := a * a) in *. set (c1 := horner S1c x). set (c2 := horner S2c x). set (c3 := horner S3c x). unfold phc, wcf in *. fold c1 c2 c3. set (d1 := horner W1c x) in *. set (d2 := horner W2c x) in *. set (d3 := horner W3c x) in *. clearbody c1 c2 c3 d1 d2 d3.
  assert (Ap : 0 < a) by (unfold a; apply Rdiv_lt_0_compat; lra). assert (Ew : 1 / N * (1 / N) * (nu / sin a) = / N * s). { unfold s. rewrite <- (Ea) at 3. field. repeat split; lra. }
  rewrite !Ew. assert (Eh : hh n = / N * / N) by (unfold hh; fold N; rewrite Rinv_mult_distr; lra). rewrite Eh in *. assert (En : nu / sin a = N * s). { assert (E0 : nu = N * a) by (unfold a; field; lra). rewrite E0. unfold s. field. split; lra. } assert (Sp : 0 < s) by (apply Rinv_0_lt_compat; apply Rdiv_lt_0_compat; lra).
  replace (/ N * s * (/ N * s)) with (/ N * / N * (s * s)) by ring. set (k := / N * / N * (s * s)) in *. f_equal.
  - rewrite <- Ea. match goal with |- ?a = ?b => change (@eq R a b) end. field. lra.
  - rewrite En. replace (b * (N * s) + b * (N * s) * k * (d1 + k * (d2 + k * d3))) with (b * (N * s) * (1 + k * (d1 + k * (d2 + k * d3)))) by ring. set (q := 1 + k * (d1 + k * (d2 + k * d3))) in *. match goal with |- ?a = ?b => change (@eq R a b) end. field. repeat split; lra.
Qed.
