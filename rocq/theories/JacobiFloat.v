(** Entries of the Gauss-Jacobi matrix in double arithmetic. *)
From Coq Require Import Reals ZArith List Lra Lia Bool.
From Flocq Require Import Core IEEE754.Binary.
From Flocq Require IEEE754.BinarySingleNaN.
From Verif Require Import Arith F64 F64Spec F64Proof Param Jacobi SignProof SignWeights ZeroSpec ZeroProof.
Local Open Scope R_scope.

Definition fmt (x : R) : Prop := generic_format radix2 (FLT_exp (-1074) 53) x.
Lemma fmt_dyadic : forall k e, (Z.abs k <= 2 ^ 53)%Z -> (-1074 <= e)%Z -> fmt (IZR k * bpow radix2 e).
Proof.
  intros k e Hk He. unfold fmt. destruct (Z.eq_dec (Z.abs k) (2 ^ 53)) as [E|E].
  - assert (k = 2 ^ 53 \/ k = - 2 ^ 53)%Z as [-> | ->] by lia.
    + change (IZR (2 ^ 53)) with (bpow radix2 53). rewrite <- bpow_plus. apply generic_format_FLT_bpow; [reflexivity|lia].
    + rewrite opp_IZR, Ropp_mult_distr_l_reverse. apply generic_format_opp. change (IZR (2 ^ 53)) with (bpow radix2 53). rewrite <- bpow_plus. apply generic_format_FLT_bpow; [reflexivity|lia].
  - apply generic_format_FLT. exists (Float radix2 k e); simpl; [reflexivity|lia|lia].
Qed.
Lemma fmt_Z : forall k, (Z.abs k <= 2 ^ 53)%Z -> fmt (IZR k).
Proof. intros k Hk. rewrite <- (Rmult_1_r (IZR k)). apply (fmt_dyadic k 0); lia. Qed.
Lemma fmt_bpow : forall e, (-1074 <= e)%Z -> fmt (bpow radix2 e).
Proof. intros e He. apply generic_format_FLT_bpow; [reflexivity|lia]. Qed.
Lemma rnd_in : forall lo hi x, fmt lo -> fmt hi -> lo <= x <= hi -> lo <= rnd x <= hi.
Proof.
  intros lo hi x Hl Hh [H1 H2]. unfold rnd. split.
  - apply round_ge_generic; [apply valid_exp_f64|apply valid_rnd_N|exact Hl|exact H1].
  - apply round_le_generic; [apply valid_exp_f64|apply valid_rnd_N|exact Hh|exact H2].
Qed.
Definition big : R := bpow radix2 1023.
Definition inr (lo hi : R) (x : f64) : Prop := ffin x /\ lo <= fval x <= hi.
Lemma no_in : forall lo hi x, -big <= lo -> hi <= big -> lo <= x <= hi -> no_overflow x.
Proof. intros lo hi x H1 H2 H3. apply no_overflow_small. apply Rabs_le. unfold big in *. lra. Qed.

Section J.
Variable be : Backend.
Notation A := (F64 be).

Lemma add_in : forall lo hi (x y : A), ffin x -> ffin y -> fmt lo -> fmt hi -> -big <= lo -> hi <= big ->
  lo <= fval x + fval y <= hi -> inr lo hi (nadd x y).
Proof.
  intros lo hi x y Hx Hy Fl Fh Bl Bh H. destruct (add_finite be x y Hx Hy (no_in _ _ _ Bl Bh H)) as [H1 H2].
  split; [exact H1|]. refine (eq_ind_r (fun z => lo <= z <= hi) _ H2). now apply rnd_in.
Qed.
Lemma sub_in : forall lo hi (x y : A), ffin x -> ffin y -> fmt lo -> fmt hi -> -big <= lo -> hi <= big ->
  lo <= fval x - fval y <= hi -> inr lo hi (nsub x y).
Proof.
  intros lo hi x y Hx Hy Fl Fh Bl Bh H. destruct (sub_finite be x y Hx Hy (no_in _ _ _ Bl Bh H)) as [H1 H2].
  split; [exact H1|]. refine (eq_ind_r (fun z => lo <= z <= hi) _ H2). now apply rnd_in.
Qed.
Lemma mul_in : forall lo hi (x y : A), ffin x -> ffin y -> fmt lo -> fmt hi -> -big <= lo -> hi <= big ->
  lo <= fval x * fval y <= hi -> inr lo hi (nmul x y).
Proof.
  intros lo hi x y Hx Hy Fl Fh Bl Bh H. destruct (mul_finite be x y Hx Hy (no_in _ _ _ Bl Bh H)) as [H1 H2].
  split; [exact H1|]. refine (eq_ind_r (fun z => lo <= z <= hi) _ H2). now apply rnd_in.
Qed.
Lemma div_in : forall lo hi (x y : A), ffin x -> fval y <> 0 -> fmt lo -> fmt hi -> -big <= lo -> hi <= big ->
  lo <= fval x / fval y <= hi -> inr lo hi (ndiv x y).
Proof.
  intros lo hi x y Hx Hy Fl Fh Bl Bh H. destruct (div_finite be x y Hx Hy (no_in _ _ _ Bl Bh H)) as [H1 H2].
  split; [exact H1|]. refine (eq_ind_r (fun z => lo <= z <= hi) _ H2). now apply rnd_in.
Qed.
Lemma sqrt_in : forall hi (x : A), ffin x -> 0 <= fval x -> fmt hi -> hi <= big -> sqrt (fval x) <= hi -> inr 0 hi (nsqrt x).
Proof.
  intros hi x Hx Px Fh Bh H.
  generalize (Bsqrt_correct 53 1024 prec53 prec53_emax (nan_sqrt be) BinarySingleNaN.mode_NE x).
  change (Bsqrt 53 1024 prec53 prec53_emax (nan_sqrt be) BinarySingleNaN.mode_NE x) with (nsqrt x). rewrite rnd_eq.
  intros (H1 & H2 & _).
  assert (F : ffin (nsqrt x)).
  { unfold ffin. etransitivity; [exact H2|]. destruct x as [s|s|s p Hp|s m e Hp]; try discriminate Hx; [reflexivity|].
    destruct s; [|reflexivity]. exfalso. unfold fval in Px. simpl in Px.
    assert (F2R (Float radix2 (Z.neg m) e) < 0) by (apply F2R_lt_0; reflexivity). simpl in *. lra. }
  split; [exact F|]. refine (eq_ind_r (fun z => 0 <= z <= hi) _ H1). apply rnd_in; [apply generic_format_0|exact Fh|]. split; [apply sqrt_pos|exact H].
Qed.

(** NaN propagation *)
Lemma zero_div_zero : forall x y : A, is_zero x -> is_zero y -> fnan (ndiv x y).
Proof.
  intros x y Hx Hy. apply is_zero_cases in Hx. apply is_zero_cases in Hy. destruct Hx as [s ->], Hy as [s' ->].
  apply nan_Bdiv. reflexivity.
Qed.
Lemma nan_sqrt_x : forall x : A, fnan x -> fnan (nsqrt x).
Proof.
  intros x H. destruct x as [s|s|s p Hp|s m e Hp]; try discriminate H.
  change (is_nan 53 1024 (Bsqrt 53 1024 prec53 prec53_emax (nan_sqrt be) BinarySingleNaN.mode_NE (B754_nan 53 1024 s p Hp)) = true).
  unfold Bsqrt. rewrite is_nan_BSN2B. reflexivity.
Qed.
Lemma nan_mul_r : forall x y : A, fnan y -> fnan (nmul x y).
Proof. intros x y H. apply nan_Bmult. destruct y; try discriminate H. destruct x; reflexivity. Qed.

(** multiples of 2^-52 *)
Notation u := (bpow radix2 (-52)).
Definition dy (k : Z) (x : f64) : Prop := ffin x /\ fval x = IZR k * u.
Lemma u_bounds : 0 < u <= / 2.
Proof.
  split; [apply bpow_gt_0|]. change (/ 2) with (bpow radix2 (-1)). apply bpow_le. lia.
Qed.
Lemma dy_no : forall k, (Z.abs k <= 2 ^ 53)%Z -> no_overflow (IZR k * u).
Proof.
  intros k Hk. apply no_overflow_small. rewrite Rabs_mult, (Rabs_pos_eq u) by apply bpow_ge_0.
  apply Rle_trans with (bpow radix2 1023 * 1); [|lra]. apply Rmult_le_compat; [apply Rabs_pos|apply bpow_ge_0| |pose proof u_bounds; lra].
  apply abs_IZR_bound, Hk.
Qed.
Lemma dy_add : forall j k (x y : A), (Z.abs (j + k) <= 2 ^ 53)%Z -> dy j x -> dy k y -> dy (j + k) (nadd x y).
Proof.
  intros j k x y H [X1 X2] [Y1 Y2].
  assert (E : fval x + fval y = IZR (j + k) * u) by (rewrite X2, Y2, plus_IZR; ring).
  destruct (add_finite be x y X1 Y1) as [H1 H2]; [rewrite E; now apply dy_no|].
  split; [exact H1|]. refine (eq_trans H2 _). rewrite E. unfold rnd. apply round_generic; [apply valid_rnd_N|]. apply fmt_dyadic; lia.
Qed.
Lemma dy_sub : forall j k (x y : A), (Z.abs (j - k) <= 2 ^ 53)%Z -> dy j x -> dy k y -> dy (j - k) (nsub x y).
Proof.
  intros j k x y H [X1 X2] [Y1 Y2].
  assert (E : fval x - fval y = IZR (j - k) * u) by (rewrite X2, Y2, minus_IZR; ring).
  destruct (sub_finite be x y X1 Y1) as [H1 H2]; [rewrite E; now apply dy_no|].
  split; [exact H1|]. refine (eq_trans H2 _). rewrite E. unfold rnd. apply round_generic; [apply valid_rnd_N|]. apply fmt_dyadic; lia.
Qed.
Lemma one_u : IZR (2 ^ 52) * u = 1.
Proof. change (IZR (2 ^ 52)) with (bpow radix2 52). rewrite <- bpow_plus. reflexivity. Qed.
Lemma dy_one : dy (2 ^ 52) (@lit1 A).
Proof. destruct (lit_int_exact 1) as [H1 H2]; [lia|]. split; [exact H1|]. refine (eq_trans H2 _). symmetry. apply one_u. Qed.
Lemma dy_ofZ : forall z, (Z.abs z <= 2)%Z -> dy (z * 2 ^ 52) (@nofZ A z).
Proof. intros z Hz. destruct (ofZ_exact z) as [H1 H2]; [lia|]. split; [exact H1|]. refine (eq_trans H2 _). rewrite mult_IZR, Rmult_assoc, one_u. ring. Qed.
Lemma dy_two : dy (2 * 2 ^ 52) (@lit2 A).
Proof. destruct (lit_int_exact 2) as [H1 H2]; [lia|]. split; [exact H1|]. refine (eq_trans H2 _). rewrite mult_IZR, Rmult_assoc, one_u. ring. Qed.
Lemma dy_mul_one : forall k (x y : A), (Z.abs k <= 2 ^ 53)%Z -> dy k x -> dy (2 ^ 52) y -> dy k (nmul x y).
Proof.
  intros k x y Hk [X1 X2] [Y1 Y2]. rewrite one_u in Y2. assert (E : fval x * fval y = IZR k * u) by (rewrite X2, Y2; ring).
  destruct (mul_finite be x y X1 Y1) as [H1 H2]; [rewrite E; now apply dy_no|].
  split; [exact H1|]. refine (eq_trans H2 _). rewrite E. unfold rnd. apply round_generic; [apply valid_rnd_N|]. apply fmt_dyadic; lia.
Qed.
Lemma dy_0 : forall x, dy 0 x -> is_zero x.
Proof. intros x [H1 H2]. split; [exact H1|]. rewrite H2. ring. Qed.

Theorem off_diag_nan : forall (alpha beta : A) a b, dy a alpha -> dy b beta ->
  (- 2 ^ 52 < a)%Z -> (- 2 ^ 52 < b)%Z -> (a + b = - 2 ^ 52)%Z -> fnan (jacobi_off_diag alpha beta 0).
Proof.
  intros alpha beta a b Ha Hb La Lb Hab. unfold jacobi_off_diag. cbv zeta. change (Z.of_nat 0) with 0%Z.
  assert (P1 : dy (2 ^ 52) (nadd (@nofZ A 0) lit1)) by (apply (dy_add 0 (2 ^ 52)); [lia|apply (dy_ofZ 0); lia|apply dy_one]).
  set (p1 := nadd (@nofZ A 0) lit1) in *.
  assert (T : dy (2 * 2 ^ 52) (nmul lit2 p1)) by (apply dy_mul_one; [lia|apply dy_two|exact P1]).
  assert (T1 : dy (2 * 2 ^ 52 + a) (nadd (nmul lit2 p1) alpha)) by (apply dy_add; [lia|exact T|exact Ha]).
  assert (D : dy (2 ^ 52) (nadd (nadd (nmul lit2 p1) alpha) beta)).
  { replace (2 ^ 52)%Z with (2 * 2 ^ 52 + a + b)%Z by lia. apply dy_add; [lia|exact T1|exact Hb]. }
  set (d := nadd (nadd (nmul lit2 p1) alpha) beta) in *.
  assert (Pa : dy (2 ^ 52 + a) (nadd p1 alpha)) by (apply dy_add; [lia|exact P1|exact Ha]).
  assert (Pb : dy (2 ^ 52 + b) (nadd p1 beta)) by (apply dy_add; [lia|exact P1|exact Hb]).
  assert (Pab : dy 0 (nadd (nadd p1 alpha) beta)).
  { replace 0%Z with (2 ^ 52 + a + b)%Z by lia. apply dy_add; [lia|exact Pa|exact Hb]. }
  assert (Dm : dy 0 (nsub d lit1)).
  { replace 0%Z with (2 ^ 52 - 2 ^ 52)%Z by lia. apply dy_sub; [lia|exact D|apply dy_one]. }
  assert (Dp : dy (2 ^ 52 + 2 ^ 52) (nadd d lit1)) by (apply dy_add; [lia|exact D|apply dy_one]).
  apply nan_mul_r, nan_sqrt_x. apply zero_div_zero.
  - apply zero_mul_fin_r; [now apply dy_0|].
    assert (M1 : inr 0 1 (nmul p1 (nadd p1 alpha))).
    { apply mul_in; [apply P1|apply Pa|apply generic_format_0|apply (fmt_Z 1); lia| | |].
      - pose proof (bpow_ge_0 radix2 1023). unfold big. lra.
      - unfold big. change 1 with (bpow radix2 0). apply bpow_le. lia.
      - destruct P1 as [_ ->], Pa as [_ ->]. rewrite one_u, Rmult_1_l. split.
        + apply Rmult_le_pos; [apply IZR_le; lia|apply bpow_ge_0].
        + rewrite <- one_u. apply Rmult_le_compat_r; [apply bpow_ge_0|]. apply IZR_le. lia. }
    assert (M2 : inr 0 1 (nadd p1 beta)).
    { split; [apply Pb|]. destruct Pb as [_ ->]. split.
        + apply Rmult_le_pos; [apply IZR_le; lia|apply bpow_ge_0].
        + rewrite <- one_u. apply Rmult_le_compat_r; [apply bpow_ge_0|]. apply IZR_le. lia. }
    apply (mul_in 0 1); [apply M1|apply M2|apply generic_format_0|apply (fmt_Z 1); lia| | |].
    + pose proof (bpow_ge_0 radix2 1023). unfold big. lra.
    + unfold big. change 1 with (bpow radix2 0). apply bpow_le. lia.
    + destruct M1 as [_ M1], M2 as [_ M2]. nra.
  - apply zero_mul_fin_r; [now apply dy_0|apply Dp].
Qed.
End J.
