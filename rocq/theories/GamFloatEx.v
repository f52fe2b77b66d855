(** Weights that are infinite although the integral of the weight function is not, and examples. *)
From Coq Require Import Reals ZArith List Lra Lia Psatz.
From Coquelicot Require Import Rcomplements.
From Flocq Require Import Core Relative IEEE754.Binary.
From Verif Require Import Arith RInst RInstProof F64 F64Spec F64Proof RoundSpec RoundProof RoundRules Machine Param Rules RSum PolySpec GolubWelsch GWSpec EigenSpec WeightSpec IntegrateSpec GaussSpec InexactSpec InexactF64Spec
  AccF64 AccCount LegBigPoly LegBigFloat Gamma GammaProof GammaTrue GamNum GamAll GamFloatSpec GamFloat GamFloatArg GamFloatScale GamFloatJac GamFloatRule Laguerre Jacobi GaussExact GWProof EqProof SizeProof InsideProof RoundNC GamAcc GamReflect GamRatio TrigEx.
Import ListNotations.
Local Open Scope R_scope.

(** ** A correctly rounding library *)
Lemma nearest_fin : forall x, no_overflow x -> ffin (nearest x) /\ fval (nearest x) = rnd x.
Proof.
  intros x Hx. unfold nearest.
  pose proof (binary_normalize_correct 53 1024 prec53 prec53_emax BinarySingleNaN.mode_NE (ZnearestE (scaled_mantissa radix2 (FLT_exp (-1074) 53) x)) (cexp radix2 (FLT_exp (-1074) 53) x) false) as H.
  change (F2R (Float radix2 (ZnearestE (scaled_mantissa radix2 (FLT_exp (-1074) 53) x)) (cexp radix2 (FLT_exp (-1074) 53) x))) with (rnd x) in H.
  change (round radix2 (SpecFloat.fexp 53 1024) (BinarySingleNaN.round_mode BinarySingleNaN.mode_NE) (rnd x)) with (rnd (rnd x)) in H.
  assert (E : rnd (rnd x) = rnd x) by (apply rnd_fmt, rnd_format).
  rewrite E in H. rewrite Rlt_bool_true in H by exact Hx. destruct H as (H1 & H2 & _). split; assumption.
Qed.
Lemma nearest_inf : forall x, bpow radix2 1024 <= x -> nearest x = B754_infinity 53 1024 false.
Proof.
  intros x Hx. assert (P : bpow radix2 1024 <= rnd x). { unfold rnd. apply round_ge_generic; [apply FLT_exp_valid; reflexivity|apply valid_rnd_N| |exact Hx]. apply generic_format_bpow. unfold FLT_exp. simpl. lia. }
  assert (P0 := bpow_gt_0 radix2 1024). unfold nearest.
  pose proof (binary_normalize_correct 53 1024 prec53 prec53_emax BinarySingleNaN.mode_NE (ZnearestE (scaled_mantissa radix2 (FLT_exp (-1074) 53) x)) (cexp radix2 (FLT_exp (-1074) 53) x) false) as H.
  change (F2R (Float radix2 (ZnearestE (scaled_mantissa radix2 (FLT_exp (-1074) 53) x)) (cexp radix2 (FLT_exp (-1074) 53) x))) with (rnd x) in H.
  change (round radix2 (SpecFloat.fexp 53 1024) (BinarySingleNaN.round_mode BinarySingleNaN.mode_NE) (rnd x)) with (rnd (rnd x)) in H.
  rewrite (rnd_fmt _ (rnd_format x)) in H. rewrite Rlt_bool_false in H by (rewrite Rabs_pos_eq; lra).
  rewrite (Rlt_bool_false (rnd x) 0) in H by lra. set (y := binary_normalize _ _ _ _ _ _ _ _) in *. clearbody y. destruct y; try discriminate H. injection H; intros ->. reflexivity.
Qed.
Lemma correct_math : accurate_math correct_library (bpow radix2 (-53)) /\ pow_overflows correct_library.
Proof.
  split; [|intros x y _ _ _ H; apply nearest_inf, H]. split; [split; [apply bpow_ge_0|simpl; lra]|]. split.
  - intros x _ _. cbn [be_sin correct_library]. assert (S := SIN_bound (fval x)). destruct (nearest_ok (sin (fval x))) as [F E]; [apply Rabs_le; lra|]. split; [exact F|]. rewrite E. apply rnd_err.
  - intros x y _ _ Px Hp. cbn [be_pow correct_library]. set (p := Rpower (fval x) (fval y)) in *. assert (P0 : 0 < p) by apply exp_pos.
    destruct (nearest_fin p) as [F E]; [apply no_overflow_small; rewrite Rabs_pos_eq; lra|]. split; [exact F|]. rewrite E.
    assert (N : bpow radix2 (-1074 + 53 - 1) <= Rabs p). { rewrite Rabs_pos_eq by lra. eapply Rle_trans; [|apply Hp]. apply bpow_le. lia. }
    assert (R := relative_error_N_FLT radix2 (-1074) 53 ltac:(lia) (fun x => negb (Z.even x)) p N). rewrite (Rabs_pos_eq p) in R by lra. eapply Rle_trans; [exact R|]. apply Rmult_le_compat_r; [lra|]. simpl. lra.
Qed.

(** ** Factorials *)
Fixpoint zfact (n : nat) : Z := match n with O => 1%Z | S m => (Z.of_nat (S m) * zfact m)%Z end.
Lemma Gam_fact : forall n, Gam (IZR (Z.of_nat n) + 1) = IZR (zfact n).
Proof.
  induction n as [|n IH]. { replace (IZR (Z.of_nat 0) + 1) with 1 by (simpl; lra). rewrite Gam_1. reflexivity. }
  rewrite Gam_S. 2: apply IZR_lt; lia. cbn [zfact]. rewrite mult_IZR, <- IH. f_equal. f_equal. rewrite Nat2Z.inj_succ, succ_IZR. reflexivity.
Qed.

(** ** Infinite values *)
Section F.
Variable be : Backend.
Notation A := (F64 be).
Variable kappa : R.
Hypothesis HM : accurate_math be kappa.

Lemma mul_inf : forall x : A, ffin x -> 0 < fval x -> nmul x (B754_infinity 53 1024 false : A) = B754_infinity 53 1024 false.
Proof. intros x F P. destruct x as [s|s|s pl e|s m e B]; try discriminate F; [unfold fval in P; simpl in P; lra|]. destruct s; [|reflexivity]. exfalso. unfold fval, B2R in P. assert (X := F2R_lt_0 radix2 (Float radix2 (cond_Zopp true (Z.pos m)) e) ltac:(simpl; lia)). lra. Qed.
Lemma inf_mul : forall x : A, ffin x -> 0 < fval x -> nmul (B754_infinity 53 1024 false : A) x = B754_infinity 53 1024 false.
Proof. intros x F P. destruct x as [s|s|s pl e|s m e B]; try discriminate F; [unfold fval in P; simpl in P; lra|]. destruct s; [|reflexivity]. exfalso. unfold fval, B2R in P. assert (X := F2R_lt_0 radix2 (Float radix2 (cond_Zopp true (Z.pos m)) e) ltac:(simpl; lia)). lra. Qed.
Lemma inf_div : forall x : A, ffin x -> 0 < fval x -> ndiv (B754_infinity 53 1024 false : A) x = B754_infinity 53 1024 false.
Proof. intros x F P. destruct x as [s|s|s pl e|s m e B]; try discriminate F; [unfold fval in P; simpl in P; lra|]. destruct s; [|reflexivity]. exfalso. unfold fval, B2R in P. assert (X := F2R_lt_0 radix2 (Float radix2 (cond_Zopp true (Z.pos m)) e) ltac:(simpl; lia)). lra. Qed.
(** any double times infinity is not finite *)
Lemma times_inf : forall x : A, ~ ffin (nmul x (B754_infinity 53 1024 false : A)).
Proof. intros x. destruct x as [s|s|s pl e|s m e B]; cbn; unfold ffin; try (intros Z; discriminate Z). Qed.
Lemma mul_overflow : forall x y : A, ffin x -> ffin y -> 0 < fval x -> 0 < fval y -> bpow radix2 1024 <= fval x * fval y -> nmul x y = B754_infinity 53 1024 false.
Proof.
  intros x y Fx Fy Px Py H. assert (P : bpow radix2 1024 <= rnd (fval x * fval y)). { unfold rnd. apply round_ge_generic; [apply FLT_exp_valid; reflexivity|apply valid_rnd_N| |exact H]. apply generic_format_bpow. unfold FLT_exp. simpl. lia. }
  assert (P0 := bpow_gt_0 radix2 1024). assert (C := Bmult_correct 53 1024 prec53 prec53_emax (nan_mul be) BinarySingleNaN.mode_NE x y).
  change (round radix2 (SpecFloat.fexp 53 1024) (BinarySingleNaN.round_mode BinarySingleNaN.mode_NE) (B2R 53 1024 x * B2R 53 1024 y)) with (rnd (fval x * fval y)) in C.
  rewrite Rlt_bool_false in C by (rewrite Rabs_pos_eq; lra).
  assert (Sg : forall z : f64, ffin z -> 0 < fval z -> Bsign 53 1024 z = false).
  { intros z F Q. destruct z as [s|s|s pl e|s m e B]; try discriminate F; [unfold fval in Q; simpl in Q; lra|]. destruct s; [|reflexivity]. exfalso. unfold fval, B2R in Q. assert (X := F2R_lt_0 radix2 (Float radix2 (cond_Zopp true (Z.pos m)) e) ltac:(simpl; lia)). lra. }
  rewrite (Sg x Fx Px), (Sg y Fy Py) in C. change (nmul x y : A) with (Bmult 53 1024 prec53 prec53_emax (nan_mul be) BinarySingleNaN.mode_NE x y).
  set (z := Bmult _ _ _ _ _ _ _ _) in *. clearbody z. destruct z; try discriminate C. injection C; intros ->. reflexivity.
Qed.

Lemma pow_66_big : bpow radix2 1024 <= Rpower 66 (1695 / 10).
Proof.
  replace (1695 / 10) with (INR 169 + / 2) by (rewrite INR_IZR_INZ; change (Z.of_nat 169) with 169%Z; lra). rewrite Rpower_plus, Rpower_pow by lra.
  rewrite Rpower_sqrt by lra. apply Rle_trans with (66 ^ 169 * 8).
  - rewrite pow_IZR, <- mult_IZR, <- IZR_Zpower by lia. apply IZR_le. vm_compute. discriminate.
  - apply Rmult_le_compat_l; [apply pow_le; lra|]. rewrite <- (sqrt_square 8) by lra. apply sqrt_le_1; lra.
Qed.
Lemma gamma_170 : pow_overflows be -> forall x : A, ffin x -> fval x = 170 -> gamma x = (B754_infinity 53 1024 false : A).
Proof.
  intros Ho x Fx Ex. unfold gamma. destruct half_exact as [Fh Eh]. change (f64_lit 5 (-1)) with (lit_half : A) in Fh, Eh.
  destruct (nlt x (lit_half : A)) eqn:E. { apply (lt_finite be x lit_half Fx Fh) in E. rewrite Eh, Ex in E. lra. }
  cbv zeta. assert (S := fold_apx be (fun k => nsub (nadd x (nofZ k)) lit1 : A) 170 ltac:(lra)). destruct S as (FS & BS & ES & RS & CS).
  { intros k Hk. rewrite <- Ex. apply den_hi; [exact Fx|rewrite Ex; lra|exact Hk]. }
  set (sf := gamma_fold (fun k => nsub (nadd x (nofZ k)) lit1 : A)) in *. clearbody sf.
  assert (LA := lanczos_above 170 ltac:(lra)). assert (LB := lanczos_below 170 ltac:(lra)). assert (LS := lanczos_abs_size 170 ltac:(lra)). assert (Gc : gamma_c = 18603827342052657 / 10000000000000000) by reflexivity.
  assert (SC : apx (nmul sf two_sqrt_e_over_pi : A) (lanczos 170 * gamma_c) (lanczos 170 * gamma_c) 83803).
  { apply (apx_mul be _ _ _ _ (lanczos 170) gamma_c _ 83800 (101 / 100)); try lra; [exact (conj FS (conj BS (conj ES (conj RS CS))))|apply c_apx|apply LegBigFloat.rng_of; nra|split; lra]. }
  apply relx_of in SC. destruct SC as (F1 & P1 & E1 & C1). assert (S1 := ex_small _ C1). apply Rabs_le_inv in E1.
  assert (P2 : 0 < fval (nmul sf two_sqrt_e_over_pi : A)) by nra.
  assert (O : no_overflow (170 - / 2)). { apply no_overflow_small. rewrite Rabs_pos_eq by lra. apply Rle_trans with (bpow radix2 8); [simpl; lra|apply bpow_le; lia]. }
  destruct (sub_finite be x lit_half Fx Fh ltac:(rewrite Eh, Ex; exact O)) as [Fz Ez]. rewrite Eh, Ex in Ez. set (z := nsub x lit_half : A) in *. clearbody z.
  assert (Ez2 : fval z = 1695 / 10).
  { rewrite Ez. replace (1695 / 10) with (170 - / 2) by lra. apply rnd_fmt. apply generic_format_FLT. exists (Float radix2 339 (-1)); unfold F2R; simpl; [lra|lia|lia]. }
  assert (B := base_apx be z (170 - / 2) Fz ltac:(lra)). destruct B as (Fb & _ & Eb & _ & Cb). { rewrite Ez. eapply Rle_trans; [apply rnd_err|]. rewrite (Rabs_pos_eq (170 - / 2)); lra. }
  set (b := ndiv (nadd z gamma_r) neul : A) in *. clearbody b. assert (Sb := ex_hi _ Cb). assert (U := uro_num). assert (EB := e_bounds). apply Rabs_le_inv in Eb.
  assert (Bv : 663 / 10 <= (170 - / 2 + gamma_g) / exp 1). { apply Rmult_le_reg_r with (exp 1); [lra|]. unfold Rdiv at 2. rewrite Rmult_assoc, Rinv_l by lra. unfold gamma_g. lra. }
  assert (Bb : 66 <= fval b). { rewrite uro_eq in Sb. assert (ex (43 / 10) * ((170 - / 2 + gamma_g) / exp 1) <= 1 / 10 ^ 10 * ((170 - / 2 + gamma_g) / exp 1)) by (apply Rmult_le_compat_r; lra). lra. }
  change (npow b z : A) with (be_pow be b z). rewrite (Ho b z Fb Fz ltac:(lra)); [apply mul_inf; assumption|].
  rewrite Ez2. eapply Rle_trans; [exact pow_66_big|]. apply Rle_Rpower_l; lra.
Qed.
Lemma fact_169 : Gam 170 <= bpow radix2 1013.
Proof. replace 170 with (IZR (Z.of_nat 169) + 1) by (simpl; lra). rewrite Gam_fact, <- IZR_Zpower by lia. apply IZR_le. vm_compute. discriminate. Qed.

(** weights are finite for moderate parameters *)
Lemma gamma_size_169 : forall y, / 10 ^ 19 <= y <= 169 -> @gamma RA y <= bpow radix2 1020.
Proof.
  intros y Hy. assert (P19 : 0 < / 10 ^ 19) by (apply Rinv_0_lt_compat; lra). destruct (Rle_or_lt y 161) as [H|H].
  { destruct (shift_size y ltac:(lra) ltac:(rewrite Rabs_pos_eq; lra)) as [_ S]. rewrite Rabs_pos_eq in S by (left; apply gamma_pos; lra). eapply Rle_trans; [exact S|]. apply bpow_le. lia. }
  rewrite gamma_hi by lra. assert (LA := lanczos_above y ltac:(lra)). assert (LB := lanczos_below y ltac:(lra)). assert (LS := lanczos_abs_size y ltac:(lra)). assert (Gc : gamma_c = 18603827342052657 / 10000000000000000) by reflexivity.
  assert (Iy : 0 < / y <= / 161) by (split; [apply Rinv_0_lt_compat; lra|apply Rinv_le_contravar; lra]). assert (LT : lanczos y <= 1 / 10) by (unfold Rdiv in LS; lra). destruct (ln_base (y - / 2) ltac:(lra)) as [B1 _].
  assert (P2 : Rpower ((y - / 2 + gamma_g) / exp 1) (y - / 2) <= bpow radix2 1022).
  { eapply Rle_trans; [|exact pow_66]. rewrite <- Rpower_pow by lra. apply Rle_trans with (Rpower ((y - / 2 + gamma_g) / exp 1) (INR 169)).
    - apply Rle_Rpower; [lra|]. rewrite INR_IZR_INZ. change (Z.of_nat 169) with 169%Z. lra.
    - apply Rle_Rpower_l; [rewrite INR_IZR_INZ; change (Z.of_nat 169) with 169%Z; lra|lra]. }
  apply Rle_trans with (/ 4 * bpow radix2 1022); [|change 1022%Z with (2 + 1020)%Z; rewrite bpow_plus; change (bpow radix2 2) with 4; lra].
  assert (0 < Rpower ((y - / 2 + gamma_g) / exp 1) (y - / 2)) by apply exp_pos. apply Rmult_le_compat; try lra; [apply Rmult_le_pos; lra|]. apply Rle_trans with (1 / 10 * 2); [apply Rmult_le_compat; lra|lra].
Qed.
Lemma weight_finite : forall x s : A, ffin x -> Rabs (fval x) <= 11 / 10 -> ffin s -> Rabs (fval s) <= bpow radix2 1021 -> ffin (nmul (nmul x x) s : A).
Proof.
  intros x s Fx Bx Fs Bs. assert (B0 := Rabs_pos (fval x)). assert (X2 : Rabs (fval x * fval x) <= 121 / 100). { rewrite Rabs_mult. apply Rle_trans with (11 / 10 * (11 / 10)); [apply Rmult_le_compat; lra|lra]. }
  destruct (mul_finite be x x Fx Fx) as [F1 E1]. { apply no_overflow_small. apply Rle_trans with (bpow radix2 1); [simpl; lra|apply bpow_le; lia]. }
  assert (R := rnd_err (fval x * fval x)). rewrite <- E1 in R. assert (U := uro_num). assert (Et := ChebFloat.eta_num).
  assert (B1 : Rabs (fval (nmul x x : A)) <= 2). { replace (fval (nmul x x : A)) with ((fval (nmul x x : A) - fval x * fval x) + fval x * fval x) by ring. eapply Rle_trans; [apply Rabs_triang|]. assert (uro * Rabs (fval x * fval x) <= uro * (121 / 100)) by (apply Rmult_le_compat_l; lra). rewrite uro_eq in *. lra. }
  apply (mul_finite be _ s F1 Fs). apply no_overflow_small. rewrite Rabs_mult. change 1023%Z with (2 + 1021)%Z. rewrite bpow_plus. change (bpow radix2 2) with 4. apply Rmult_le_compat; try apply Rabs_pos; lra.
Qed.
Lemma combine_snd : forall (X Y : Type) (f : X -> Y) (l : list A) (row : list X) p, In p (combine l (map f row)) -> exists x, In x row /\ snd p = f x.
Proof. intros X Y f l row p H. destruct p as [a b]. apply in_combine_r in H. apply in_map_iff in H. destruct H as (x & E & I). exists x. split; [exact I|symmetry; exact E]. Qed.

(** The first row of the matrix of eigenvectors, as the solver returns it *)
Lemma laguerre_finite : forall (ext : Linalg A) n (al : Param A) (r : GaussLaguerre A), shape_preserving ext -> sorts ext -> (1 <= n)%Z -> ffin (param_get al) -> / 10 ^ 18 <= fval (param_get al) + 1 <= 1689 / 10 ->
  (forall m row rest x, companion_matrix (Z.to_nat n) (laguerre_diag (param_get al)) (laguerre_off_diag (param_get al)) = Ok m -> snd (symmetric_eigen ext m) = row :: rest -> In x row -> ffin x /\ Rabs (fval x) <= 11 / 10) ->
  laguerre_new ext n al = Ok r -> forall p, In p (laguerre_pairs r) -> ffin (snd p).
Proof.
  intros ext n al r Sh So Hn Fa Ha Hx HN p Ip. destruct (@laguerre_sorted A ext (f64_total_preorder be) Sh So n al r Hn HN) as (_ & m & row & rest & Cm & Er & Pm).
  apply (Permutation.Permutation_in _ Pm) in Ip. apply combine_snd in Ip. destruct Ip as (x & Ix & ->). destruct (Hx _ _ _ _ Cm Er Ix) as [Fx Bx].
  destruct (gamma_plus_one be (param_get al) Fa Ha) as (F1 & I1 & L1). assert (P19 : 0 < / 10 ^ 19) by (apply Rinv_0_lt_compat; lra).
  assert (Z := gamma_relz be kappa HM _ F1 ltac:(rewrite Rabs_pos_eq; lra) ltac:(lra)). apply relz_pos in Z; [|apply gamma_pos; lra]. destruct Z as (Fg & Pg & Eg & Cg). assert (Sg := ex_small _ Cg).
  apply weight_finite; [exact Fx|exact Bx|exact Fg|]. assert (SZ := gamma_size_169 _ I1). apply Rabs_le_inv in Eg. set (g := @gamma RA (fval (nadd (param_get al) lit1 : A))) in *. set (e := ex (86200 + 21 / 10 * (kappa / uro))) in *.
  assert (e * g <= 13 / 10 ^ 5 * g) by (apply Rmult_le_compat_r; lra). change 1021%Z with (1 + 1020)%Z. rewrite bpow_plus. change (bpow radix2 1) with 2. apply Rabs_le. lra.
Qed.
Lemma plain_case : forall pa pb : Param A, ffin (param_get pa) -> ffin (param_get pb) -> ~ delegated (fval (param_get pa)) (fval (param_get pb)) ->
  (neqb (param_get pa) lit0 && neqb (param_get pb) lit0 = false)%bool /\ (neqb (param_get pa) lit_neg_half && neqb (param_get pb) lit_neg_half = false)%bool /\ (neqb (param_get pa) lit_half && neqb (param_get pb) lit_half = false)%bool.
Proof.
  intros pa pb Fa Fb Nd. destruct (tests be pa pb Fa Fb) as (T1 & T2 & T3). unfold delegated in Nd.
  split; [|split]; eapply bool_cases; try eassumption; unfold pair_is; intros [? ?]; apply Nd; lra.
Qed.
Lemma list_set_in : forall (X : Type) (l l' : list X) i v p, list_set l i v = Ok l' -> In p l' -> p = v \/ In p l.
Proof.
  intros X l. induction l as [|x l IH]; intros l' i v p E I; [destruct i; discriminate E|].
  destruct i as [|i]; simpl in E.
  - injection E as <-. destruct I as [<-|I]; [left; reflexivity|right; right; exact I].
  - destruct (list_set l i v) as [l''|] eqn:E'; [|discriminate E]. simpl in E. injection E as <-.
    destruct I as [<-|I]; [right; left; reflexivity|]. destruct (IH _ _ _ _ E' I) as [H|H]; [left; exact H|right; right; exact H].
Qed.
(** The weights of a rule of any degree are those of the sorted eigenvector entries: the correction of the
    middle node leaves its weight alone. *)
Lemma jacobi_weights_from : forall t (ext : Linalg A) n (pa pb : Param A) (r : GaussJacobi A), shape_preserving ext -> sorts ext -> (2 <= n)%Z ->
  (neqb (param_get pa) lit0 && neqb (param_get pb) lit0 = false)%bool -> (neqb (param_get pa) lit_neg_half && neqb (param_get pb) lit_neg_half = false)%bool ->
  (neqb (param_get pa) lit_half && neqb (param_get pb) lit_half = false)%bool -> jacobi_new t ext n pa pb = Ok r ->
  exists m row rest, companion_matrix (Z.to_nat n) (jacobi_diag (param_get pa) (param_get pb)) (jacobi_off_diag (param_get pa) (param_get pb)) = Ok m /\
    snd (symmetric_eigen ext m) = row :: rest /\
    forall p, In p (jacobi_pairs r) -> exists x, In x row /\ snd p = nmul (nmul x x) (jacobi_scale (param_get pa) (param_get pb)).
Proof.
  intros t ext n pa pb r Sh So Hn D1 D2 D3. unfold jacobi_new. rewrite D1, D2, D3. destruct (Z.eqb_spec n 1); [lia|].
  destruct (golub_welsch _ _ _ _ _) as [ps|] eqn:E; [|discriminate]. cbn [bind]. intros H.
  destruct (gw_sorted A ext (Z.to_nat n) _ _ _ ps ltac:(lia) (f64_total_preorder be) Sh So E) as (_ & m & row & rest & Cm & Er & Pm).
  exists m, row, rest. split; [exact Cm|]. split; [exact Er|].
  assert (G : forall p, In p ps -> exists x, In x row /\ snd p = nmul (nmul x x) (jacobi_scale (param_get pa) (param_get pb))).
  { intros p Ip. apply (Permutation.Permutation_in _ Pm) in Ip. apply combine_snd in Ip. exact Ip. }
  destruct ((n mod 2 =? 1)%Z).
  - unfold zero_node in H. destruct (nth_error ps (Z.to_nat (n / 2))) as [[y w]|] eqn:En; [|discriminate H].
    destruct (list_set ps (Z.to_nat (n / 2)) (lit0, w)) as [ps'|] eqn:E'; [|discriminate H]. cbn [bind] in H. injection H; intros <-. cbn [jacobi_pairs].
    intros p Ip. destruct (list_set_in _ _ _ _ _ _ E' Ip) as [->|Ip']; [|apply G, Ip'].
    destruct (G (y, w) (nth_error_In _ _ En)) as (x & Ix & Ew). exists x. split; [exact Ix|exact Ew].
  - cbn [bind] in H. injection H; intros <-. exact G.
Qed.
Lemma jacobi_finite : forall t (ext : Linalg A) n (pa pb : Param A) (r : GaussJacobi A) GA GB, shape_preserving ext -> sorts ext -> (2 <= n)%Z -> ffin (param_get pa) -> ffin (param_get pb) ->
  / 10 ^ 18 <= fval (param_get pa) + 1 -> / 10 ^ 18 <= fval (param_get pb) + 1 -> - (7 / 10) <= fval (param_get pa) + fval (param_get pb) + 1 <= 160 -> / 10 ^ 15 <= Rabs (fval (param_get pa) + fval (param_get pb) + 1) ->
  is_Gamma (fval (param_get pa) + 1) GA -> is_Gamma (fval (param_get pb) + 1) GB -> Rpower 2 (fval (param_get pa) + fval (param_get pb) + 1) * GA * GB <= bpow radix2 990 ->
  ~ delegated (fval (param_get pa)) (fval (param_get pb)) ->
  (forall m row rest x, companion_matrix (Z.to_nat n) (jacobi_diag (param_get pa) (param_get pb)) (jacobi_off_diag (param_get pa) (param_get pb)) = Ok m -> snd (symmetric_eigen ext m) = row :: rest -> In x row -> ffin x /\ Rabs (fval x) <= 11 / 10) ->
  jacobi_new t ext n pa pb = Ok r -> forall p, In p (jacobi_pairs r) -> ffin (snd p).
Proof.
  intros t ext n pa pb r GA GB Sh So Hn Fa Fb Ha Hb Hs H0 HGA HGB HB Nd Hx HN p Ip. assert (P18 : 0 < / 10 ^ 18) by (apply Rinv_0_lt_compat; lra).
  destruct (plain_case pa pb Fa Fb Nd) as (D1 & D2 & D3).
  destruct (jacobi_weights_from t ext n pa pb r Sh So Hn D1 D2 D3 HN) as (m & row & rest & Cm & Er & Pm).
  destruct (Pm p Ip) as (x & Ix & ->). destruct (Hx _ _ _ _ Cm Er Ix) as [Fx Bx].
  assert (HI := jacobi_gen (fval (param_get pa)) (fval (param_get pb)) ltac:(lra) ltac:(lra) 1 (fun _ => 1)). 
  assert (PC : polynomial 1 (fun _ => 1)). { exists (fun j => match j with O => 1 | _ => 0 end). intros y. unfold rsum. simpl. ring. } specialize (HI PC).
  destruct (jac_scale_close be kappa HM _ _ GA GB _ Fa Fb Ha Hb Hs H0 HGA HGB HB HI) as (Fs & PM & Es & Bs). 
  rewrite (Gam_eq (fval (param_get pa) + 1) GA ltac:(lra) HGA), (Gam_eq (fval (param_get pb) + 1) GB ltac:(lra) HGB) in HB. assert (MS := mass_size (fval (param_get pa)) (fval (param_get pb)) _ ltac:(lra) ltac:(lra) HI HB).
  apply weight_finite; [exact Fx|exact Bx|exact Fs|]. rewrite Rabs_pos_eq by lra. apply Rle_trans with (4 * bpow radix2 990); [lra|]. change 4 with (bpow radix2 2). rewrite <- bpow_plus. apply bpow_le. lia.
Qed.

(** parameters at which they are not *)
Lemma laguerre_infinite : pow_overflows be -> exists al : Param A, param_new (A := A) (f64_lit 169 0) = Some al /\ fval (param_get al) = 169 /\
  (exists G, is_Gamma (169 + 1) G /\ G <= bpow radix2 1013) /\
  forall (ext : Linalg A) n r, shape_preserving ext -> sorts ext -> (1 <= n)%Z -> laguerre_new ext n al = Ok r -> laguerre_pairs r <> [] /\ forall p, In p (laguerre_pairs r) -> ~ ffin (snd p).
Proof.
  intros Ho. destruct (lit_int_exact 169 ltac:(lia)) as [F E]. exists (MkParam (f64_lit 169 0 : A)). split; [reflexivity|]. split; [exact E|].
  split; [exists (Gam (169 + 1)); split; [apply Gam_is; lra|replace (169 + 1) with 170 by lra; exact fact_169]|].
  intros ext n r Sh So Hn HN. split. { intros Z. assert (D := @laguerre_degree A ext n _ r Hn Sh So HN). rewrite Z in D. unfold rule_degree in D. simpl in D. lia. }
  intros p Ip. destruct (@laguerre_sorted A ext (f64_total_preorder be) Sh So n _ r Hn HN) as (_ & m & row & rest & _ & Er & Pm).
  apply (Permutation.Permutation_in _ Pm) in Ip. apply combine_snd in Ip. destruct Ip as (x & Ix & ->). cbn [param_get pval].
  assert (V : ffin (nadd (f64_lit 169 0 : A) lit1 : A) /\ fval (nadd (f64_lit 169 0 : A) lit1 : A) = 170).
  { destruct (lit_int_exact 1 ltac:(lia)) as [F2 E2]. change (f64_lit 1 0) with (lit1 : A) in F2, E2. destruct (add_finite be (f64_lit 169 0 : A) lit1 F F2) as [F3 E3].
    - rewrite E, E2. apply no_overflow_small. rewrite Rabs_pos_eq by lra. apply Rle_trans with (bpow radix2 8); [simpl; lra|apply bpow_le; lia].
    - split; [exact F3|]. rewrite E3, E, E2. replace (169 + 1) with (IZR 170) by lra. apply rnd_fmt. apply generic_format_FLT. exists (Float radix2 170 0); unfold F2R; simpl; [lra|lia|lia]. }
  rewrite (gamma_170 Ho _ (proj1 V) (proj2 V)). apply times_inf.
Qed.
Lemma lit_sum : forall a b : A, ffin a -> ffin b -> forall k, (0 <= k <= 1000)%Z -> fval a + fval b = IZR k -> ffin (nadd a b : A) /\ fval (nadd a b : A) = IZR k.
Proof.
  intros a b Fa Fb k Hk E. assert (K1 : 0 <= IZR k <= 1000) by (split; apply IZR_le; lia). destruct (add_finite be a b Fa Fb) as [F3 E3].
  - rewrite E. apply no_overflow_small. rewrite Rabs_pos_eq by lra. apply Rle_trans with (bpow radix2 10); [simpl; lra|apply bpow_le; lia].
  - split; [exact F3|]. rewrite E3, E. apply rnd_fmt. apply generic_format_FLT. exists (Float radix2 k 0); unfold F2R; cbn [Fnum Fexp bpow]; [lra|change (Z.pow_pos radix2 53) with (2 ^ 53)%Z; change (radix2 ^ 53)%Z with 9007199254740992%Z; lia|lia].
Qed.
Lemma mass_160 : forall M, jacobi_integral 160 0 (fun _ => 1) M -> M = 2 ^ 161 / 161.
Proof.
  intros M HI. destruct (true_mass_ln 160 0 M ltac:(lra) ltac:(lra) HI) as [PM EM]. replace (160 + 0 + 1) with 161 in EM by lra. replace (160 + 1) with 161 in EM by lra. replace (160 + 0 + 2) with (161 + 1) in EM by lra. replace (0 + 1) with 1 in EM by lra.
  rewrite Gam_S, Gam_1, ln_1, ln_mult in EM by (try apply Gam_pos; lra). assert (P161 : 0 < 2 ^ 161) by (apply pow_lt; lra). apply ln_inv; [exact PM|apply Rdiv_lt_0_compat; lra|].
  rewrite EM, ln_div by lra. rewrite ln_pow by lra. rewrite INR_IZR_INZ. change (Z.of_nat 161) with 161%Z. ring.
Qed.
Lemma fact_160 : bpow radix2 940 <= Gam 161.
Proof. replace 161 with (IZR (Z.of_nat 160) + 1) by (simpl; lra). rewrite Gam_fact, <- IZR_Zpower by lia. apply IZR_le. vm_compute. discriminate. Qed.
Lemma jacobi_infinite : exists pa pb : Param A, param_new (A := A) (f64_lit 160 0) = Some pa /\ param_new (A := A) (f64_lit 0 0) = Some pb /\ fval (param_get pa) = 160 /\ fval (param_get pb) = 0 /\
  (forall M, jacobi_integral 160 0 (fun _ => 1) M -> M = 2 ^ 161 / 161) /\
  forall t (ext : Linalg A) n r, shape_preserving ext -> sorts ext -> (2 <= n)%Z -> (n < usize_max t)%Z -> jacobi_new t ext n pa pb = Ok r -> jacobi_pairs r <> [] /\ forall p, In p (jacobi_pairs r) -> ~ ffin (snd p).
Proof.
  destruct (lit_int_exact 160 ltac:(lia)) as [Fa Ea]. destruct (lit_int_exact 0 ltac:(lia)) as [Fb Eb]. exists (MkParam (f64_lit 160 0 : A)), (MkParam (f64_lit 0 0 : A)).
  split; [reflexivity|]. split; [reflexivity|]. split; [exact Ea|]. split; [exact Eb|]. split; [exact mass_160|].
  intros t ext n r Sh So Hn Hu HN. split. { intros Z. assert (D := @jacobi_degree A t ext n _ _ r ltac:(lia) Sh So HN). rewrite Z in D. unfold rule_degree in D. simpl in D. lia. }
  intros p Ip. destruct (plain_case (MkParam (f64_lit 160 0 : A)) (MkParam (f64_lit 0 0 : A)) Fa Fb) as (D1 & D2 & D3). { cbn [param_get pval]. rewrite Ea, Eb. intros [[]|[[]|[]]]; lra. }
  destruct (jacobi_weights_from t ext n _ _ r Sh So Hn D1 D2 D3 HN) as (m & row & rest & _ & Er & Pm).
  destruct (Pm p Ip) as (x & Ix & ->). cbn [param_get pval]. unfold jacobi_scale.
  destruct (lit_int_exact 1 ltac:(lia)) as [F1 E1]. change (f64_lit 1 0) with (lit1 : A) in F1, E1. set (a := f64_lit 160 0 : A) in *. set (b := f64_lit 0 0 : A) in *.
  destruct (lit_sum a b Fa Fb 160 ltac:(lia) ltac:(rewrite Ea, Eb; lra)) as [F2 E2]. destruct (lit_sum (nadd a b) lit1 F2 F1 161 ltac:(lia) ltac:(rewrite E2, E1; lra)) as [F3 E3].
  destruct (lit_sum a lit1 Fa F1 161 ltac:(lia) ltac:(rewrite Ea, E1; lra)) as [F4 E4]. destruct (lit_sum b lit1 Fb F1 1 ltac:(lia) ltac:(rewrite Eb, E1; lra)) as [F5 E5].
  set (ab := nadd (nadd a b) lit1 : A) in *. set (a1 := nadd a lit1 : A) in *. set (b1 := nadd b lit1 : A) in *. clearbody ab a1 b1.
  destruct (two_relx be kappa HM ab F3 ltac:(rewrite E3; lra)) as [(Fp & _ & Ep & Cp) _]. rewrite E3 in Ep. assert (Sp := ex_small _ Cp).
  assert (G : forall z : A, ffin z -> / 10 ^ 19 <= fval z <= 169 -> ffin (gamma z : A) /\ 98 / 100 * Gam (fval z) <= fval (gamma z : A)).
  { intros z Fz Hz. assert (P19 : 0 < / 10 ^ 19) by (apply Rinv_0_lt_compat; lra). destruct (gamma_true be kappa HM z (Gam (fval z)) Fz Hz (Gam_is (fval z) ltac:(lra))) as [FG EG]. split; [exact FG|].
    assert (k := GamFloatScale.kap be kappa HM). assert (PG := Gam_pos (fval z) ltac:(lra)). assert ((1 / 10 ^ 11 + 22 / 10 * kappa) * Gam (fval z) <= 1 / 100 * Gam (fval z)) by (apply Rmult_le_compat_r; lra). apply Rabs_le_inv in EG. lra. }
  destruct (G a1 F4 ltac:(rewrite E4; lra)) as [FA GA]. destruct (G b1 F5 ltac:(rewrite E5; lra)) as [FB GB]. destruct (G ab F3 ltac:(rewrite E3; lra)) as [FC GC].
  rewrite E4 in GA. rewrite E5, Gam_1 in GB. rewrite E3 in GC. assert (F160 := fact_160). assert (B940 := bpow_gt_0 radix2 940).
  assert (T : Rpower 2 161 = bpow radix2 161). { replace 161 with (INR 161) by (rewrite INR_IZR_INZ; reflexivity). rewrite Rpower_pow by lra. rewrite bpow_powerRZ. change 161%Z with (Z.of_nat 161). rewrite <- pow_powerRZ. reflexivity. }
  rewrite T in Ep. assert (B161 := bpow_gt_0 radix2 161). apply Rabs_le_inv in Ep. assert (Bp : 98 / 100 * bpow radix2 161 <= fval (npow lit2 ab : A)). { assert (ex (1 + kappa / uro) * bpow radix2 161 <= 13 / 10 ^ 5 * bpow radix2 161) by (apply Rmult_le_compat_r; lra). lra. }
  rewrite (mul_overflow (npow lit2 ab) (gamma a1) Fp FA ltac:(lra) ltac:(lra)).
  - rewrite (inf_mul (gamma b1) FB ltac:(lra)), (inf_div (gamma ab) FC ltac:(lra)), (inf_div ab F3 ltac:(rewrite E3; lra)). apply times_inf.
  - apply Rle_trans with ((98 / 100 * bpow radix2 161) * (98 / 100 * bpow radix2 940)).
    + replace (98 / 100 * bpow radix2 161 * (98 / 100 * bpow radix2 940)) with (9604 / 10000 * (bpow radix2 161 * bpow radix2 940)) by field. rewrite <- bpow_plus. change (161 + 940)%Z with (1 + 1100)%Z. rewrite bpow_plus. change (bpow radix2 1) with 2.
      assert (bpow radix2 1024 <= bpow radix2 1100) by (apply bpow_le; lia). assert (X := bpow_gt_0 radix2 1100). lra.
    + apply Rmult_le_compat; lra.
Qed.
End F.
