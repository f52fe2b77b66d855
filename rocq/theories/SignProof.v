(** Signs of doubles: closure properties. *)
From Coq Require Import Reals ZArith List Lra Lia Bool.
From Flocq Require Import Core IEEE754.Binary.
From Flocq Require IEEE754.BinarySingleNaN.
From Verif Require Import Arith F64 F64Spec F64Proof SignSpec.
Import ListNotations.
Local Open Scope R_scope.

Definition nn (x : f64) : Prop :=
  match x with
  | B754_zero _ _ _ => True
  | B754_infinity _ _ s => s = false
  | B754_nan _ _ _ _ _ => True
  | B754_finite _ _ s _ _ _ => s = false
  end.
Section Ops.
Variable be : Backend.
Notation A := (F64 be).
Lemma lit0_zero : @lit0 A = B754_zero 53 1024 false. Proof. reflexivity. Qed.
Lemma nn_iff : forall x : A, not_negative x <-> nn x.
Proof.
  intros x. unfold not_negative, nlt. rewrite lit0_zero.
  destruct x as [s|s|s p H|s m e H]; simpl; try tauto; destruct s; simpl; split; intros E; try reflexivity; try discriminate E.
Qed.
Lemma nn_val : forall x : f64, ffin x -> (nn x <-> 0 <= fval x).
Proof.
  intros x Hx. destruct x as [s|s|s p H|s m e H]; try discriminate Hx.
  - unfold fval; simpl. split; intros; [lra|exact I].
  - unfold fval. simpl. destruct s; split; intros E; try discriminate E; try reflexivity.
    + exfalso. assert (F2R (Float radix2 (Z.neg m) e) < 0) by (apply F2R_lt_0; reflexivity). simpl in E. lra.
    + apply F2R_ge_0. simpl. lia.
Qed.
Lemma nn_sign : forall x : f64, ffin x -> nn x -> Bsign 53 1024 x = true -> fval x = 0.
Proof. intros x Hx Hn Hs. destruct x as [s|s|s p H|s m e H]; try discriminate Hx; [reflexivity|]. simpl in *. congruence. Qed.
Lemma rnd_pos : forall x, 0 <= x -> 0 <= rnd x.
Proof. intros x Hx. unfold rnd. apply round_ge_generic; [apply valid_exp_f64|apply valid_rnd_N|apply generic_format_0|exact Hx]. Qed.
Lemma nn_inf : nn (B754_infinity 53 1024 false). Proof. reflexivity. Qed.
Lemma nan_nn : forall x : f64, is_nan 53 1024 x = true -> nn x.
Proof. intros x. destruct x; try discriminate. intros; exact I. Qed.
Lemma not_fin_cases : forall x : f64, {ffin x} + {exists s, x = B754_infinity 53 1024 s} + {is_nan 53 1024 x = true}.
Proof. intros x. destruct x as [s|s|s p H|s m e H]; [left; left; reflexivity|left; right; eauto|right; reflexivity|left; left; reflexivity]. Qed.

Lemma nan_Bplus : forall x y : A, BinarySingleNaN.is_nan (BinarySingleNaN.Bplus (prec_gt_0_ := prec53) (prec_lt_emax_ := prec53_emax) BinarySingleNaN.mode_NE (B2BSN 53 1024 x) (B2BSN 53 1024 y)) = true -> is_nan 53 1024 (nadd x y) = true.
Proof. intros x y H. change (nadd x y) with (Bplus 53 1024 prec53 prec53_emax (nan_add be) BinarySingleNaN.mode_NE x y). unfold Bplus. rewrite is_nan_BSN2B. exact H. Qed.
Lemma nan_Bmult : forall x y : A, BinarySingleNaN.is_nan (BinarySingleNaN.Bmult (prec_gt_0_ := prec53) (prec_lt_emax_ := prec53_emax) BinarySingleNaN.mode_NE (B2BSN 53 1024 x) (B2BSN 53 1024 y)) = true -> is_nan 53 1024 (nmul x y) = true.
Proof. intros x y H. change (nmul x y) with (Bmult 53 1024 prec53 prec53_emax (nan_mul be) BinarySingleNaN.mode_NE x y). unfold Bmult. rewrite is_nan_BSN2B. exact H. Qed.
Lemma nan_Bdiv : forall x y : A, BinarySingleNaN.is_nan (BinarySingleNaN.Bdiv (prec_gt_0_ := prec53) (prec_lt_emax_ := prec53_emax) BinarySingleNaN.mode_NE (B2BSN 53 1024 x) (B2BSN 53 1024 y)) = true -> is_nan 53 1024 (ndiv x y) = true.
Proof. intros x y H. change (ndiv x y) with (Bdiv 53 1024 prec53 prec53_emax (nan_div be) BinarySingleNaN.mode_NE x y). unfold Bdiv. rewrite is_nan_BSN2B. exact H. Qed.
Lemma nan_Bminus : forall x y : A, BinarySingleNaN.is_nan (BinarySingleNaN.Bminus (prec_gt_0_ := prec53) (prec_lt_emax_ := prec53_emax) BinarySingleNaN.mode_NE (B2BSN 53 1024 x) (B2BSN 53 1024 y)) = true -> is_nan 53 1024 (nsub x y) = true.
Proof. intros x y H. change (nsub x y) with (Bminus 53 1024 prec53 prec53_emax (nan_sub be) BinarySingleNaN.mode_NE x y). unfold Bminus. rewrite is_nan_BSN2B. exact H. Qed.
Lemma nn_add : forall x y : A, nn x -> nn y -> nn (nadd x y).
Proof.
  intros x y Hx Hy.
  destruct (not_fin_cases x) as [[Fx|[sx Ex]]|Nx].
  - destruct (not_fin_cases y) as [[Fy|[sy Ey]]|Ny].
    + generalize (Bplus_correct 53 1024 prec53 prec53_emax (nan_add be) BinarySingleNaN.mode_NE x y Fx Fy).
      rewrite rnd_eq. fold (fval x) (fval y). pose proof (proj1 (nn_val x Fx) Hx). pose proof (proj1 (nn_val y Fy) Hy).
      destruct (Rlt_bool_spec (Rabs (rnd (fval x + fval y))) (bpow radix2 1024)) as [Ho|Ho].
      * intros (H1 & H2 & _). apply nn_val; [exact H2|]. unfold fval; refine (eq_ind_r (fun z => 0 <= z) _ H1). apply rnd_pos. lra.
      * intros (H1 & H2). apply overflow_not_finite in H1. refine (eq_ind_r nn _ H1).
        destruct (Bsign 53 1024 x) eqn:S; [|reflexivity]. exfalso.
        rewrite (nn_sign x Fx Hx S), (nn_sign y Fy Hy (eq_sym H2)) in Ho. rewrite Rplus_0_l in Ho.
        unfold rnd in Ho. rewrite round_0, Rabs_R0 in Ho by apply valid_rnd_N. pose proof (bpow_gt_0 radix2 1024). lra.
    + subst y. simpl in Hy. subst sy. destruct x; try discriminate Fx; reflexivity.
    + apply nan_nn. destruct y; try discriminate Ny. destruct x; try discriminate Fx; apply nan_Bplus; reflexivity.
  - subst x. simpl in Hx. subst sx. destruct y as [s|s|s p H|s m e H]; simpl in Hy; subst; first [reflexivity | apply nan_nn; apply nan_Bplus; reflexivity].
  - apply nan_nn. destruct x; try discriminate Nx. apply nan_Bplus; destruct y; reflexivity.
Qed.
Lemma nn_mul : forall x y : A, nn x -> nn y -> nn (nmul x y).
Proof.
  intros x y Hx Hy.
  destruct (not_fin_cases x) as [[Fx|[sx Ex]]|Nx].
  - destruct (not_fin_cases y) as [[Fy|[sy Ey]]|Ny].
    + generalize (Bmult_correct 53 1024 prec53 prec53_emax (nan_mul be) BinarySingleNaN.mode_NE x y).
      rewrite rnd_eq. fold (fval x) (fval y). pose proof (proj1 (nn_val x Fx) Hx). pose proof (proj1 (nn_val y Fy) Hy).
      destruct (Rlt_bool_spec (Rabs (rnd (fval x * fval y))) (bpow radix2 1024)) as [Ho|Ho].
      * intros (H1 & H2 & _). rewrite Fx, Fy in H2. apply nn_val; [exact H2|]. unfold fval; refine (eq_ind_r (fun z => 0 <= z) _ H1). apply rnd_pos. nra.
      * intros H1. apply overflow_not_finite in H1. refine (eq_ind_r nn _ H1).
        assert (Z : fval x * fval y <> 0).
        { intros Z. rewrite Z in Ho. unfold rnd in Ho. rewrite round_0, Rabs_R0 in Ho by apply valid_rnd_N. pose proof (bpow_gt_0 radix2 1024). lra. }
        destruct (Bsign 53 1024 x) eqn:S; [exfalso; apply Z; rewrite (nn_sign x Fx Hx S); ring|].
        destruct (Bsign 53 1024 y) eqn:S'; [exfalso; apply Z; rewrite (nn_sign y Fy Hy S'); ring|]. reflexivity.
    + subst y. simpl in Hy. subst sy. destruct x as [s|s|s p H|s m e H]; try discriminate Fx.
      * apply nan_nn. apply nan_Bmult; reflexivity.
      * simpl in Hx. subst s. reflexivity.
    + apply nan_nn. destruct y; try discriminate Ny. destruct x; try discriminate Fx; apply nan_Bmult; reflexivity.
  - subst x. simpl in Hx. subst sx. destruct y as [s|s|s p H|s m e H]; simpl in Hy; subst; first [reflexivity | apply nan_nn; apply nan_Bmult; reflexivity].
  - apply nan_nn. destruct x; try discriminate Nx. apply nan_Bmult; destruct y; reflexivity.
Qed.
(** division by a positive finite number *)
Lemma nn_div : forall x y : A, nn x -> ffin y -> 0 < fval y -> nn (ndiv x y).
Proof.
  intros x y Hx Fy Py.
  assert (Sy : Bsign 53 1024 y = false).
  { destruct (Bsign 53 1024 y) eqn:S; [|reflexivity]. rewrite (nn_sign y Fy) in Py; [lra| |exact S]. apply nn_val; [exact Fy|lra]. }
  destruct (not_fin_cases x) as [[Fx|[sx Ex]]|Nx].
  - generalize (Bdiv_correct 53 1024 prec53 prec53_emax (nan_div be) BinarySingleNaN.mode_NE x y). fold (fval y). intros G. specialize (G ltac:(lra)). revert G.
    rewrite rnd_eq. fold (fval x). pose proof (proj1 (nn_val x Fx) Hx).
    destruct (Rlt_bool_spec (Rabs (rnd (fval x / fval y))) (bpow radix2 1024)) as [Ho|Ho].
    + intros (H1 & H2 & _). rewrite Fx in H2. apply nn_val; [exact H2|]. unfold fval at 1; refine (eq_ind_r (fun z => 0 <= z) _ H1). apply rnd_pos.
      apply Rmult_le_pos; [assumption|]. left. apply Rinv_0_lt_compat, Py.
    + intros H1. apply overflow_not_finite in H1. refine (eq_ind_r nn _ H1).
      destruct (Bsign 53 1024 x) eqn:S; [|rewrite Sy; reflexivity]. exfalso.
      rewrite (nn_sign x Fx Hx S) in Ho. unfold Rdiv in Ho. rewrite Rmult_0_l in Ho.
      unfold rnd in Ho. rewrite round_0, Rabs_R0 in Ho by apply valid_rnd_N. pose proof (bpow_gt_0 radix2 1024). lra.
  - subst x. simpl in Hx. subst sx. destruct y as [s|s|s p H|s m e H]; try discriminate Fy; simpl in Sy; subst s; reflexivity.
  - apply nan_nn. destruct x; try discriminate Nx. apply nan_Bdiv; destruct y; reflexivity.
Qed.
Lemma nn_sub : forall b a : A, nlt b a = false -> nn (nsub b a).
Proof.
  intros b a H.
  destruct (not_fin_cases b) as [[Fb|[sb Eb]]|Nb].
  - destruct (not_fin_cases a) as [[Fa|[sa Ea]]|Na].
    + assert (Hab : fval a <= fval b).
      { destruct (Rle_or_lt (fval a) (fval b)); [assumption|]. exfalso. apply (lt_finite be b a Fb Fa) in H0. congruence. }
      generalize (Bminus_correct 53 1024 prec53 prec53_emax (nan_sub be) BinarySingleNaN.mode_NE b a Fb Fa).
      rewrite rnd_eq. fold (fval a) (fval b).
      destruct (Rlt_bool_spec (Rabs (rnd (fval b - fval a))) (bpow radix2 1024)) as [Ho|Ho].
      * intros (H1 & H2 & _). apply nn_val; [exact H2|]. unfold fval; refine (eq_ind_r (fun z => 0 <= z) _ H1). apply rnd_pos. lra.
      * intros (H1 & H2). apply overflow_not_finite in H1. refine (eq_ind_r nn _ H1).
        destruct (Bsign 53 1024 b) eqn:S; [|reflexivity]. exfalso.
        assert (Bn : fval b <= 0). { destruct b as [s|s|s p Hp|s m e Hp]; try discriminate Fb; [unfold fval; simpl; lra|]. simpl in S. subst s. unfold fval. simpl. apply F2R_le_0. simpl. lia. }
        assert (An : 0 <= fval a). { destruct a as [s|s|s p Hp|s m e Hp]; try discriminate Fa; [unfold fval; simpl; lra|]. simpl in H2. destruct s; [discriminate H2|]. unfold fval. simpl. apply F2R_ge_0. simpl. lia. }
        replace (fval b - fval a) with 0 in Ho by lra.
        unfold rnd in Ho. rewrite round_0, Rabs_R0 in Ho by apply valid_rnd_N. pose proof (bpow_gt_0 radix2 1024). lra.
    + subst a. destruct sa; [|exfalso].
      * destruct b; try discriminate Fb; reflexivity.
      * destruct b as [s|s|s p Hp|s m e Hp]; try discriminate Fb; try destruct s; discriminate H.
    + apply nan_nn. destruct a; try discriminate Na. destruct b; try discriminate Fb; apply nan_Bminus; reflexivity.
  - subst b. destruct sb.
    + destruct a as [s|s|s p Hp|s m e Hp]; try destruct s; first [discriminate H | reflexivity | apply nan_nn; apply nan_Bminus; reflexivity].
    + destruct a as [s|s|s p Hp|s m e Hp]; try destruct s; first [discriminate H | reflexivity | apply nan_nn; apply nan_Bminus; reflexivity].
  - apply nan_nn. destruct b; try discriminate Nb. apply nan_Bminus; destruct a; reflexivity.
Qed.
End Ops.
