(** Adding, multiplying and halving doubles respects order and sign, overflow and infinities included. *)
From Coq Require Import Reals ZArith List Lra Lia Bool.
From Flocq Require Import Core IEEE754.Binary.
From Flocq Require IEEE754.BinarySingleNaN.
From Verif Require Import Arith F64 F64Spec F64Proof SignSpec SignProof Machine Iter Rules Par NewtonCotes Chebyshev Hermite Laguerre Legendre Jacobi
  IntegrateSpec IntegrateProof GaussSpec GaussProof TraceProof NestSpec NestProof ExcSpec Exc OrderSpec.
From Flocq Require Import IEEE754.Binary.
Import ListNotations.
Local Open Scope R_scope.

(** infinities as numbers far outside of the range *)
Definition big : R := bpow radix2 4000.
Definition top : R := bpow radix2 1024.
Definition ev (x : f64) : R := if is_finite 53 1024 x then fval x else if Bsign 53 1024 x then - big else big.
Definition clamp (v : R) : R := if Rlt_bool (Rabs v) top then v else if Rlt_bool v 0 then - big else big.
Definition fl (v : R) : R := clamp (rnd v).
Lemma top_pos : 0 < top. Proof. apply bpow_gt_0. Qed.
Lemma top_big : 2 * top < big.
Proof. unfold big, top. replace 2 with (bpow radix2 1) by reflexivity. rewrite <- bpow_plus. apply bpow_lt. lia. Qed.
Lemma rnd_mono : forall x y, x <= y -> rnd x <= rnd y.
Proof. intros x y H. unfold rnd. apply round_le; [apply valid_exp_f64|apply valid_rnd_N|exact H]. Qed.
Lemma rnd_opp : forall x, rnd (- x) = - rnd x.
Proof. intros x. unfold rnd. apply round_NE_opp. Qed.
Lemma rnd_top : rnd top = top.
Proof. unfold rnd, top. apply round_generic; [apply valid_rnd_N|]. apply generic_format_bpow. unfold FLT_exp. lia. Qed.
Lemma rnd_big : rnd big = big.
Proof. unfold rnd, big. apply round_generic; [apply valid_rnd_N|]. apply generic_format_bpow. unfold FLT_exp. lia. Qed.
Lemma clamp_mono : forall u v, u <= v -> clamp u <= clamp v.
Proof.
  intros u v H. pose proof top_pos. pose proof top_big. unfold clamp.
  destruct (Rlt_bool_spec (Rabs u) top) as [A1|A1]; destruct (Rlt_bool_spec (Rabs v) top) as [A2|A2]; try exact H;
    destruct (Rlt_bool_spec v 0); try destruct (Rlt_bool_spec u 0); split_Rabs; lra.
Qed.
Lemma clamp_opp : forall u, clamp (- u) = - clamp u.
Proof.
  intros u. pose proof top_pos. unfold clamp. rewrite Rabs_Ropp. destruct (Rlt_bool_spec (Rabs u) top) as [A1|A1]; [reflexivity|].
  destruct (Rlt_bool_spec (- u) 0); destruct (Rlt_bool_spec u 0); split_Rabs; lra.
Qed.
Lemma fl_mono : forall u v, u <= v -> fl u <= fl v. Proof. intros u v H. apply clamp_mono, rnd_mono, H. Qed.
Lemma fl_opp : forall u, fl (- u) = - fl u. Proof. intros u. unfold fl. rewrite rnd_opp. apply clamp_opp. Qed.
Lemma fl_high : forall u, top <= u -> fl u = big.
Proof.
  intros u H. pose proof top_pos. apply rnd_mono in H. rewrite rnd_top in H. unfold fl, clamp.
  destruct (Rlt_bool_spec (Rabs (rnd u)) top); [split_Rabs; lra|]. destruct (Rlt_bool_spec (rnd u) 0); [lra|reflexivity].
Qed.
Lemma fl_low : forall u, u <= - top -> fl u = - big.
Proof. intros u H. rewrite <- (Ropp_involutive u), fl_opp, fl_high by lra. reflexivity. Qed.
Lemma ev_fin : forall x, ffin x -> ev x = fval x. Proof. intros x H. unfold ev. rewrite H. reflexivity. Qed.
Lemma fval_top : forall x, Rabs (fval x) < top. Proof. exact fval_bound. Qed.
Lemma fin_sign : forall x : f64, ffin x -> fval x <> 0 -> Bsign 53 1024 x = Rlt_bool (fval x) 0.
Proof.
  intros x F Z. destruct x as [s|s|s p H|s m e H]; try discriminate F; [exfalso; apply Z; reflexivity|]. unfold fval. simpl B2R. simpl Bsign.
  destruct s; symmetry; [apply Rlt_bool_true, F2R_lt_0; reflexivity|apply Rlt_bool_false, F2R_ge_0; simpl; lia].
Qed.
Lemma over_nz : forall v, top <= Rabs (rnd v) -> v <> 0.
Proof. intros v H Z. subst v. unfold rnd in H. rewrite round_0, Rabs_R0 in H by apply valid_rnd_N. pose proof top_pos. lra. Qed.
Lemma rnd_sign : forall v, top <= Rabs (rnd v) -> Rlt_bool (rnd v) 0 = Rlt_bool v 0.
Proof.
  intros v H. pose proof top_pos. assert (R0 : rnd 0 = 0) by (unfold rnd; apply round_0, valid_rnd_N).
  destruct (Rlt_bool_spec v 0) as [V|V].
  - apply Rlt_bool_true. assert (rnd v <= 0) by (rewrite <- R0; apply rnd_mono; lra). split_Rabs; lra.
  - apply Rlt_bool_false. rewrite <- R0. apply rnd_mono; lra.
Qed.
Lemma fin_nz : forall x : f64, ffin x -> fval x = 0 -> exists s, x = B754_zero 53 1024 s.
Proof.
  intros x F Z. destruct x as [s|s|s p H|s m e H]; try discriminate F; [eauto|]. exfalso. revert Z. unfold fval. simpl B2R. apply F2R_neq_0. destruct s; discriminate.
Qed.

Section Ops.
Variable be : Backend.
Notation A := (F64 be).
Local Open Scope num_scope.
Lemma ev_inf : forall s, ev (B754_infinity 53 1024 s) = if s then (- big)%R else big. Proof. reflexivity. Qed.

Lemma add_fin : forall x y : A, ffin x -> ffin y -> ~ fnan (x [+] y) /\ ev (x [+] y) = fl (ev x + ev y).
Proof.
  intros x y Fx Fy. rewrite (ev_fin x Fx), (ev_fin y Fy).
  generalize (Bplus_correct 53 1024 prec53 prec53_emax (F64.nan_add be) BinarySingleNaN.mode_NE x y Fx Fy).
  rewrite rnd_eq. fold (fval x) (fval y). unfold fl, clamp. fold top.
  destruct (Rlt_bool_spec (Rabs (rnd (fval x + fval y))) top) as [Ho|Ho].
  - intros (H1 & H2 & _). split.
    + intros N. unfold fnan in N. change (is_finite 53 1024 (x [+] y) = true) in H2. destruct (x [+] y : f64); discriminate.
    + rewrite ev_fin by exact H2. exact H1.
  - intros (H1 & H2). apply overflow_not_finite in H1. change (x [+] y = B754_infinity 53 1024 (Bsign 53 1024 x)) in H1. rewrite H1. split; [discriminate|].
    rewrite ev_inf, rnd_sign by exact Ho. assert (Nz := over_nz _ Ho). assert (Bx := fval_top x). assert (By := fval_top y).
    destruct (Req_dec (fval x) 0) as [Zx|Zx].
    { exfalso. rewrite Zx, Rplus_0_l, rnd_fval in Ho. lra. }
    destruct (Req_dec (fval y) 0) as [Zy|Zy].
    { exfalso. rewrite Zy, Rplus_0_r, rnd_fval in Ho. lra. }
    rewrite (fin_sign x Fx Zx) in *. rewrite (fin_sign y Fy Zy) in H2.
    destruct (Rlt_bool_spec (fval x) 0) as [Sx|Sx]; destruct (Rlt_bool_spec (fval y) 0) as [Sy|Sy]; try discriminate H2;
      destruct (Rlt_bool_spec (fval x + fval y) 0); try reflexivity; lra.
Qed.
Lemma mul_fin : forall x y : A, ffin x -> ffin y -> ~ fnan (x [*] y) /\ ev (x [*] y) = fl (ev x * ev y).
Proof.
  intros x y Fx Fy. rewrite (ev_fin x Fx), (ev_fin y Fy).
  generalize (Bmult_correct 53 1024 prec53 prec53_emax (F64.nan_mul be) BinarySingleNaN.mode_NE x y).
  rewrite rnd_eq. fold (fval x) (fval y). unfold fl, clamp. fold top.
  destruct (Rlt_bool_spec (Rabs (rnd (fval x * fval y))) top) as [Ho|Ho].
  - intros (H1 & H2 & _). rewrite Fx, Fy in H2. split.
    + intros N. unfold fnan in N. change (is_finite 53 1024 (x [*] y) = true) in H2. destruct (x [*] y : f64); discriminate.
    + rewrite ev_fin by exact H2. exact H1.
  - intros H1. apply overflow_not_finite in H1. change (x [*] y = B754_infinity 53 1024 (xorb (Bsign 53 1024 x) (Bsign 53 1024 y))) in H1. rewrite H1. split; [discriminate|].
    rewrite ev_inf, rnd_sign by exact Ho. assert (Nz := over_nz _ Ho).
    assert (Zx : fval x <> 0%R) by (intros Z; apply Nz; rewrite Z; ring). assert (Zy : fval y <> 0%R) by (intros Z; apply Nz; rewrite Z; ring).
    rewrite (fin_sign x Fx Zx), (fin_sign y Fy Zy).
    destruct (Rlt_bool_spec (fval x) 0) as [Sx|Sx]; destruct (Rlt_bool_spec (fval y) 0) as [Sy|Sy]; cbn [xorb];
      destruct (Rlt_bool_spec (fval x * fval y) 0); try reflexivity; nra.
Qed.
Lemma div_fin : forall x y : A, ffin x -> ffin y -> 0 < fval y -> ~ fnan (x [/] y) /\ ev (x [/] y) = fl (ev x / fval y).
Proof.
  intros x y Fx Fy Py. rewrite (ev_fin x Fx). assert (Zy : fval y <> 0%R) by lra.
  generalize (Bdiv_correct 53 1024 prec53 prec53_emax (F64.nan_div be) BinarySingleNaN.mode_NE x y Zy).
  rewrite rnd_eq. fold (fval x) (fval y). unfold fl, clamp. fold top.
  destruct (Rlt_bool_spec (Rabs (rnd (fval x / fval y))) top) as [Ho|Ho].
  - intros (H1 & H2 & _). rewrite Fx in H2. split.
    + intros N. unfold fnan in N. change (is_finite 53 1024 (x [/] y) = true) in H2. destruct (x [/] y : f64); discriminate.
    + rewrite ev_fin by exact H2. exact H1.
  - intros H1. apply overflow_not_finite in H1. change (x [/] y = B754_infinity 53 1024 (xorb (Bsign 53 1024 x) (Bsign 53 1024 y))) in H1. rewrite H1. split; [discriminate|].
    rewrite ev_inf, rnd_sign by exact Ho. assert (Nz := over_nz _ Ho).
    assert (Zx : fval x <> 0%R) by (intros Z; apply Nz; rewrite Z; unfold Rdiv; ring).
    rewrite (fin_sign x Fx Zx), (fin_sign y Fy Zy). rewrite (Rlt_bool_false (fval y) 0) by lra. rewrite xorb_false_r.
    assert (IP := Rinv_0_lt_compat _ Py). unfold Rdiv.
    destruct (Rlt_bool_spec (fval x) 0) as [Sx|Sx]; destruct (Rlt_bool_spec (fval x * / fval y) 0); try reflexivity; nra.
Qed.

(** which operations give NaN *)
Definition add_bad (x y : f64) : Prop := fnan x \/ fnan y \/ ev x = big /\ ev y = (- big)%R \/ ev x = (- big)%R /\ ev y = big.
Definition mul_bad (x y : f64) : Prop := fnan x \/ fnan y \/ Rabs (ev x) = big /\ ev y = 0%R \/ ev x = 0%R /\ Rabs (ev y) = big.
Lemma big_pos : 0 < big. Proof. pose proof top_pos. pose proof top_big. lra. Qed.
Lemma fin_big : forall x, ffin x -> Rabs (ev x) < top. Proof. intros x F. rewrite ev_fin by exact F. apply fval_top. Qed.
Lemma add_op : forall x y : A, fnan (x [+] y) /\ add_bad x y \/ ~ fnan (x [+] y) /\ ~ add_bad x y /\ ev (x [+] y) = fl (ev x + ev y).
Proof.
  intros x y. pose proof top_pos as Tp. pose proof top_big as TB. pose proof big_pos as BP.
  destruct (not_fin_cases x) as [[Fx|[sx ->]]|Nx].
  - destruct (not_fin_cases y) as [[Fy|[sy ->]]|Ny].
    + right. destruct (add_fin x y Fx Fy) as [H1 H2]. split; [exact H1|]. split; [|exact H2]. pose proof (fin_big x Fx). pose proof (fin_big y Fy).
      intros [B|[B|[[B1 B2]|[B1 B2]]]]; [destruct x; discriminate|destruct y; discriminate|split_Rabs; lra|split_Rabs; lra].
    + right. pose proof (fin_big x Fx) as Hx. assert (E : x [+] (B754_infinity 53 1024 sy : A) = B754_infinity 53 1024 sy) by (destruct x; try discriminate Fx; reflexivity).
      rewrite E. split; [discriminate|]. split.
      * intros [B|[B|[[B1 B2]|[B1 B2]]]]; [destruct x; discriminate|discriminate|split_Rabs; lra|split_Rabs; lra].
      * rewrite ev_inf. destruct sy; symmetry; [apply fl_low|apply fl_high]; split_Rabs; lra.
    + left. split; [apply nan_add; right; exact Ny|right; left; exact Ny].
  - destruct (not_fin_cases y) as [[Fy|[sy ->]]|Ny].
    + right. pose proof (fin_big y Fy) as Hy. assert (E : (B754_infinity 53 1024 sx : A) [+] y = B754_infinity 53 1024 sx) by (destruct y; try discriminate Fy; reflexivity).
      rewrite E. split; [discriminate|]. split.
      * intros [B|[B|[[B1 B2]|[B1 B2]]]]; [discriminate|destruct y; discriminate|split_Rabs; lra|split_Rabs; lra].
      * rewrite ev_inf. destruct sx; symmetry; [apply fl_low|apply fl_high]; split_Rabs; lra.
    + destruct sx, sy.
      * right. split; [discriminate|]. split; [intros [B|[B|[[B1 B2]|[B1 B2]]]]; try discriminate; rewrite ev_inf in *; lra|]. rewrite ev_inf. symmetry. apply fl_low. lra.
      * left. split; [apply nan_Bplus; reflexivity|]. right. right. right. split; reflexivity.
      * left. split; [apply nan_Bplus; reflexivity|]. right. right. left. split; reflexivity.
      * right. split; [discriminate|]. split; [intros [B|[B|[[B1 B2]|[B1 B2]]]]; try discriminate; rewrite ev_inf in *; lra|]. rewrite ev_inf. symmetry. apply fl_high. lra.
    + left. split; [apply nan_add; right; exact Ny|right; left; exact Ny].
  - left. split; [apply nan_add; left; exact Nx|left; exact Nx].
Qed.

Lemma fin_low : forall x : f64, ffin x -> fval x <> 0 -> bpow radix2 (-1074) <= Rabs (fval x).
Proof.
  intros x F Z. apply (abs_B2R_ge_emin 53 1024). destruct x as [s|s|s p H|s m e H]; try discriminate F; [exfalso; apply Z; reflexivity|reflexivity].
Qed.
Lemma big_low : bpow radix2 (-1074) * big = bpow radix2 2926.
Proof. unfold big. rewrite <- bpow_plus. reflexivity. Qed.
Lemma top_2926 : top <= bpow radix2 2926. Proof. unfold top. apply bpow_le. lia. Qed.
Lemma far : forall u : R, bpow radix2 (-1074) <= Rabs u -> top <= Rabs u * big.
Proof.
  intros u H. pose proof big_pos. apply (Rmult_le_compat_r big) in H; [|lra]. rewrite big_low in H. pose proof top_2926. lra.
Qed.
Lemma inf_mul : forall (x : A) s, ffin x -> fval x <> 0 ->
  x [*] (B754_infinity 53 1024 s : A) = B754_infinity 53 1024 (xorb (Bsign 53 1024 x) s) /\ (B754_infinity 53 1024 s : A) [*] x = B754_infinity 53 1024 (xorb s (Bsign 53 1024 x)).
Proof.
  intros x s F Z. destruct x as [s'|s'|s' p H|s' m e H]; try discriminate F; [exfalso; apply Z; reflexivity|]. split; reflexivity.
Qed.
Lemma ev_far : forall x : f64, ffin x -> fval x <> 0 -> (if Bsign 53 1024 x then (- big)%R else big) = fl (ev x * big).
Proof.
  intros x F Z. pose proof (far _ (fin_low x F Z)) as H. rewrite (fin_sign x F Z), (ev_fin x F). pose proof big_pos.
  destruct (Rlt_bool_spec (fval x) 0) as [S|S]; symmetry; [apply fl_low|apply fl_high]; split_Rabs; lra.
Qed.
Lemma mul_op : forall x y : A, fnan (x [*] y) /\ mul_bad x y \/ ~ fnan (x [*] y) /\ ~ mul_bad x y /\ ev (x [*] y) = fl (ev x * ev y).
Proof.
  intros x y. pose proof top_pos as Tp. pose proof top_big as TB. pose proof big_pos as BP.
  assert (BB : top <= big * big). { pose proof (far big). rewrite Rabs_right in H by lra. apply H. unfold big. apply bpow_le. lia. }
  destruct (not_fin_cases x) as [[Fx|[sx ->]]|Nx].
  - destruct (not_fin_cases y) as [[Fy|[sy ->]]|Ny].
    + right. destruct (mul_fin x y Fx Fy) as [H1 H2]. split; [exact H1|]. split; [|exact H2]. pose proof (fin_big x Fx). pose proof (fin_big y Fy).
      intros [B|[B|[[B1 B2]|[B1 B2]]]]; [destruct x; discriminate|destruct y; discriminate|lra|lra].
    + destruct (Req_dec (fval x) 0) as [Z|Z].
      * left. destruct (fin_nz x Fx Z) as [s ->]. split; [apply nan_Bmult; reflexivity|]. right. right. right. split; [reflexivity|]. destruct sy; rewrite ev_inf; split_Rabs; lra.
      * right. destruct (inf_mul x sy Fx Z) as [E _]. rewrite E. split; [discriminate|]. split.
        { pose proof (fin_big x Fx). intros [B|[B|[[B1 B2]|[B1 B2]]]]; [destruct x; discriminate|discriminate|lra|]. rewrite ev_fin in B1 by exact Fx. lra. }
        pose proof (ev_far x Fx Z) as V. rewrite !ev_inf. destruct sy.
        { rewrite xorb_true_r. replace (ev x * - big)%R with (- (ev x * big))%R by ring. rewrite fl_opp, <- V. destruct (Bsign 53 1024 x); cbn [negb]; lra. }
        { rewrite xorb_false_r. exact V. }
    + left. split; [apply nan_mul; right; exact Ny|right; left; exact Ny].
  - destruct (not_fin_cases y) as [[Fy|[sy ->]]|Ny].
    + destruct (Req_dec (fval y) 0) as [Z|Z].
      * left. destruct (fin_nz y Fy Z) as [s ->]. split; [apply nan_Bmult; reflexivity|]. right. right. left. split; [|reflexivity]. destruct sx; rewrite ev_inf; split_Rabs; lra.
      * right. destruct (inf_mul y sx Fy Z) as [_ E]. rewrite E. split; [discriminate|]. split.
        { pose proof (fin_big y Fy). intros [B|[B|[[B1 B2]|[B1 B2]]]]; [discriminate|destruct y; discriminate| |lra]. rewrite ev_fin in B2 by exact Fy. lra. }
        pose proof (ev_far y Fy Z) as V. rewrite !ev_inf. destruct sx.
        { rewrite xorb_true_l. replace (- big * ev y)%R with (- (ev y * big))%R by ring. rewrite fl_opp, <- V. destruct (Bsign 53 1024 y); cbn [negb]; lra. }
        { rewrite xorb_false_l, Rmult_comm. exact V. }
    + right. assert (E : (B754_infinity 53 1024 sx : A) [*] (B754_infinity 53 1024 sy : A) = B754_infinity 53 1024 (xorb sx sy)) by reflexivity. rewrite E. split; [discriminate|]. split.
      { intros [B|[B|[[B1 B2]|[B1 B2]]]]; try discriminate; rewrite ev_inf in *; [destruct sy|destruct sx]; lra. }
      rewrite !ev_inf. destruct sx, sy; cbn [xorb]; symmetry; first [apply fl_high | apply fl_low]; nra.
    + left. split; [apply nan_mul; right; exact Ny|right; left; exact Ny].
  - left. split; [apply nan_mul; left; exact Nx|left; exact Nx].
Qed.
Lemma div_op : forall x y : A, ffin y -> 0 < fval y -> fnan (x [/] y) /\ fnan x \/ ~ fnan (x [/] y) /\ ~ fnan x /\ ev (x [/] y) = fl (ev x / fval y).
Proof.
  intros x y Fy Py. pose proof top_pos as Tp. pose proof top_big as TB. pose proof big_pos as BP.
  destruct (not_fin_cases x) as [[Fx|[sx ->]]|Nx].
  - right. destruct (div_fin x y Fx Fy Py) as [H1 H2]. split; [exact H1|]. split; [destruct x; discriminate|exact H2].
  - right. assert (Sy := fin_sign y Fy ltac:(lra)). rewrite Rlt_bool_false in Sy by lra.
    assert (E : (B754_infinity 53 1024 sx : A) [/] y = B754_infinity 53 1024 sx).
    { destruct y as [s|s|s p H|s m e H]; try discriminate Fy; [unfold fval in Py; simpl in Py; lra|]. simpl in Sy. subst s. destruct sx; reflexivity. }
    rewrite E. split; [discriminate|]. split; [discriminate|]. rewrite !ev_inf. pose proof (fval_top y) as Hy. rewrite Rabs_right in Hy by lra.
    assert (Q : top <= big / fval y).
    { apply (Rmult_le_reg_r (fval y)); [exact Py|]. unfold Rdiv. rewrite Rmult_assoc, Rinv_l, Rmult_1_r by lra. apply Rle_trans with (top * top)%R; [apply Rmult_le_compat_l; lra|].
      unfold top, big. rewrite <- bpow_plus. apply bpow_le. lia. }
    destruct sx; symmetry; [apply fl_low|apply fl_high]; [|exact Q]. unfold Rdiv in *. rewrite Ropp_mult_distr_l_reverse. lra.
  - left. split; [apply nan_div; exact Nx|exact Nx].
Qed.

(** ** the two relations *)
Lemma nan_dec : forall x : f64, {fnan x} + {~ fnan x}.
Proof. intros x. unfold fnan. destruct (is_nan 53 1024 x); [left|right]; congruence. Qed.
Definition opp (x y : f64) : Prop := fnan x /\ fnan y \/ ~ fnan x /\ ~ fnan y /\ ev y = (- ev x)%R.
Definition le (x y : f64) : Prop := fnan x \/ fnan y \/ ev x <= ev y.
Lemma ev_case : forall x : f64, ~ fnan x -> ffin x /\ Rabs (ev x) < top \/ exists s, x = B754_infinity 53 1024 s.
Proof. intros x N. destruct (not_fin_cases x) as [[F|E]|H]; [left; split; [exact F|apply fin_big, F]|right; exact E|exfalso; exact (N H)]. Qed.
Lemma opp_iff : forall x y : f64, opposite x y <-> opp x y.
Proof.
  intros x y. pose proof top_pos as Tp. pose proof top_big as TB. pose proof big_pos as BP. split.
  - intros [H|[(s & -> & ->)|(Fx & Fy & E)]]; [left; exact H| |]; right.
    + split; [discriminate|]. split; [discriminate|]. rewrite !ev_inf. destruct s; cbn [negb]; lra.
    + split; [destruct x; discriminate|]. split; [destruct y; discriminate|]. rewrite !ev_fin by assumption. exact E.
  - intros [H|(Nx & Ny & E)]; [left; exact H|]. right.
    destruct (ev_case x Nx) as [[Fx Bx]|[sx ->]]; destruct (ev_case y Ny) as [[Fy By]|[sy ->]].
    + right. rewrite !ev_fin in E by assumption. exact (conj Fx (conj Fy E)).
    + exfalso. rewrite ev_inf in E. destruct sy; split_Rabs; lra.
    + exfalso. rewrite ev_inf in E. destruct sx; split_Rabs; lra.
    + left. exists sx. split; [reflexivity|]. rewrite !ev_inf in E. destruct sx, sy; try reflexivity; lra.
Qed.
Lemma le_iff : forall x y : A, not_above x y <-> le x y.
Proof.
  intros x y. pose proof top_pos as Tp. pose proof top_big as TB. pose proof big_pos as BP. unfold not_above, le.
  destruct (nan_dec x) as [Nx|Nx]. { split; [intros _; left; exact Nx|intros _]. destruct x; try discriminate Nx. destruct y; reflexivity. }
  destruct (nan_dec y) as [Ny|Ny]. { split; [intros _; right; left; exact Ny|intros _]. destruct y; try discriminate Ny. destruct x; reflexivity. }
  assert (G : nlt y x = false <-> ev x <= ev y).
  { destruct (ev_case x Nx) as [[Fx Bx]|[sx ->]]; destruct (ev_case y Ny) as [[Fy By]|[sy ->]].
    - pose proof (lt_finite be y x Fy Fx) as L. rewrite !ev_fin by assumption. destruct (nlt y x).
      + split; [discriminate|]. intros H. exfalso. apply (Rlt_irrefl (fval y)). eapply Rlt_le_trans; [apply (proj1 L); reflexivity|exact H].
      + split; [|reflexivity]. intros _. apply Rnot_lt_le. intros H. apply L in H. discriminate.
    - rewrite ev_inf. destruct sy.
      + split; intros H; [|split_Rabs; lra]. destruct x as [s|s|s p H'|s m e H']; try discriminate Fx; try destruct s; discriminate H.
      + split; intros H; [split_Rabs; lra|]. destruct x as [s|s|s p H'|s m e H']; try discriminate Fx; try destruct s; reflexivity.
    - rewrite ev_inf. destruct sx.
      + split; intros H; [split_Rabs; lra|]. destruct y as [s|s|s p H'|s m e H']; try discriminate Fy; try destruct s; reflexivity.
      + split; intros H; [|split_Rabs; lra]. destruct y as [s|s|s p H'|s m e H']; try discriminate Fy; try destruct s; discriminate H.
    - rewrite !ev_inf. destruct sx, sy; split; intros H; try reflexivity; try discriminate H; lra. }
  rewrite G. tauto.
Qed.
Lemma opp_add : forall x x' y y' : A, opp x x' -> opp y y' -> opp (x [+] y) (x' [+] y').
Proof.
  intros x x' y y' Hx Hy. destruct (add_op x y) as [[N B]|(N & B & E)]; destruct (add_op x' y') as [[N' B']|(N' & B' & E')].
  - left. split; assumption.
  - exfalso. apply B'. unfold add_bad in *. destruct Hx as [[X1 X2]|(X1 & X2 & X3)]; [left; exact X2|]. destruct Hy as [[Y1 Y2]|(Y1 & Y2 & Y3)]; [right; left; exact Y2|].
    rewrite X3, Y3. destruct B as [B|[B|[[B1 B2]|[B1 B2]]]]; [contradiction|contradiction| |]; rewrite B1, B2; [right; right; right|right; right; left]; split; lra.
  - exfalso. apply B. unfold add_bad in *. destruct Hx as [[X1 X2]|(X1 & X2 & X3)]; [left; exact X1|]. destruct Hy as [[Y1 Y2]|(Y1 & Y2 & Y3)]; [right; left; exact Y1|].
    rewrite X3, Y3 in B'. destruct B' as [B'|[B'|[[B1 B2]|[B1 B2]]]]; [contradiction|contradiction| |]; [right; right; right|right; right; left]; split; lra.
  - right. split; [exact N|]. split; [exact N'|]. rewrite E, E'. destruct Hx as [[X1 X2]|(X1 & X2 & X3)]; [exfalso; apply B; left; exact X1|].
    destruct Hy as [[Y1 Y2]|(Y1 & Y2 & Y3)]; [exfalso; apply B; right; left; exact Y1|]. rewrite X3, Y3, <- fl_opp. f_equal. ring.
Qed.
Lemma opp_mul_r : forall x x' w : A, opp x x' -> opp (x [*] w) (x' [*] w).
Proof.
  intros x x' w Hx. destruct (mul_op x w) as [[N B]|(N & B & E)]; destruct (mul_op x' w) as [[N' B']|(N' & B' & E')].
  - left. split; assumption.
  - exfalso. apply B'. unfold mul_bad in *. destruct Hx as [[X1 X2]|(X1 & X2 & X3)]; [left; exact X2|]. rewrite X3, Rabs_Ropp.
    destruct B as [B|[B|[[B1 B2]|[B1 B2]]]]; [contradiction|right; left; exact B|right; right; left; split; assumption|right; right; right; split; [lra|assumption]].
  - exfalso. apply B. unfold mul_bad in *. destruct Hx as [[X1 X2]|(X1 & X2 & X3)]; [left; exact X1|]. rewrite X3, Rabs_Ropp in B'.
    destruct B' as [B'|[B'|[[B1 B2]|[B1 B2]]]]; [contradiction|right; left; exact B'|right; right; left; split; assumption|right; right; right; split; [lra|assumption]].
  - right. split; [exact N|]. split; [exact N'|]. rewrite E, E'. destruct Hx as [[X1 X2]|(X1 & X2 & X3)]; [exfalso; apply B; left; exact X1|].
    rewrite X3, <- fl_opp. f_equal. ring.
Qed.
Lemma opp_mul_l : forall x x' w : A, opp x x' -> opp (w [*] x) (w [*] x').
Proof.
  intros x x' w Hx. destruct (mul_op w x) as [[N B]|(N & B & E)]; destruct (mul_op w x') as [[N' B']|(N' & B' & E')].
  - left. split; assumption.
  - exfalso. apply B'. unfold mul_bad in *. destruct Hx as [[X1 X2]|(X1 & X2 & X3)]; [right; left; exact X2|]. rewrite X3, Rabs_Ropp.
    destruct B as [B|[B|[[B1 B2]|[B1 B2]]]]; [left; exact B|contradiction|right; right; left; split; [assumption|lra]|right; right; right; split; assumption].
  - exfalso. apply B. unfold mul_bad in *. destruct Hx as [[X1 X2]|(X1 & X2 & X3)]; [right; left; exact X1|]. rewrite X3, Rabs_Ropp in B'.
    destruct B' as [B'|[B'|[[B1 B2]|[B1 B2]]]]; [left; exact B'|contradiction|right; right; left; split; [assumption|lra]|right; right; right; split; assumption].
  - right. split; [exact N|]. split; [exact N'|]. rewrite E, E'. destruct Hx as [[X1 X2]|(X1 & X2 & X3)]; [exfalso; apply B; right; left; exact X1|].
    rewrite X3, <- fl_opp. f_equal. ring.
Qed.
Lemma opp_div : forall x x' w : A, ffin w -> 0 < fval w -> opp x x' -> opp (x [/] w) (x' [/] w).
Proof.
  intros x x' w Fw Pw Hx. destruct (div_op x w Fw Pw) as [[N B]|(N & B & E)]; destruct (div_op x' w Fw Pw) as [[N' B']|(N' & B' & E')];
    destruct Hx as [[X1 X2]|(X1 & X2 & X3)]; try contradiction.
  - left. split; assumption.
  - right. split; [exact N|]. split; [exact N'|]. rewrite E, E', X3, <- fl_opp. f_equal. unfold Rdiv. ring.
Qed.
Lemma le_add : forall x x' y y' : A, le x x' -> le y y' -> le (x [+] y) (x' [+] y').
Proof.
  intros x x' y y' Hx Hy. destruct (add_op x y) as [[N B]|(N & B & E)]; [left; exact N|]. destruct (add_op x' y') as [[N' B']|(N' & B' & E')]; [right; left; exact N'|].
  right. right. rewrite E, E'. unfold add_bad in *. apply fl_mono. apply Rplus_le_compat.
  - destruct Hx as [H|[H|H]]; [exfalso; tauto|exfalso; tauto|exact H].
  - destruct Hy as [H|[H|H]]; [exfalso; tauto|exfalso; tauto|exact H].
Qed.
Lemma nn_ev : forall w : f64, nn w -> ~ fnan w -> 0 <= ev w.
Proof.
  intros w Hw N. pose proof big_pos. destruct (ev_case w N) as [[F _]|[s ->]]; [rewrite ev_fin by exact F; apply nn_val; assumption|]. simpl in Hw. subst s. rewrite ev_inf. lra.
Qed.
Lemma le_mul_r : forall x x' w : A, nn w -> le x x' -> le (x [*] w) (x' [*] w).
Proof.
  intros x x' w Hw Hx. destruct (mul_op x w) as [[N B]|(N & B & E)]; [left; exact N|]. destruct (mul_op x' w) as [[N' B']|(N' & B' & E')]; [right; left; exact N'|].
  right. right. rewrite E, E'. unfold mul_bad in *. apply fl_mono. apply Rmult_le_compat_r; [apply nn_ev; [exact Hw|tauto]|].
  destruct Hx as [H|[H|H]]; [exfalso; tauto|exfalso; tauto|exact H].
Qed.
Lemma le_mul_l : forall x x' w : A, nn w -> le x x' -> le (w [*] x) (w [*] x').
Proof.
  intros x x' w Hw Hx. destruct (mul_op w x) as [[N B]|(N & B & E)]; [left; exact N|]. destruct (mul_op w x') as [[N' B']|(N' & B' & E')]; [right; left; exact N'|].
  right. right. rewrite E, E'. unfold mul_bad in *. apply fl_mono. apply Rmult_le_compat_l; [apply nn_ev; [exact Hw|tauto]|].
  destruct Hx as [H|[H|H]]; [exfalso; tauto|exfalso; tauto|exact H].
Qed.
Lemma le_div : forall x x' w : A, ffin w -> 0 < fval w -> le x x' -> le (x [/] w) (x' [/] w).
Proof.
  intros x x' w Fw Pw Hx. destruct (div_op x w Fw Pw) as [[N B]|(N & B & E)]; [left; exact N|]. destruct (div_op x' w Fw Pw) as [[N' B']|(N' & B' & E')]; [right; left; exact N'|].
  right. right. rewrite E, E'. apply fl_mono. assert (IP := Rinv_0_lt_compat _ Pw). unfold Rdiv. apply Rmult_le_compat_r; [lra|].
  destruct Hx as [H|[H|H]]; [exfalso; tauto|exfalso; tauto|exact H].
Qed.
End Ops.
