(** Taylor models in two variables x, y of the unit interval: polynomials with integer coefficients (scaled
    by 2^80) and a bound of the distance, computed by the kernel. *)
From Coq Require Import Reals ZArith List Lra Lia Psatz.
Import ListNotations.
Local Open Scope R_scope.

Fixpoint ev1 (l : list Z) (x : R) : R := match l with [] => 0 | c :: l => IZR c + x * ev1 l x end.
Fixpoint add1 (a b : list Z) : list Z := match a, b with [], _ => b | _, [] => a | c :: a, d :: b => (c + d)%Z :: add1 a b end.
Definition scal1 (k : Z) (l : list Z) : list Z := map (fun c => (k * c)%Z) l.
Fixpoint mul1 (a b : list Z) : list Z := match a with [] => [] | c :: a => add1 (scal1 c b) (0%Z :: mul1 a b) end.
Fixpoint abs1 (l : list Z) : Z := match l with [] => 0%Z | c :: l => (Z.abs c + abs1 l)%Z end.
Fixpoint ev2 (l : list (list Z)) (x y : R) : R := match l with [] => 0 | p :: l => ev1 p x + y * ev2 l x y end.
Fixpoint add2 (a b : list (list Z)) : list (list Z) := match a, b with [], _ => b | _, [] => a | c :: a, d :: b => add1 c d :: add2 a b end.
Definition scal2 (k : Z) (l : list (list Z)) : list (list Z) := map (scal1 k) l.
Fixpoint mul2 (a b : list (list Z)) : list (list Z) := match a with [] => [] | c :: a => add2 (map (mul1 c) b) ([] :: mul2 a b) end.
Fixpoint abs2 (l : list (list Z)) : Z := match l with [] => 0%Z | c :: l => (abs1 c + abs2 l)%Z end.
Definition SB : Z := 80.
Definition SC : Z := (2 ^ SB)%Z.
Definition DX : nat := 26. Definition DH : nat := 4.
Definition shr (c : Z) : Z := Z.shiftr c SB.
Fixpoint len2 (l : list (list Z)) : Z := match l with [] => 0%Z | c :: l => (Z.of_nat (length c) + len2 l)%Z end.
(** shift down and cut *)
Definition cut (l : list (list Z)) : list (list Z) := map (fun r => map shr (firstn DX r)) (firstn DH l).
Definition cut_err (l : list (list Z)) : Z :=
  (shr (abs2 (skipn DH l) + abs2 (map (skipn DX) (firstn DH l))) + 1 + len2 (cut l))%Z.

Lemma SC_pos : 0 < IZR SC. Proof. apply IZR_lt. reflexivity. Qed.
Lemma shr_err : forall c, 0 <= IZR c / IZR SC - IZR (shr c) < 1.
Proof.
  intros c. unfold shr. rewrite Z.shiftr_div_pow2 by (unfold SB; lia). fold SC. pose proof SC_pos as P. assert (Q : (0 < SC)%Z) by reflexivity.
  pose proof (Z.div_mod c SC ltac:(lia)) as E. pose proof (Z.mod_pos_bound c SC Q) as [M1 M2]. apply IZR_le in M1. apply IZR_lt in M2.
  assert (E' : IZR c = IZR SC * IZR (c / SC) + IZR (c mod SC)) by (rewrite <- mult_IZR, <- plus_IZR; f_equal; exact E).
  replace (IZR c / IZR SC - IZR (c / SC)) with (IZR (c mod SC) / IZR SC) by (rewrite E'; field; lra).
  split; [apply Rmult_le_pos; [lra|left; apply Rinv_0_lt_compat; lra]|]. apply Rmult_lt_reg_r with (IZR SC); [lra|]. unfold Rdiv. rewrite Rmult_assoc, Rinv_l by lra. lra.
Qed.

Lemma abs_both : forall a b, Rabs a <= b -> - b <= a <= b. Proof. intros a b H. pose proof (Rle_abs a). pose proof (Rle_abs (- a)) as K. rewrite Rabs_Ropp in K. lra. Qed.
Section P.
Variables x y : R.
Hypothesis Hx : 0 <= x <= 1. Hypothesis Hy : 0 <= y <= 1.
Lemma ev1_add : forall a b, ev1 (add1 a b) x = ev1 a x + ev1 b x.
Proof. induction a as [|c a IH]; intros [|d b]; cbn [add1 ev1]; try ring. rewrite plus_IZR, IH. ring. Qed.
Lemma ev1_scal : forall k a, ev1 (scal1 k a) x = IZR k * ev1 a x.
Proof. induction a as [|c a IH]; [cbn; ring|]. cbn [scal1 map ev1]. fold (scal1 k a). rewrite IH, mult_IZR. ring. Qed.
Lemma ev1_mul : forall a b, ev1 (mul1 a b) x = ev1 a x * ev1 b x.
Proof. induction a as [|c a IH]; intros b; cbn [mul1 ev1]; [ring|]. rewrite ev1_add, ev1_scal. cbn [ev1]. rewrite IH. ring. Qed.
Lemma ev1_abs : forall a, Rabs (ev1 a x) <= IZR (abs1 a).
Proof.
  induction a as [|c a IH]; cbn [ev1 abs1]; [rewrite Rabs_R0; lra|]. rewrite plus_IZR, abs_IZR. eapply Rle_trans; [apply Rabs_triang|]. apply Rplus_le_compat_l.
  rewrite Rabs_mult, (Rabs_pos_eq x) by lra. pose proof (Rabs_pos (ev1 a x)). nra.
Qed.
Lemma ev2_add : forall a b, ev2 (add2 a b) x y = ev2 a x y + ev2 b x y.
Proof. induction a as [|c a IH]; intros [|d b]; cbn [add2 ev2]; try ring. rewrite ev1_add, IH. ring. Qed.
Lemma ev2_scal : forall k a, ev2 (scal2 k a) x y = IZR k * ev2 a x y.
Proof. induction a as [|c a IH]; [cbn; ring|]. cbn [scal2 map ev2]. fold (scal2 k a). rewrite IH, ev1_scal. ring. Qed.
Lemma ev2_mulrow : forall c b, ev2 (map (mul1 c) b) x y = ev1 c x * ev2 b x y.
Proof. induction b as [|d b IH]; cbn [map ev2]; [ring|]. rewrite IH, ev1_mul. ring. Qed.
Lemma ev2_mul : forall a b, ev2 (mul2 a b) x y = ev2 a x y * ev2 b x y.
Proof. induction a as [|c a IH]; intros b; cbn [mul2 ev2]; [ring|]. rewrite ev2_add, ev2_mulrow. cbn [ev2 ev1]. rewrite IH. ring. Qed.
Lemma ev2_abs : forall a, Rabs (ev2 a x y) <= IZR (abs2 a).
Proof.
  induction a as [|c a IH]; cbn [ev2 abs2]; [rewrite Rabs_R0; lra|]. rewrite plus_IZR. eapply Rle_trans; [apply Rabs_triang|]. apply Rplus_le_compat; [apply ev1_abs|].
  rewrite Rabs_mult, (Rabs_pos_eq y) by lra. pose proof (Rabs_pos (ev2 a x y)). nra.
Qed.
Lemma ev1_split : forall d a, Rabs (ev1 a x - ev1 (firstn d a) x) <= IZR (abs1 (skipn d a)).
Proof.
  induction d as [|d IH]; intros a; [cbn [firstn skipn ev1]; rewrite Rminus_0_r; apply ev1_abs|].
  destruct a as [|c a]; cbn [firstn skipn ev1 abs1]; [rewrite Rminus_0_r, Rabs_R0; lra|].
  replace (IZR c + x * ev1 a x - (IZR c + x * ev1 (firstn d a) x)) with (x * (ev1 a x - ev1 (firstn d a) x)) by ring.
  rewrite Rabs_mult, (Rabs_pos_eq x) by lra. specialize (IH a). pose proof (Rabs_pos (ev1 a x - ev1 (firstn d a) x)). nra.
Qed.
Lemma ev1_shr : forall a, Rabs (ev1 a x / IZR SC - ev1 (map shr a) x) <= INR (length a).
Proof.
  induction a as [|c a IH]; [cbn [map ev1 length]; unfold Rdiv; rewrite Rmult_0_l, Rminus_0_r, Rabs_R0; simpl; lra|].
  cbn [map ev1 length]. rewrite S_INR. pose proof SC_pos as P. replace ((IZR c + x * ev1 a x) / IZR SC - (IZR (shr c) + x * ev1 (map shr a) x)) with ((IZR c / IZR SC - IZR (shr c)) + x * (ev1 a x / IZR SC - ev1 (map shr a) x)) by (field; lra).
  eapply Rle_trans; [apply Rabs_triang|]. rewrite Rplus_comm. pose proof (shr_err c) as E. apply Rplus_le_compat; [|rewrite Rabs_pos_eq; lra].
  rewrite Rabs_mult, (Rabs_pos_eq x) by lra. pose proof (Rabs_pos (ev1 a x / IZR SC - ev1 (map shr a) x)). nra.
Qed.
Lemma len1 : forall r, Z.of_nat (length (map shr (firstn DX r))) = Z.of_nat (length (firstn DX r)). Proof. intros r. rewrite map_length. reflexivity. Qed.
Lemma rows_err : forall a, Rabs (ev2 a x y / IZR SC - ev2 (map (fun r => map shr (firstn DX r)) a) x y) <=
  IZR (abs2 (map (skipn DX) a)) / IZR SC + IZR (len2 (map (fun r => map shr (firstn DX r)) a)).
Proof.
  pose proof SC_pos as P. induction a as [|r a IH]; [cbn [map ev2 abs2 len2]; unfold Rdiv; rewrite !Rmult_0_l, Rminus_0_r, Rabs_R0; lra|].
  cbn [map ev2 abs2 len2]. rewrite !plus_IZR, <- INR_IZR_INZ, map_length.
  set (r' := map shr (firstn DX r)). set (a' := map _ a) in *. set (B := abs2 (map (skipn DX) a)) in *.
  replace ((ev1 r x + y * ev2 a x y) / IZR SC - (ev1 r' x + y * ev2 a' x y)) with ((ev1 r x - ev1 (firstn DX r) x) / IZR SC + (ev1 (firstn DX r) x / IZR SC - ev1 r' x) + y * (ev2 a x y / IZR SC - ev2 a' x y)) by (field; lra).
  eapply Rle_trans; [apply Rabs_triang|]. eapply Rle_trans; [apply Rplus_le_compat_r; apply Rabs_triang|].
  assert (E1 : Rabs ((ev1 r x - ev1 (firstn DX r) x) / IZR SC) <= IZR (abs1 (skipn DX r)) / IZR SC).
  { unfold Rdiv. rewrite Rabs_mult, (Rabs_pos_eq (/ IZR SC)) by (left; apply Rinv_0_lt_compat; lra). apply Rmult_le_compat_r; [left; apply Rinv_0_lt_compat; lra|apply ev1_split]. }
  pose proof (ev1_shr (firstn DX r)) as E2. fold r' in E2.
  assert (E3 : Rabs (y * (ev2 a x y / IZR SC - ev2 a' x y)) <= IZR B / IZR SC + IZR (len2 a')).
  { rewrite Rabs_mult, (Rabs_pos_eq y) by lra. pose proof (Rabs_pos (ev2 a x y / IZR SC - ev2 a' x y)). nra. }
  unfold Rdiv in *. lra.
Qed.
Lemma ev2_split : forall d a, Rabs (ev2 a x y - ev2 (firstn d a) x y) <= IZR (abs2 (skipn d a)).
Proof.
  induction d as [|d IH]; intros a; [cbn [firstn skipn ev2]; rewrite Rminus_0_r; apply ev2_abs|].
  destruct a as [|c a]; cbn [firstn skipn ev2 abs2]; [rewrite Rminus_0_r, Rabs_R0; lra|].
  replace (ev1 c x + y * ev2 a x y - (ev1 c x + y * ev2 (firstn d a) x y)) with (y * (ev2 a x y - ev2 (firstn d a) x y)) by ring.
  rewrite Rabs_mult, (Rabs_pos_eq y) by lra. specialize (IH a). pose proof (Rabs_pos (ev2 a x y - ev2 (firstn d a) x y)). nra.
Qed.
Lemma cut_ok : forall a, Rabs (ev2 a x y / IZR SC - ev2 (cut a) x y) <= IZR (cut_err a).
Proof.
  intros a. unfold cut_err. rewrite !plus_IZR. pose proof SC_pos as P. pose proof (rows_err (firstn DH a)) as E1. fold (cut a) in E1. pose proof (ev2_split DH a) as E2.
  pose proof (shr_err (abs2 (skipn DH a) + abs2 (map (skipn DX) (firstn DH a)))) as E3. rewrite plus_IZR in E3.
  assert (E4 : Rabs ((ev2 a x y - ev2 (firstn DH a) x y) / IZR SC) <= IZR (abs2 (skipn DH a)) / IZR SC).
  { unfold Rdiv. rewrite Rabs_mult, (Rabs_pos_eq (/ IZR SC)) by (left; apply Rinv_0_lt_compat; lra). apply Rmult_le_compat_r; [left; apply Rinv_0_lt_compat; lra|exact E2]. }
  replace (ev2 a x y / IZR SC - ev2 (cut a) x y) with ((ev2 a x y - ev2 (firstn DH a) x y) / IZR SC + (ev2 (firstn DH a) x y / IZR SC - ev2 (cut a) x y)) by (field; lra).
  eapply Rle_trans; [apply Rabs_triang|]. unfold Rdiv in *. lra.
Qed.
End P.

(** Models *)
Record tm := { poly : list (list Z); rem : Z; valid : bool }.
Definition tm_is (x y : R) (t : tm) (f : R) : Prop := valid t = true -> Rabs (f * IZR SC - ev2 (poly t) x y) <= IZR (rem t).
Definition tm_exact (p : list (list Z)) : tm := {| poly := p; rem := 0; valid := true |}.
Definition tm_add (t u : tm) : tm := {| poly := add2 (poly t) (poly u); rem := rem t + rem u; valid := valid t && valid u |}.
Definition tm_opp (t : tm) : tm := {| poly := scal2 (-1) (poly t); rem := rem t; valid := valid t |}.
Definition tm_sub (t u : tm) : tm := tm_add t (tm_opp u).
Definition tm_mul (t u : tm) : tm :=
  let r := mul2 (poly t) (poly u) in
  {| poly := cut r; rem := cut_err r + shr (abs2 (poly t) * rem u + abs2 (poly u) * rem t + rem t * rem u) + 1; valid := valid t && valid u |}.
(** times a / b *)
Definition tm_scal (a b : Z) (t : tm) : tm :=
  {| poly := map (map (fun c => (c * a / b)%Z)) (poly t); rem := len2 (poly t) + Z.abs a * rem t / b + 1; valid := valid t && (0 <? b)%Z |}.
Definition tm_cst (a b : Z) : tm := {| poly := [[(a * SC / b)%Z]]; rem := 1; valid := (0 <? b)%Z |}.
Definition tm_x : tm := tm_exact [[0%Z; SC]].
Definition tm_y : tm := tm_exact [[]; [SC]].
Definition tm_one : tm := tm_exact [[SC]].
Definition bound (t : tm) : Z := (abs2 (poly t) + rem t)%Z.
Fixpoint newton (k : nat) (t g : tm) : tm := match k with O => g | S k => let g' := tm_mul g (tm_sub (tm_scal 2 1 tm_one) (tm_mul t g)) in newton k t (tm_exact (poly g')) end.
Definition inverse (k : nat) (t : tm) : list (list Z) := poly (newton k t tm_one).
(** from an approximation g of the inverse *)
Definition tm_inv (g : list (list Z)) (t : tm) : tm :=
  let e := bound (tm_sub (tm_mul t (tm_exact g)) tm_one) in
  {| poly := g; rem := shr (2 * abs2 g * e) + 1; valid := valid t && (2 * e <=? SC)%Z |}.
(** polynomial with rational coefficients (num, den), Horner *)
Fixpoint tm_horner (l : list (Z * Z)) (t : tm) : tm := match l with [] => tm_exact [] | (a, b) :: l => tm_add (tm_cst a b) (tm_mul t (tm_horner l t)) end.
Fixpoint horner (l : list (Z * Z)) (x : R) : R := match l with [] => 0 | (a, b) :: l => IZR a / IZR b + x * horner l x end.

Lemma and_split : forall a b, (a && b)%bool = true -> a = true /\ b = true. Proof. intros [] []; intuition discriminate. Qed.
Lemma zdiv_err : forall a b, (0 < b)%Z -> 0 <= IZR a / IZR b - IZR (a / b) < 1.
Proof.
  intros a b Q. assert (P : 0 < IZR b) by (apply IZR_lt; exact Q). pose proof (Z.div_mod a b ltac:(lia)) as E. pose proof (Z.mod_pos_bound a b Q) as [M1 M2]. apply IZR_le in M1. apply IZR_lt in M2.
  assert (E' : IZR a = IZR b * IZR (a / b) + IZR (a mod b)) by (rewrite <- mult_IZR, <- plus_IZR; f_equal; exact E).
  replace (IZR a / IZR b - IZR (a / b)) with (IZR (a mod b) / IZR b) by (rewrite E'; field; lra).
  split; [apply Rmult_le_pos; [lra|left; apply Rinv_0_lt_compat; lra]|]. apply Rmult_lt_reg_r with (IZR b); [lra|]. unfold Rdiv. rewrite Rmult_assoc, Rinv_l by lra. lra.
Qed.
Set Default Proof Using "All".
Section M.
Variables x y : R.
Hypothesis Hx : 0 <= x <= 1. Hypothesis Hy : 0 <= y <= 1.
Notation is := (tm_is x y).
Lemma is_exact : forall p f, f * IZR SC = ev2 p x y -> is (tm_exact p) f.
Proof. intros p f E _. cbn [poly rem tm_exact]. rewrite E. unfold Rminus. rewrite Rplus_opp_r, Rabs_R0. lra. Qed.
Lemma is_add : forall t u f g, is t f -> is u g -> is (tm_add t u) (f + g).
Proof.
  intros t u f g T U V. apply and_split in V. destruct V as [V1 V2]. specialize (T V1). specialize (U V2). cbn [poly rem tm_add]. rewrite ev2_add, plus_IZR.
  replace ((f + g) * IZR SC - (ev2 (poly t) x y + ev2 (poly u) x y)) with ((f * IZR SC - ev2 (poly t) x y) + (g * IZR SC - ev2 (poly u) x y)) by ring.
  eapply Rle_trans; [apply Rabs_triang|]. lra.
Qed.
Lemma is_opp : forall t f, is t f -> is (tm_opp t) (- f).
Proof.
  intros t f T V. specialize (T V). cbn [poly rem tm_opp]. rewrite ev2_scal. replace (- f * IZR SC - IZR (-1) * ev2 (poly t) x y) with (- (f * IZR SC - ev2 (poly t) x y)) by ring. rewrite Rabs_Ropp. exact T.
Qed.
Lemma is_sub : forall t u f g, is t f -> is u g -> is (tm_sub t u) (f - g).
Proof. intros t u f g T U. unfold Rminus. apply is_add; [exact T|apply is_opp; exact U]. Qed.
Lemma is_ext : forall t f g, is t f -> f = g -> is t g. Proof. intros t f g T E. rewrite <- E. exact T. Qed.
Lemma rem_nn : forall t f, is t f -> valid t = true -> 0 <= IZR (rem t).
Proof. intros t f T V. eapply Rle_trans; [apply Rabs_pos|apply (T V)]. Qed.
Lemma is_mul : forall t u f g, is t f -> is u g -> is (tm_mul t u) (f * g).
Proof.
  intros t u f g T U V. apply and_split in V. destruct V as [V1 V2]. pose proof (rem_nn t f T V1) as N1. pose proof (rem_nn u g U V2) as N2. specialize (T V1). specialize (U V2).
  cbn [poly rem tm_mul]. rewrite !plus_IZR. pose proof SC_pos as P. pose proof (cut_ok x y Hx Hy (mul2 (poly t) (poly u))) as C. rewrite ev2_mul in C.
  pose proof (shr_err (abs2 (poly t) * rem u + abs2 (poly u) * rem t + rem t * rem u)) as E. rewrite !plus_IZR, !mult_IZR in E.
  pose proof (ev2_abs x y Hx Hy (poly t)) as B1. pose proof (ev2_abs x y Hx Hy (poly u)) as B2. set (p := ev2 (poly t) x y) in *. set (q := ev2 (poly u) x y) in *.
  assert (D : Rabs (f * IZR SC * (g * IZR SC) - p * q) <= IZR (abs2 (poly t)) * IZR (rem u) + IZR (abs2 (poly u)) * IZR (rem t) + IZR (rem t) * IZR (rem u)).
  { replace (f * IZR SC * (g * IZR SC) - p * q) with (p * (g * IZR SC - q) + q * (f * IZR SC - p) + (f * IZR SC - p) * (g * IZR SC - q)) by ring.
    eapply Rle_trans; [apply Rabs_triang|]. eapply Rle_trans; [apply Rplus_le_compat_r; apply Rabs_triang|]. rewrite !Rabs_mult.
    pose proof (Rabs_pos p). pose proof (Rabs_pos q). pose proof (Rabs_pos (f * IZR SC - p)). pose proof (Rabs_pos (g * IZR SC - q)).
    assert (Rabs p * Rabs (g * IZR SC - q) <= IZR (abs2 (poly t)) * IZR (rem u)) by (apply Rmult_le_compat; assumption).
    assert (Rabs q * Rabs (f * IZR SC - p) <= IZR (abs2 (poly u)) * IZR (rem t)) by (apply Rmult_le_compat; assumption).
    assert (Rabs (f * IZR SC - p) * Rabs (g * IZR SC - q) <= IZR (rem t) * IZR (rem u)) by (apply Rmult_le_compat; assumption). lra. }
  set (X := IZR (abs2 (poly t)) * IZR (rem u) + IZR (abs2 (poly u)) * IZR (rem t) + IZR (rem t) * IZR (rem u)) in *.
  replace (f * g * IZR SC - ev2 (cut (mul2 (poly t) (poly u))) x y) with ((f * IZR SC * (g * IZR SC) - p * q) / IZR SC + (p * q / IZR SC - ev2 (cut (mul2 (poly t) (poly u))) x y)) by (field; lra).
  eapply Rle_trans; [apply Rabs_triang|]. unfold Rdiv at 1. rewrite Rabs_mult, (Rabs_pos_eq (/ IZR SC)) by (left; apply Rinv_0_lt_compat; lra).
  assert (Rabs (f * IZR SC * (g * IZR SC) - p * q) * / IZR SC <= X * / IZR SC) by (apply Rmult_le_compat_r; [left; apply Rinv_0_lt_compat; lra|exact D]).
  unfold Rdiv in E. lra.
Qed.
Lemma row_scal : forall a b l, (0 < b)%Z -> Rabs (ev1 l x * (IZR a / IZR b) - ev1 (map (fun c => (c * a / b)%Z) l) x) <= INR (length l).
Proof.
  intros a b l Q. assert (P : 0 < IZR b) by (apply IZR_lt; exact Q). induction l as [|c l IH]; [cbn [map ev1 length]; rewrite Rmult_0_l, Rminus_0_r, Rabs_R0; simpl; lra|].
  cbn [map ev1 length]. rewrite S_INR. pose proof (zdiv_err (c * a) b Q) as E. rewrite mult_IZR in E.
  replace ((IZR c + x * ev1 l x) * (IZR a / IZR b) - (IZR (c * a / b) + x * ev1 (map (fun c0 => (c0 * a / b)%Z) l) x)) with ((IZR c * IZR a / IZR b - IZR (c * a / b)) + x * (ev1 l x * (IZR a / IZR b) - ev1 (map (fun c0 => (c0 * a / b)%Z) l) x)) by (field; lra).
  eapply Rle_trans; [apply Rabs_triang|]. rewrite Rplus_comm. apply Rplus_le_compat; [|rewrite Rabs_pos_eq; lra].
  rewrite Rabs_mult, (Rabs_pos_eq x) by lra. pose proof (Rabs_pos (ev1 l x * (IZR a / IZR b) - ev1 (map (fun c0 => (c0 * a / b)%Z) l) x)). nra.
Qed.
Lemma rows_scal : forall a b l, (0 < b)%Z -> Rabs (ev2 l x y * (IZR a / IZR b) - ev2 (map (map (fun c => (c * a / b)%Z)) l) x y) <= IZR (len2 l).
Proof.
  intros a b l Q. induction l as [|r l IH]; [cbn [map ev2 len2]; rewrite Rmult_0_l, Rminus_0_r, Rabs_R0; lra|]. cbn [map ev2 len2]. rewrite plus_IZR, <- INR_IZR_INZ.
  pose proof (row_scal a b r Q) as E. set (r' := map _ r) in *. set (l' := map _ l) in *.
  replace ((ev1 r x + y * ev2 l x y) * (IZR a / IZR b) - (ev1 r' x + y * ev2 l' x y)) with ((ev1 r x * (IZR a / IZR b) - ev1 r' x) + y * (ev2 l x y * (IZR a / IZR b) - ev2 l' x y)) by ring.
  eapply Rle_trans; [apply Rabs_triang|]. apply Rplus_le_compat; [exact E|]. rewrite Rabs_mult, (Rabs_pos_eq y) by lra. pose proof (Rabs_pos (ev2 l x y * (IZR a / IZR b) - ev2 l' x y)). nra.
Qed.
Lemma is_scal : forall a b t f, is t f -> is (tm_scal a b t) (f * (IZR a / IZR b)).
Proof.
  intros a b t f T V. apply and_split in V. destruct V as [V1 V2]. apply Z.ltb_lt in V2. pose proof (rem_nn t f T V1) as N. specialize (T V1). cbn [poly rem tm_scal]. rewrite !plus_IZR.
  pose proof (rows_scal a b (poly t) V2) as R. pose proof (zdiv_err (Z.abs a * rem t) b V2) as E. rewrite mult_IZR, abs_IZR in E. assert (P : 0 < IZR b) by (apply IZR_lt; exact V2).
  replace (f * (IZR a / IZR b) * IZR SC - ev2 (map (map (fun c => (c * a / b)%Z)) (poly t)) x y) with ((f * IZR SC - ev2 (poly t) x y) * (IZR a / IZR b) + (ev2 (poly t) x y * (IZR a / IZR b) - ev2 (map (map (fun c => (c * a / b)%Z)) (poly t)) x y)) by ring.
  eapply Rle_trans; [apply Rabs_triang|]. rewrite Rabs_mult. unfold Rdiv at 1. rewrite Rabs_mult, (Rabs_pos_eq (/ IZR b)) by (left; apply Rinv_0_lt_compat; lra).
  assert (Rabs (f * IZR SC - ev2 (poly t) x y) * (Rabs (IZR a) * / IZR b) <= IZR (rem t) * (Rabs (IZR a) * / IZR b)) by (apply Rmult_le_compat_r; [apply Rmult_le_pos; [apply Rabs_pos|left; apply Rinv_0_lt_compat; lra]|exact T]).
  unfold Rdiv in E. nra.
Qed.
Lemma is_cst : forall a b, is (tm_cst a b) (IZR a / IZR b).
Proof.
  intros a b V. apply Z.ltb_lt in V. cbn [poly rem tm_cst ev2 ev1]. pose proof (zdiv_err (a * SC) b V) as E. rewrite mult_IZR in E. assert (P : 0 < IZR b) by (apply IZR_lt; exact V).
  replace (IZR a / IZR b * IZR SC - (IZR (a * SC / b) + x * 0 + y * 0)) with (IZR a * IZR SC / IZR b - IZR (a * SC / b)) by (field; lra). rewrite Rabs_pos_eq; lra.
Qed.
Lemma is_x : is tm_x x. Proof. apply is_exact. cbn [ev2 ev1]. ring. Qed.
Lemma is_y : is tm_y y. Proof. apply is_exact. cbn [ev2 ev1]. ring. Qed.
Lemma is_one : is tm_one 1. Proof. apply is_exact. cbn [ev2 ev1]. ring. Qed.
Lemma is_bound : forall t f, is t f -> valid t = true -> Rabs f <= IZR (bound t) / IZR SC.
Proof.
  intros t f T V. specialize (T V). pose proof (ev2_abs x y Hx Hy (poly t)) as B. unfold bound. rewrite plus_IZR. pose proof SC_pos as P.
  apply Rmult_le_reg_r with (IZR SC); [lra|]. unfold Rdiv. rewrite Rmult_assoc, Rinv_l, Rmult_1_r by lra. rewrite <- (Rabs_pos_eq (IZR SC)) at 1 by lra. rewrite <- Rabs_mult.
  replace (f * IZR SC) with ((f * IZR SC - ev2 (poly t) x y) + ev2 (poly t) x y) by ring. eapply Rle_trans; [apply Rabs_triang|]. lra.
Qed.
Lemma is_inv : forall g t f, is t f -> is (tm_inv g t) (/ f).
Proof.
  intros g0 t f T V. unfold tm_inv in V |- *. cbn [valid poly rem] in *. set (g := tm_exact g0) in *. change g0 with (poly g). set (e := bound (tm_sub (tm_mul t g) tm_one)) in *.
  apply and_split in V. destruct V as [V1 V3]. apply Z.leb_le in V3. apply IZR_le in V3. rewrite mult_IZR in V3. pose proof SC_pos as P.
  set (G := ev2 (poly g) x y / IZR SC).
  assert (HG : is g G) by (apply is_exact; unfold G; cbn [poly g tm_exact]; field; lra).
  pose proof (is_sub _ _ _ _ (is_mul _ _ _ _ T HG) is_one) as S. assert (VS : valid (tm_sub (tm_mul t g) tm_one) = true) by (cbn [valid tm_sub tm_add tm_opp tm_mul tm_one tm_exact g]; rewrite V1; reflexivity).
  pose proof (is_bound _ _ S VS) as B. fold e in B. set (d := IZR e / IZR SC) in *. assert (D : d <= / 2). { unfold d. apply Rmult_le_reg_r with (IZR SC); [lra|]. unfold Rdiv. rewrite Rmult_assoc, Rinv_l by lra. lra. }
  apply abs_both in B. assert (F0 : f <> 0) by (intros Z0; rewrite Z0 in B; lra).
  pose proof (ev2_abs x y Hx Hy (poly g)) as A. rewrite !plus_IZR. pose proof (shr_err (2 * abs2 (poly g) * e)) as E. rewrite !mult_IZR in E.
  replace (/ f * IZR SC - ev2 (poly g) x y) with ((1 - f * G) / (f * G) * G * IZR SC).
  2: { unfold G. assert (ev2 (poly g) x y <> 0) by (intros Z0; unfold G in B; rewrite Z0 in B; unfold Rdiv in B; rewrite Rmult_0_l, Rmult_0_r in B; lra). field. repeat split; lra. }
  replace (G * IZR SC) with (ev2 (poly g) x y) by (unfold G; field; lra). rewrite Rmult_assoc. replace (G * IZR SC) with (ev2 (poly g) x y) by (unfold G; field; lra).
  rewrite Rabs_mult. assert (X : Rabs ((1 - f * G) / (f * G)) <= 2 * d).
  { unfold Rdiv. rewrite Rabs_mult, Rabs_inv. apply Rmult_le_reg_r with (Rabs (f * G)); [apply Rabs_pos_lt; lra|]. rewrite Rmult_assoc, Rinv_l, Rmult_1_r by (apply Rabs_no_R0; lra). rewrite (Rabs_pos_eq (f * G)) by lra. apply Rabs_le. nra. }
  assert (Rabs ((1 - f * G) / (f * G)) * Rabs (ev2 (poly g) x y) <= 2 * d * IZR (abs2 (poly g))) by (apply Rmult_le_compat; [apply Rabs_pos|apply Rabs_pos|exact X|exact A]).
  replace (2 * d * IZR (abs2 (poly g))) with (2 * IZR (abs2 (poly g)) * IZR e / IZR SC) in H by (unfold d; field; lra). lra.
Qed.
Lemma is_horner : forall l t f, is t f -> is (tm_horner l t) (horner l f).
Proof.
  induction l as [|[a b] l IH]; intros t f T; cbn [tm_horner horner]; [apply is_exact; cbn [ev2]; ring|]. apply is_add; [apply is_cst|apply is_mul; [exact T|apply IH; exact T]].
Qed.
(** with a known error of at most a / b *)
Definition tm_widen (a b : Z) (t : tm) : tm := {| poly := poly t; rem := rem t + a * SC / b + 1; valid := valid t && (0 <? b)%Z |}.
Lemma is_widen : forall a b t f g, is t f -> Rabs (g - f) <= IZR a / IZR b -> is (tm_widen a b t) g.
Proof.
  intros a b t f g T E V. apply and_split in V. destruct V as [V1 V2]. apply Z.ltb_lt in V2. specialize (T V1). cbn [poly rem tm_widen]. rewrite !plus_IZR. pose proof (zdiv_err (a * SC) b V2) as Z1. rewrite mult_IZR in Z1.
  assert (P : 0 < IZR b) by (apply IZR_lt; exact V2). pose proof SC_pos as PS. replace (g * IZR SC - ev2 (poly t) x y) with ((g - f) * IZR SC + (f * IZR SC - ev2 (poly t) x y)) by ring. eapply Rle_trans; [apply Rabs_triang|].
  rewrite Rabs_mult, (Rabs_pos_eq (IZR SC)) by lra. assert (Rabs (g - f) * IZR SC <= IZR a / IZR b * IZR SC) by (apply Rmult_le_compat_r; lra). replace (IZR a / IZR b * IZR SC) with (IZR a * IZR SC / IZR b) in H by (field; lra). lra.
Qed.
End M.
Unset Default Proof Using.

(** The same model on the part (a + x) / b of the unit interval *)
Fixpoint sub_row (l : list Z) (t : tm) : tm := match l with [] => tm_exact [] | c :: l => tm_add (tm_exact [[c]]) (tm_mul t (sub_row l t)) end.
Fixpoint sub_rows (l : list (list Z)) (t : tm) : tm := match l with [] => tm_exact [] | r :: l => tm_add (sub_row r t) (tm_mul tm_y (sub_rows l t)) end.
Definition part (a b : Z) (t : tm) : tm :=
  let u := sub_rows (poly t) (tm_add (tm_cst a b) (tm_scal 1 b tm_x)) in
  {| poly := poly u; rem := rem u + rem t; valid := valid t && valid u |}.
Section S.
Variables x y : R.
Hypothesis Hx : 0 <= x <= 1. Hypothesis Hy : 0 <= y <= 1.
Lemma is_sub_row : forall l t f, tm_is x y t f -> tm_is x y (sub_row l t) (ev1 l f / IZR SC).
Proof.
  pose proof SC_pos as P. induction l as [|c l IH]; intros t f T; cbn [sub_row ev1]; [apply (is_exact x y Hx Hy); cbn [ev2]; field; lra|].
  eapply (is_ext x y Hx Hy); [eapply (is_add x y Hx Hy); [apply (is_exact x y Hx Hy _ (IZR c / IZR SC)); cbn [ev2 ev1]; field; lra|apply (is_mul x y Hx Hy); [exact T|apply IH; exact T]]|field; lra].
Qed.
Lemma is_sub_rows : forall l t f, tm_is x y t f -> tm_is x y (sub_rows l t) (ev2 l f y / IZR SC).
Proof.
  pose proof SC_pos as P. induction l as [|c l IH]; intros t f T; cbn [sub_rows ev2]; [apply (is_exact x y Hx Hy); cbn [ev2]; field; lra|].
  eapply (is_ext x y Hx Hy); [eapply (is_add x y Hx Hy); [apply is_sub_row; exact T|apply (is_mul x y Hx Hy); [apply (is_y x y Hx Hy)|apply IH; exact T]]|field; lra].
Qed.
Lemma is_part : forall a b t f, tm_is ((IZR a + x) / IZR b) y t f -> tm_is x y (part a b t) f.
Proof.
  intros a b t f T V. unfold part in *. cbn [poly rem valid] in *. set (u := sub_rows _ _) in *. apply and_split in V. destruct V as [V1 V2]. specialize (T V1). pose proof SC_pos as P. rewrite plus_IZR.
  assert (U : tm_is x y u (ev2 (poly t) ((IZR a + x) / IZR b) y / IZR SC)).
  { apply is_sub_rows. eapply (is_ext x y Hx Hy); [eapply (is_add x y Hx Hy); [apply (is_cst x y Hx Hy)|apply (is_scal x y Hx Hy); apply (is_x x y Hx Hy)]|]. unfold Rdiv. ring. }
  specialize (U V2). set (p := ev2 (poly t) ((IZR a + x) / IZR b) y) in *. replace (p / IZR SC * IZR SC) with p in U by (field; lra).
  replace (f * IZR SC - ev2 (poly u) x y) with ((f * IZR SC - p) + (p - ev2 (poly u) x y)) by ring. eapply Rle_trans; [apply Rabs_triang|]. lra.
Qed.
End S.
(** bound over the unit interval by parts *)
Fixpoint parts (k : nat) (b : Z) (t : tm) : Z := match k with O => (-1)%Z | S k => let u := part (Z.of_nat k) b t in Z.max (if valid u then bound u else 2 ^ 300)%Z (parts k b t) end.
Lemma parts_ok : forall b t k i x y f, (0 < b)%Z -> (i < k)%nat -> 0 <= x <= 1 -> 0 <= y <= 1 -> tm_is ((INR i + x) / IZR b) y t f -> (parts k b t < 2 ^ 300)%Z -> Rabs f <= IZR (parts k b t) / IZR SC.
Proof.
  intros b t k i x y f Hb. induction k as [|k IH]; [lia|]. intros Hi Hx Hy T L. cbn [parts] in *. set (u := part (Z.of_nat k) b t) in *. pose proof SC_pos as P.
  destruct (Nat.eq_dec i k) as [->|Ne].
  - rewrite INR_IZR_INZ in T. apply (is_part x y Hx Hy) in T. fold u in T. destruct (valid u) eqn:V; [|lia]. eapply Rle_trans; [apply (is_bound x y Hx Hy _ _ T V)|]. apply Rmult_le_compat_r; [left; apply Rinv_0_lt_compat; lra|]. apply IZR_le. lia.
  - eapply Rle_trans; [apply IH; [lia|exact Hx|exact Hy|exact T|lia]|]. apply Rmult_le_compat_r; [left; apply Rinv_0_lt_compat; lra|]. apply IZR_le. lia.
Qed.
Lemma find_part : forall k x, (0 < k)%nat -> 0 <= x <= 1 -> exists i z, (i < k)%nat /\ 0 <= z <= 1 /\ x = (INR i + z) / INR k.
Proof.
  intros k x Hk Hx. assert (P : 0 < INR k) by (apply lt_0_INR; exact Hk). destruct (Req_dec x 1) as [->|Ne].
  - exists (k - 1)%nat, 1. split; [lia|]. split; [lra|]. rewrite minus_INR by lia. simpl. field. lra.
  - destruct (archimed (x * INR k)) as [A1 A2]. set (u := up (x * INR k)) in *. assert (U : (1 <= u)%Z). { assert (0 < IZR u) by nra. apply lt_IZR in H. lia. }
    assert (E : INR (Z.to_nat (u - 1)) = IZR u - 1) by (rewrite INR_IZR_INZ, Z2Nat.id by lia; rewrite minus_IZR; reflexivity).
    exists (Z.to_nat (u - 1)), (x * INR k - (IZR u - 1)). split; [|split; [lra|rewrite E; field; lra]].
    apply INR_lt. rewrite E. nra.
Qed.
Theorem parts_bound : forall k t x y f c, (0 < k)%nat -> 0 <= x <= 1 -> 0 <= y <= 1 -> tm_is x y t f -> (parts k (Z.of_nat k) t <= c)%Z -> (c < 2 ^ 300)%Z -> Rabs f <= IZR c / IZR SC.
Proof.
  intros k t x y f c Hk Hx Hy T L C. destruct (find_part k x Hk Hx) as (i & z & Hi & Hz & E). rewrite E, (INR_IZR_INZ k) in T.
  eapply Rle_trans; [apply (parts_ok (Z.of_nat k) t k i z y f ltac:(lia) Hi Hz Hy T); lia|]. apply Rmult_le_compat_r; [left; apply Rinv_0_lt_compat; apply SC_pos|]. apply IZR_le. exact L.
Qed.
