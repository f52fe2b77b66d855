(** Finite results of the Newton-Cotes rules. *)
From Coq Require Import Reals ZArith List Lra Lia.
From Flocq Require Import Core.
From Verif Require Import Arith F64 F64Spec Machine Rules Par NewtonCotes IntegrateProof
  IntegrateSpec RSum RoundSpec F64Proof RoundProof RoundRules RoundNC AccF64 TrigSpec FinSpec Finite.
Import ListNotations.
Local Open Scope R_scope.

Section F.
Variable be : Backend.
Notation A := (F64 be).
Notation kilo := (bpow radix2 1000).

Lemma kilo1 : 1 <= kilo. Proof. change 1 with (bpow radix2 0). apply bpow_le. lia. Qed.
Lemma eta_le1 : 0 < eta <= 1 / 1000.
Proof. split; [apply eta_pos|]. unfold eta. apply Rle_trans with (bpow radix2 (-10)); [apply bpow_le; lia|]. simpl. lra. Qed.
Lemma rnd_size : forall x, Rabs (rnd x) <= 1001 / 1000 * Rabs x + eta.
Proof.
  intros x. pose proof (rnd_err x) as H. pose proof uro_num as U. pose proof (Rabs_pos x) as P. replace (rnd x) with ((rnd x - x) + x) by ring. eapply Rle_trans; [apply Rabs_triang|].
  assert (uro * Rabs x <= 1 / 1000 * Rabs x) by (apply Rmult_le_compat_r; lra). lra.
Qed.
Lemma div_ge1 : forall x y, 1 <= y -> Rabs (x / y) <= Rabs x.
Proof.
  intros x y H. unfold Rdiv. rewrite Rabs_mult, Rabs_Rinv by lra. rewrite (Rabs_pos_eq y) by lra. pose proof (Rabs_pos x). rewrite <- (Rmult_1_r (Rabs x)) at 2. apply Rmult_le_compat_l; [assumption|].
  rewrite <- Rinv_1. apply Rinv_le_contravar; lra.
Qed.
Lemma step_fin : forall (a b : A) n, usable a b -> (1 <= n <= 2 ^ 40)%Z -> let h := ndiv (nsub b a) (nofZ n) : A in
  ffin h /\ Rabs (fval h) <= 101 / 100 * Rabs (fval b - fval a) + 1 / 200.
Proof.
  intros a b n (Fa & Fb & Ba & Bb) Hn h. pose proof ten_kilo as TK. pose proof kilo1 as K1. pose proof eta_le1 as E1.
  set (D := Rabs (fval b - fval a)) in *. assert (D0 : 0 <= D) by apply Rabs_pos.
  assert (DB : D <= 2 * kilo). { unfold D. apply Rabs_le. pose proof (Rle_abs (fval a)). pose proof (Rle_abs (fval b)). pose proof (Rle_abs (- fval a)). pose proof (Rle_abs (- fval b)). rewrite Rabs_Ropp in *. lra. }
  destruct (sub_finite be b a Fb Fa) as [F1 E]; [apply no_overflow_small; fold D; lra|].
  destruct (ofZ_exact n ltac:(lia)) as [Fn En]. assert (N1 : 1 <= IZR n) by (apply IZR_le; lia).
  pose proof (rnd_size (fval b - fval a)) as R1. fold D in R1. assert (S1 : Rabs (fval (nsub b a : A)) <= 1001 / 1000 * D + eta) by (refine (eq_ind_r (fun z => Rabs z <= _) R1 E)).
  destruct (div_finite be (nsub b a) (nofZ n) F1) as [F2 E2].
  - assert (EN : fval (@nofZ A n) = IZR n) by exact En. rewrite EN. lra.
  - apply no_overflow_small. assert (EN : fval (@nofZ A n) = IZR n) by exact En. rewrite EN. eapply Rle_trans; [apply div_ge1, N1|]. lra.
  - split; [exact F2|]. unfold h. refine (eq_ind_r (fun z => Rabs z <= _) _ E2). assert (EN : fval (@nofZ A n) = IZR n) by exact En. rewrite EN.
    eapply Rle_trans; [apply rnd_size|]. pose proof (div_ge1 (fval (nsub b a : A)) (IZR n) N1). lra.
Qed.

Definition sized (x : A) (M : R) : Prop := ffin x /\ Rabs (fval x) <= M.
Lemma sized_add : forall (x y : A) M N, sized x M -> sized y N -> M + N <= 9 * kilo -> sized (nadd x y : A) (1001 / 1000 * (M + N) + 1 / 1000).
Proof.
  intros x y M N [Fx Hx] [Fy Hy] H. pose proof ten_kilo. pose proof kilo1. pose proof eta_le1. assert (S : Rabs (fval x + fval y) <= M + N) by (eapply Rle_trans; [apply Rabs_triang|lra]).
  destruct (add_finite be x y Fx Fy) as [F E]; [apply no_overflow_small; lra|]. split; [exact F|]. refine (eq_ind_r (fun z => Rabs z <= _) _ E). eapply Rle_trans; [apply rnd_size|]. lra.
Qed.
Lemma sized_mul : forall (x y : A) M N, sized x M -> sized y N -> M * N <= 9 * kilo -> sized (nmul x y : A) (1001 / 1000 * (M * N) + 1 / 1000).
Proof.
  intros x y M N [Fx Hx] [Fy Hy] H. pose proof ten_kilo. pose proof kilo1. pose proof eta_le1.
  assert (S : Rabs (fval x * fval y) <= M * N) by (rewrite Rabs_mult; apply Rmult_le_compat; try apply Rabs_pos; assumption).
  destruct (mul_finite be x y Fx Fy) as [F E]; [apply no_overflow_small; lra|]. split; [exact F|]. refine (eq_ind_r (fun z => Rabs z <= _) _ E). eapply Rle_trans; [apply rnd_size|]. lra.
Qed.
Lemma sized_lit : forall z, (1 <= z <= 1000)%Z -> sized (nlit z 0 : A) (IZR z).
Proof. intros z H. destruct (lit_int_exact z ltac:(lia)) as [F E]. split; [exact F|]. assert (E' : fval (nlit z 0 : A) = IZR z) by exact E. rewrite E'. rewrite Rabs_pos_eq; [lra|]. apply IZR_le. lia. Qed.
Lemma sized_div : forall (x : A) M z, sized x M -> (1 <= z <= 1000)%Z -> M <= 9 * kilo -> sized (ndiv x (nlit z 0) : A) (1001 / 1000 * M + 1 / 1000).
Proof.
  intros x M z [Fx Hx] Hz H. pose proof ten_kilo. pose proof kilo1. pose proof eta_le1. destruct (lit_int_exact z ltac:(lia)) as [F E]. assert (E' : fval (nlit z 0 : A) = IZR z) by exact E.
  assert (Z1 : 1 <= IZR z) by (apply IZR_le; lia). pose proof (div_ge1 (fval x) (IZR z) Z1) as S.
  destruct (div_finite be x (nlit z 0) Fx) as [F' E2]; [rewrite E'; lra|rewrite E'; apply no_overflow_small; lra|]. split; [exact F'|]. refine (eq_ind_r (fun y => Rabs y <= _) _ E2). rewrite E'.
  eapply Rle_trans; [apply rnd_size|]. lra.
Qed.
Lemma sized_step : forall (a b : A) n, usable a b -> (1 <= n <= 2 ^ 40)%Z -> sized (ndiv (nsub b a) (nofZ n) : A) (101 / 100 * Rabs (fval b - fval a) + 1 / 200).
Proof. exact step_fin. Qed.
Lemma weaken : forall x M N, sized x M -> M <= N -> sized x N. Proof. intros x M N [F H] L. split; [exact F|lra]. Qed.
(** the last product *)
Lemma sized_end : forall (h s : A) D T, 0 <= T <= kilo -> 0 <= D <= 2 * kilo -> D * T <= kilo -> sized h (2 * D + 1 / 100) -> sized s (425 / 100 * T + 1 / 100) -> ffin (nmul h s : A) /\ ffin (nmul s h : A).
Proof.
  intros h s D T HT HD HP Hh Hs. pose proof kilo1 as K1.
  assert (P : (2 * D + 1 / 100) * (425 / 100 * T + 1 / 100) <= 9 * kilo) by lra.
  split; [apply (sized_mul h s _ _ Hh Hs P)|]. rewrite Rmult_comm in P. apply (sized_mul s h _ _ Hs Hh P).
Qed.
Lemma sized_end_l : forall (h s : A) D T, 0 <= T <= kilo -> 0 <= D <= 2 * kilo -> D * T <= kilo -> sized h (2 * D + 1 / 100) -> sized s (425 / 100 * T + 1 / 100) -> ffin (nmul h s : A).
Proof. intros h s D T H1 H2 H3 H4 H5. apply (sized_end h s D T H1 H2 H3 H4 H5). Qed.
Lemma sized_sum : forall (s : A) (vs : list A), fin_ok be s vs -> sum_ok be s vs -> INR (length vs) <= 2 ^ 40 -> Forall ffin vs -> abs_total vs <= kilo -> sized s (1001 / 1000 * abs_total vs).
Proof.
  intros s vs FO SO HL HF HT. pose proof ten_kilo. pose proof kilo1. pose proof (asum_pos vs) as P. pose proof (g_small (length vs) ltac:(lra)) as G.
  assert (B : g (length vs) * abs_total vs <= 1001 / 1000 * abs_total vs) by (apply Rmult_le_compat_r; assumption).
  assert (F : ffin s) by (apply (FO (length vs)); [lia|exact HF|lra]). split; [exact F|]. eapply Rle_trans; [exact (sum_size_n be s vs (length vs) SO F ltac:(lia))|exact B].
Qed.
Lemma total_app : forall l m : list A, abs_total (l ++ m) = abs_total l + abs_total m. Proof. exact asum_app. Qed.
Lemma total_cons : forall (x : A) (l : list A), abs_total (x :: l) = Rabs (fval x) + abs_total l. Proof. reflexivity. Qed.
Lemma total_nil : abs_total (@nil A) = 0. Proof. reflexivity. Qed.
Lemma dist_kilo : forall a b : f64, usable a b -> 0 <= Rabs (fval b - fval a) <= 2 * kilo.
Proof.
  intros a b (Fa & Fb & Ba & Bb). split; [apply Rabs_pos|]. apply Rabs_le. pose proof (Rle_abs (fval a)). pose proof (Rle_abs (fval b)). pose proof (Rle_abs (- fval a)). pose proof (Rle_abs (- fval b)). rewrite Rabs_Ropp in *. lra.
Qed.

Lemma midpoint_fin_shape : forall (a b s : A) n (vs : list A), (1 <= n <= 2 ^ 40)%Z -> fin_ok be s vs -> sum_ok be s vs -> INR (length vs) <= 2 ^ 40 ->
  moderate_values vs -> room a b (abs_total vs) -> ffin (nmul s (ndiv (nsub b a) (nofZ n)) : A).
Proof.
  intros a b s n vs Hn FO SO HL [HF HT] [HU HR]. pose proof (sized_sum s vs FO SO HL HF HT) as S. pose proof (asum_pos vs) as P.
  eapply sized_end; [exact (conj P HT)|exact (dist_kilo a b HU)|exact HR|eapply weaken; [exact (sized_step a b n HU Hn)|pose proof (dist_kilo a b HU); lra]|eapply weaken; [exact S|lra]].
Qed.
Lemma trapezoid_fin_shape : forall (a b s fa fb : A) n (vs : list A), (1 <= n <= 2 ^ 40)%Z -> fin_ok be s vs -> sum_ok be s vs -> INR (length vs) <= 2 ^ 40 ->
  moderate_values ([fa; fb] ++ vs) -> room a b (abs_total ([fa; fb] ++ vs)) -> ffin (nmul (nadd (ndiv (nadd fa fb) lit2) s) (ndiv (nsub b a) (nofZ n)) : A).
Proof.
  intros a b s fa fb n vs Hn FO SO HL [HF HT] [HU HR]. rewrite total_app, !total_cons, total_nil in *. cbn [app] in HF.
  inversion HF as [|x1 l1 Fa HF1]; subst x1 l1. inversion HF1 as [|x2 l2 Fb HF2]; subst x2 l2. pose proof (asum_pos vs) as P. pose proof (Rabs_pos (fval fa)) as Pa. pose proof (Rabs_pos (fval fb)) as Pb. pose proof kilo1 as K1.
  pose proof (sized_sum s vs FO SO HL HF2 ltac:(lra)) as S.
  pose proof (sized_add fa fb _ _ (conj Fa (Rle_refl _)) (conj Fb (Rle_refl _)) ltac:(lra)) as S1.
  pose proof (sized_div _ _ 2 S1 ltac:(lia) ltac:(lra)) as S2. pose proof (sized_add _ _ _ _ S2 S ltac:(lra)) as S3.
  eapply sized_end; [|exact (dist_kilo a b HU)|exact HR|eapply weaken; [exact (sized_step a b n HU Hn)|pose proof (dist_kilo a b HU); lra]|eapply weaken; [exact S3|]]; lra.
Qed.
Lemma simpson_fin_shape : forall (a b s1 s2 fl fa fb : A) n (v1 v2 : list A), (1 <= n <= 2 ^ 40)%Z -> fin_ok be s1 v1 -> sum_ok be s1 v1 -> INR (length v1) <= 2 ^ 40 -> fin_ok be s2 v2 -> sum_ok be s2 v2 -> INR (length v2) <= 2 ^ 40 ->
  moderate_values (v1 ++ v2 ++ [fl; fa; fb]) -> room a b (abs_total (v1 ++ v2 ++ [fl; fa; fb])) ->
  ffin (nmul (ndiv (ndiv (nsub b a) (nofZ n)) (nlit 6 0)) (nadd (nadd (nadd (nadd (nmul lit2 s1) (nmul (nlit 4 0) s2)) (nmul (nlit 4 0) fl)) fa) fb) : A).
Proof.
  intros a b s1 s2 fl fa fb n v1 v2 Hn FO1 SO1 L1 FO2 SO2 L2 [HF HT] [HU HR]. rewrite !total_app, !total_cons, total_nil in *.
  apply Forall_app in HF. destruct HF as [F1 HF]. apply Forall_app in HF. destruct HF as [F2 HF].
  inversion HF as [|x1 l1 Ff HF1]; subst x1 l1. inversion HF1 as [|x2 l2 Fa HF2]; subst x2 l2. inversion HF2 as [|x3 l3 Fb _]; subst x3 l3.
  pose proof (asum_pos v1) as P1. pose proof (asum_pos v2) as P2. pose proof (Rabs_pos (fval fl)) as Pf. pose proof (Rabs_pos (fval fa)) as Pa. pose proof (Rabs_pos (fval fb)) as Pb. pose proof kilo1 as K1.
  pose proof (sized_sum s1 v1 FO1 SO1 L1 F1 ltac:(lra)) as S1. pose proof (sized_sum s2 v2 FO2 SO2 L2 F2 ltac:(lra)) as S2.
  pose proof (sized_mul _ _ _ _ (sized_lit 2 ltac:(lia)) S1 ltac:(lra)) as T1.
  pose proof (sized_mul _ _ _ _ (sized_lit 4 ltac:(lia)) S2 ltac:(lra)) as T2.
  pose proof (sized_mul _ _ _ _ (sized_lit 4 ltac:(lia)) (conj Ff (Rle_refl _)) ltac:(lra)) as T3.
  pose proof (sized_add _ _ _ _ T1 T2 ltac:(lra)) as U1. pose proof (sized_add _ _ _ _ U1 T3 ltac:(lra)) as U2.
  pose proof (sized_add _ _ _ _ U2 (conj Fa (Rle_refl _)) ltac:(lra)) as U3. pose proof (sized_add _ _ _ _ U3 (conj Fb (Rle_refl _)) ltac:(lra)) as U4.
  pose proof (dist_kilo a b HU) as DK. pose proof (sized_div _ _ 6 (sized_step a b n HU Hn) ltac:(lia) ltac:(lra)) as H.
  eapply sized_end_l; [|exact DK|exact HR|eapply weaken; [exact H|]|eapply weaken; [exact U4|]]; lra.
Qed.

Lemma len_ok : forall n k, (1 <= n <= 2 ^ 40)%Z -> (k <= Z.to_nat n)%nat -> INR k <= 2 ^ 40.
Proof. intros n k Hn Hk. rewrite INR_IZR_INZ, pow_IZR. apply IZR_le. change (Z.of_nat 40) with 40%Z. lia. Qed.
Notation step a b n := (ndiv (nsub b a) (nofZ n)).
Lemma midpoint_fin : forall S (f : S -> A -> A * S) n (a b : A) s, (1 <= n <= 2 ^ 40)%Z ->
  let h := step a b n in
  let vs := fst (call_all f (map (fun i => nadd a (nmul h (nadd lit_half (nofZ i)))) (ints 0 (Z.to_nat n))) s) in
  moderate_values vs -> room a b (abs_total vs) -> ffin (fst (midpoint_integrate f (midpoint_new n) a b s)).
Proof.
  intros S f n a b s Hn h vs HM HR. rewrite midpoint_calls by lia. fold h. unfold vs in HM, HR. clear vs.
  assert (L := call_all_length be S f (map (fun i => nadd a (nmul h (nadd lit_half (nofZ i)))) (ints 0 (Z.to_nat n))) s). rewrite map_length, ints_length in L.
  destruct (call_all f _ s) as [v s']. cbn [fst] in *. apply (midpoint_fin_shape a b (float_sum v) n v Hn); [apply float_fin_ok|apply float_sum_ok|apply (len_ok n); [exact Hn|lia]|exact HM|exact HR].
Qed.
Lemma trapezoid_fin : forall S (f : S -> A -> A * S) n (a b : A) s, (1 <= n <= 2 ^ 40)%Z ->
  let h := step a b n in
  let ends := call_all f [a; b] s in
  let vs := fst (call_all f (map (fun i => nadd a (nmul (nofZ i) h)) (ints 1 (Z.to_nat (n - 1)))) (snd ends)) in
  moderate_values (fst ends ++ vs) -> room a b (abs_total (fst ends ++ vs)) -> ffin (fst (trapezoid_integrate f (trapezoid_new n) a b s)).
Proof.
  intros S f n a b s Hn h ends vs HM HR. rewrite trapezoid_calls by lia. fold h. fold ends. unfold vs in HM, HR. clear vs.
  assert (E : exists fa fb s1, ends = ([fa; fb], s1)).
  { unfold ends. cbn [call_all]. destruct (f s a) as [fa s1]. destruct (f s1 b) as [fb s2]. exists fa, fb, s2. reflexivity. }
  destruct E as (fa & fb & s1 & E). clearbody ends. subst ends. cbn [fst snd] in *.
  assert (L := call_all_length be S f (map (fun i => nadd a (nmul (nofZ i) h)) (ints 1 (Z.to_nat (n - 1)))) s1). rewrite map_length, ints_length in L.
  destruct (call_all f _ s1) as [v s']. cbn [fst nth] in *. apply (trapezoid_fin_shape a b (float_sum v) fa fb n v Hn); [apply float_fin_ok|apply float_sum_ok|apply (len_ok n); [exact Hn|lia]|exact HM|exact HR].
Qed.
Lemma simpson_fin : forall S (f : S -> A -> A * S) n (a b : A) s, (1 <= n <= 2 ^ 40)%Z ->
  let h := step a b n in
  let c1 := call_all f (map (fun i => nadd a (nmul (nofZ i) h)) (ints 1 (Z.to_nat (n - 1)))) s in
  let c2 := call_all f (map (fun i => nadd a (ndiv (nmul (nsub (nmul lit2 (nofZ i)) lit1) h) lit2)) (ints 1 (Z.to_nat (n - 1)))) (snd c1) in
  let c3 := fst (call_all f [nadd a (ndiv (nmul (nsub (nmul lit2 (nofZ n)) lit1) h) lit2); a; b] (snd c2)) in
  let vs := fst c1 ++ fst c2 ++ c3 in
  moderate_values vs -> room a b (abs_total vs) -> ffin (fst (simpson_integrate f (simpson_new n) a b s)).
Proof.
  intros S f n a b s Hn h c1 c2 c3 vs HM HR. rewrite simpson_calls by lia. fold h. fold c1. unfold vs, c3, c2 in HM, HR. clear vs c3 c2.
  assert (L1 := call_all_length be S f (map (fun i => nadd a (nmul (nofZ i) h)) (ints 1 (Z.to_nat (n - 1)))) s). rewrite map_length, ints_length in L1. fold c1 in L1.
  clearbody c1. destruct c1 as [v1 s1]. cbn [fst snd] in *.
  assert (L2 := call_all_length be S f (map (fun i => nadd a (ndiv (nmul (nsub (nmul lit2 (nofZ i)) lit1) h) lit2)) (ints 1 (Z.to_nat (n - 1)))) s1). rewrite map_length, ints_length in L2.
  destruct (call_all f _ s1) as [v2 s2]. cbn [fst snd] in *.
  set (x := nadd a (ndiv (nmul (nsub (nmul lit2 (nofZ n)) lit1) h) lit2)) in *.
  assert (E : exists fl fa fb s3, call_all f [x; a; b] s2 = ([fl; fa; fb], s3)).
  { cbn [call_all]. destruct (f s2 x) as [fl t1]. destruct (f t1 a) as [fa t2]. destruct (f t2 b) as [fb t3]. exists fl, fa, fb, t3. reflexivity. }
  destruct E as (fl & fa & fb & s3 & E). rewrite E in *. cbn [fst snd nth] in *.
  apply (simpson_fin_shape a b (float_sum v1) (float_sum v2) fl fa fb n v1 v2 Hn); try apply float_fin_ok; try apply float_sum_ok; try (apply (len_ok n); [exact Hn|lia]); [exact HM|exact HR].
Qed.
Lemma midpoint_par_fin : forall t (f : A -> A) n (a b : A), (1 <= n <= 2 ^ 40)%Z ->
  let h := step a b n in
  let vs := map f (map (fun i => nadd a (nmul h (nadd lit_half (nofZ i)))) (ints 0 (Z.to_nat n))) in
  moderate_values vs -> room a b (abs_total vs) -> ffin (midpoint_par_integrate f t (midpoint_new n) a b).
Proof.
  intros t f n a b Hn h vs HM HR. unfold midpoint_par_integrate. cbn [midpoint_degree midpoint_new].
  apply (midpoint_fin_shape a b _ n vs Hn); [| |apply (len_ok n); [exact Hn|unfold vs; rewrite !map_length, ints_length; lia]|exact HM|exact HR];
    unfold vs; rewrite map_map; replace (zrange 0 n) with (ints 0 (Z.to_nat n)) by (rewrite zrange_ints; f_equal; lia); [apply par_fin_ok|apply par_sum_ok].
Qed.
Lemma trapezoid_par_fin : forall t (f : A -> A) n (a b : A), (1 <= n <= 2 ^ 40)%Z ->
  let h := step a b n in
  let vs := map f (map (fun i => nadd a (nmul (nofZ i) h)) (ints 1 (Z.to_nat (n - 1)))) in
  moderate_values ([f a; f b] ++ vs) -> room a b (abs_total ([f a; f b] ++ vs)) -> ffin (trapezoid_par_integrate f t (trapezoid_new n) a b).
Proof.
  intros t f n a b Hn h vs HM HR. unfold trapezoid_par_integrate. cbn [trapezoid_degree trapezoid_new].
  apply (trapezoid_fin_shape a b _ (f a) (f b) n vs Hn); [| |apply (len_ok n); [exact Hn|unfold vs; rewrite !map_length, ints_length; lia]|exact HM|exact HR];
    unfold vs; rewrite map_map, zrange_ints; [apply par_fin_ok|apply par_sum_ok].
Qed.
Lemma simpson_par_fin : forall t1 t2 (f : A -> A) n (a b : A), (1 <= n <= 2 ^ 40)%Z ->
  let h := step a b n in
  let v1 := map f (map (fun i => nadd a (nmul (nofZ i) h)) (ints 1 (Z.to_nat (n - 1)))) in
  let v2 := map f (map (fun i => nadd a (ndiv (nmul (nsub (nmul lit2 (nofZ i)) lit1) h) lit2)) (ints 1 (Z.to_nat (n - 1)))) in
  let vs := v1 ++ v2 ++ [f (nadd a (ndiv (nmul (nsub (nmul lit2 (nofZ n)) lit1) h) lit2)); f a; f b] in
  moderate_values vs -> room a b (abs_total vs) -> ffin (simpson_par_integrate f t1 t2 (simpson_new n) a b).
Proof.
  intros t1 t2 f n a b Hn h v1 v2 vs HM HR. unfold simpson_par_integrate. cbn [simpson_degree simpson_new].
  apply (simpson_fin_shape a b _ _ (f (nadd a (ndiv (nmul (nsub (nmul lit2 (nofZ n)) lit1) h) lit2))) (f a) (f b) n v1 v2 Hn);
    try (apply (len_ok n); [exact Hn|unfold v1, v2; rewrite !map_length, ints_length; lia]); try exact HM; try exact HR.
  - unfold v1. rewrite map_map, zrange_ints. apply par_fin_ok.
  - unfold v1. rewrite map_map, zrange_ints. apply par_sum_ok.
  - unfold v2. rewrite map_map, zrange_ints. apply par_fin_ok.
  - unfold v2. rewrite map_map, zrange_ints. apply par_sum_ok.
Qed.
End F.
