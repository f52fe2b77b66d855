(** The results of integrating with Gauss-Hermite and Gauss-Laguerre rules in double arithmetic. *)
From Coq Require Import Reals List Lia Lra Arith ZArith Permutation.
From Coquelicot Require Import Coquelicot.
From Flocq Require Import Core IEEE754.Binary.
From Verif Require Import Arith F64 F64Spec F64Proof RInst Machine Param Iter Rules Par RSum PolySpec RoundSpec RoundProof RoundRules IntegrateSpec GolubWelsch GWSpec EigenSpec WeightSpec InexactSpec InexactF64Spec
  EigenProof GWProof Inexact InexactF64 InexactF64Rules Gamma Hermite Laguerre GaussExact.
Import ListNotations.
Local Open Scope R_scope.

Lemma sum_values : forall (l : list (f64 * f64)) (g : f64 -> f64) (f : R -> R) e, (forall p, In p l -> Rabs (fval (g (fst p)) - f (fval (fst p))) <= e) ->
  Rabs (exact_sum (map g (map fst l)) (map snd l) - apply_rule (real_pairs l) f) <= e * abs_total (map snd l).
Proof.
  intros l g f e. unfold exact_sum, apply_rule, real_pairs, abs_total. induction l as [|[x w] l IH]; intros H.
  - simpl. rewrite Rminus_eq_0, Rabs_R0. unfold lsum. simpl. lra.
  - specialize (IH (fun p Hp => H p (or_intror Hp))). assert (H0 := H (x, w) (or_introl eq_refl)). cbn [map combine fst snd lsum fold_right] in *.
    unfold lsum in *. cbn [fold_right map fst snd] in *.
    match goal with |- Rabs (?u + ?s - (?v + ?t)) <= _ => replace (u + s - (v + t)) with ((u - v) + (s - t)) by ring end.
    eapply Rle_trans; [apply Rabs_triang|]. rewrite Rmult_plus_distr_l. apply Rplus_le_compat; [|exact IH].
    rewrite <- Rmult_minus_distr_r, Rabs_mult. apply Rmult_le_compat_r; [apply Rabs_pos|exact H0].
Qed.

Section End.
Context {be : Backend}.
Notation A := (F64 be).

Lemma hermite_weights : forall (ext : Linalg A) n (r : GaussHermite A) tau rho phi, (1 <= n <= 2 ^ 53)%Z -> sorts ext ->
  float_solver ext (Z.to_nat n) hermite_diag hermite_off_diag tau rho phi -> phi < 1 -> hermite_new ext n = Ok r ->
  abs_total (map snd (hermite_pairs r)) <= 4.
Proof.
  intros ext n r tau rho phi Hn So Ex Hphi Hr. assert (P0 := hf_phi ext n r tau rho phi Hn So Ex Hphi Hr).
  eapply Rle_trans; [exact (float_weights ext (Z.to_nat n) _ _ _ tau rho phi _ (hf_Hn n Hn) So Ex Hphi (proj1 sqrt_pi_val) (hf_big n) (hf_run ext n r Hr))|].
  assert (X := hf_scale (be := be)). assert (UV := uro_val). assert (U0 := uro_pos). assert (E0 := eta_pos).
  set (S := Rabs (fval (@nsqrt A npi))) in *. assert (S0 : 0 <= S) by apply Rabs_pos.
  assert (Y := tiny (INR (Z.to_nat n)) ltac:(rewrite (hf_N n Hn); apply IZR_le; lia)). assert (Z := tiny_small). assert (N0 : 0 <= INR (Z.to_nat n)) by apply pos_INR.
  assert (T1 : INR (Z.to_nat n) * (((1 + uro) * S + 1) * eta) <= 1 / 10 ^ 20).
  { replace (INR (Z.to_nat n) * (((1 + uro) * S + 1) * eta)) with (((1 + uro) * S + 1) * (INR (Z.to_nat n) * eta)) by ring.
    assert (W : (1 + uro) * S <= 2 * 2) by (apply Rmult_le_compat; lra).
    apply Rle_trans with (5 * (1 / 10 ^ 30)); [|lra]. apply Rmult_le_compat; [|apply Rmult_le_pos; lra|lra|lra]. assert (0 <= (1 + uro) * S) by (apply Rmult_le_pos; lra). lra. }
  assert (UU : uro * uro <= 112 / 10 ^ 18 * (112 / 10 ^ 18)) by (apply Rmult_le_compat; lra). assert (UU0 : 0 <= uro * uro) by (apply Rmult_le_pos; lra).
  assert (T2 : (1 + (2 * uro + uro * uro)) * S <= (1 + 1 / 100) * (1781 / 1000)) by (apply Rmult_le_compat; lra).
  assert (T3 : (1 + phi) * ((1 + (2 * uro + uro * uro)) * S) <= 2 * ((1 + 1 / 100) * (1781 / 1000))) by (apply Rmult_le_compat; try lra; apply Rmult_le_pos; lra).
  lra.
Qed.

Lemma hermite_float_end : forall (ext : Linalg A) n (r : GaussHermite A) tau rho phi, (1 <= n <= 2 ^ 53)%Z -> sorts ext -> sqrt (2 * IZR n) <= tau ->
  float_solver ext (Z.to_nat n) hermite_diag hermite_off_diag tau rho phi -> phi < 1 -> hermite_new ext n = Ok r ->
  forall c f (g : A -> A) e (result : A), 0 <= e -> (forall x, f x = rsum (2 * Z.to_nat n) (fun j => c j * x ^ j)) ->
  (forall x, In x (map fst (hermite_pairs r)) -> Rabs (fval (g x) - f (fval x)) <= e) ->
  (result = fst (hermite_integrate (pure g) r tt) \/ exists t, result = hermite_par_integrate t g r) -> ffin result ->
  exists v, hermite_integral f v /\
    Rabs (fval result - v) <= sum_bound (length (hermite_pairs r)) (abs_sum (map g (map fst (hermite_pairs r))) (map snd (hermite_pairs r))) + 4 * e +
      rsum (2 * Z.to_nat n) (fun j => Rabs (c j) * (sqrt PI * moment_error (Z.to_nat n) tau (rho + 4 / 10 ^ 16 * sqrt (IZR n)) phi j + 3 / 10 ^ 15 * tau ^ j)).
Proof.
  intros ext n r tau rho phi Hn So Ht Ex Hphi Hr c f g e result He Hf Hg Hres Fr.
  destruct (hermite_float_values ext n r tau rho phi Hn So Ht Ex Hphi Hr c f Hf) as (v & Hv & B). exists v. split; [exact Hv|].
  assert (W := hermite_weights ext n r tau rho phi Hn So Ex Hphi Hr).
  assert (Q := sum_values (hermite_pairs r) g f e (fun p Hp => Hg (fst p) (in_map fst _ p Hp))).
  assert (T : Rabs (fval result - exact_sum (map g (map fst (hermite_pairs r))) (map snd (hermite_pairs r))) <=
    sum_bound (length (hermite_pairs r)) (abs_sum (map g (map fst (hermite_pairs r))) (map snd (hermite_pairs r)))).
  { destruct Hres as [->|[t ->]].
    - assert (X := hermite_round be unit (pure g) r tt). cbv zeta in X. rewrite (RInstProof.call_all_pure A A g) in X. exact (X Fr).
    - exact (hermite_par_round be t g r Fr). }
  assert (W' : e * abs_total (map snd (hermite_pairs r)) <= 4 * e) by (rewrite (Rmult_comm 4); apply Rmult_le_compat_l; assumption).
  match goal with |- Rabs (?a - v) <= ?s + _ + _ => replace (a - v) with ((a - exact_sum (map g (map fst (hermite_pairs r))) (map snd (hermite_pairs r))) +
    ((exact_sum (map g (map fst (hermite_pairs r))) (map snd (hermite_pairs r)) - apply_rule (real_pairs (hermite_pairs r)) f) + (apply_rule (real_pairs (hermite_pairs r)) f - v))) by ring end.
  eapply Rle_trans; [apply Rabs_triang|]. rewrite Rplus_assoc. apply Rplus_le_compat; [exact T|]. eapply Rle_trans; [apply Rabs_triang|]. apply Rplus_le_compat; [|exact B]. eapply Rle_trans; [exact Q|exact W'].
Qed.

Lemma laguerre_weights : forall (ext : Linalg A) n (al : Param A) (r : GaussLaguerre A) tau rho phi,
  (1 <= n <= 2 ^ 52)%Z -> sorts ext -> ffin (@gamma A (nadd (param_get al) lit1)) -> Rabs (fval (@gamma A (nadd (param_get al) lit1))) <= bpow radix2 1000 ->
  float_solver ext (Z.to_nat n) (laguerre_diag (param_get al)) (laguerre_off_diag (param_get al)) tau rho phi -> phi < 1 -> laguerre_new ext n al = Ok r ->
  abs_total (map snd (laguerre_pairs r)) <= 3 * Rabs (fval (@gamma A (nadd (param_get al) lit1))) + 1 / 10 ^ 200.
Proof.
  intros ext n al r tau rho phi Hn So Fs Bs Ex Hphi Hr. assert (P0 := lf_phi ext n al r tau rho phi Hn So Fs Bs Ex Hphi Hr).
  eapply Rle_trans; [exact (float_weights ext (Z.to_nat n) _ _ _ tau rho phi _ (lf_Hn n Hn) So Ex Hphi Fs Bs (lf_run ext n al r Hr))|].
  assert (UV := uro_val). assert (U0 := uro_pos). assert (E0 := eta_pos).
  set (S := Rabs (fval (@gamma A (nadd (param_get al) lit1)))) in *. assert (S0 : 0 <= S) by apply Rabs_pos.
  assert (Y := tiny (INR (Z.to_nat n)) ltac:(rewrite (lf_N n Hn); apply IZR_le; lia)). assert (Z := tiny_small). assert (N0 : 0 <= INR (Z.to_nat n)) by apply pos_INR.
  replace (INR (Z.to_nat n) * (((1 + uro) * S + 1) * eta)) with ((1 + uro) * (INR (Z.to_nat n) * eta) * S + INR (Z.to_nat n) * eta) by ring.
  set (w := INR (Z.to_nat n) * eta) in *. assert (w0 : 0 <= w) by (apply Rmult_le_pos; lra).
  assert (W : (1 + uro) * w <= 2 * (1 / 10 ^ 30)) by (apply Rmult_le_compat; lra).
  assert (UU : uro * uro <= 112 / 10 ^ 18 * (112 / 10 ^ 18)) by (apply Rmult_le_compat; lra). assert (UU0 : 0 <= uro * uro) by (apply Rmult_le_pos; lra).
  assert (T1 : (1 + phi) * (1 + (2 * uro + uro * uro)) <= 2 * (1 + 1 / 100)) by (apply Rmult_le_compat; lra).
  rewrite <- Rmult_assoc, <- Rplus_assoc, <- Rmult_plus_distr_r. apply Rplus_le_compat; [|exact Y]. apply Rmult_le_compat_r; [exact S0|]. lra.
Qed.

Lemma laguerre_float_end : forall (ext : Linalg A) n (al : Param A) (r : GaussLaguerre A) (G tau rho phi : R), (1 <= n <= 2 ^ 52)%Z ->
  ffin (param_get al) -> -1 < fval (param_get al) <= bpow radix2 500 -> sorts ext -> 4 * IZR n + 3 * Rabs (fval (param_get al)) + 1 <= tau ->
  ffin (@gamma A (nadd (param_get al) lit1)) -> Rabs (fval (@gamma A (nadd (param_get al) lit1))) <= bpow radix2 1000 ->
  is_Gamma (fval (param_get al) + 1) G ->
  float_solver ext (Z.to_nat n) (laguerre_diag (param_get al)) (laguerre_off_diag (param_get al)) tau rho phi -> phi < 1 -> laguerre_new ext n al = Ok r ->
  forall c f (g : A -> A) e (result : A), 0 <= e -> (forall x, f x = rsum (2 * Z.to_nat n) (fun j => c j * x ^ j)) ->
  (forall x, In x (map fst (laguerre_pairs r)) -> Rabs (fval (g x) - f (fval x)) <= e) ->
  (result = fst (laguerre_integrate (pure g) r tt) \/ exists t, result = laguerre_par_integrate t g r) -> ffin result ->
  exists v, laguerre_integral (fval (param_get al)) f v /\
    Rabs (fval result - fval (@gamma A (nadd (param_get al) lit1)) / G * v) <=
      sum_bound (length (laguerre_pairs r)) (abs_sum (map g (map fst (laguerre_pairs r))) (map snd (laguerre_pairs r))) +
      (3 * Rabs (fval (@gamma A (nadd (param_get al) lit1))) + 1 / 10 ^ 200) * e +
      rsum (2 * Z.to_nat n) (fun j => Rabs (c j) * (Rabs (fval (@gamma A (nadd (param_get al) lit1))) *
        moment_error (Z.to_nat n) tau (rho + 2 / 10 ^ 15 * (2 * IZR n + Rabs (fval (param_get al)) + 1)) phi j +
        (1 / 10 ^ 15 * Rabs (fval (@gamma A (nadd (param_get al) lit1))) + 1 / 10 ^ 200) * tau ^ j)).
Proof.
  intros ext n al r G tau rho phi Hn Fa Ba So Ht Fs Bs HG Ex Hphi Hr c f g e result He Hf Hg Hres Fr.
  destruct (laguerre_float_values ext n al r G tau rho phi Hn Fa Ba So Ht Fs Bs HG Ex Hphi Hr c f Hf) as (v & Hv & B). exists v. split; [exact Hv|].
  assert (W := laguerre_weights ext n al r tau rho phi Hn So Fs Bs Ex Hphi Hr).
  set (sf := @gamma A (nadd (param_get al) lit1)) in *.
  assert (Q := sum_values (laguerre_pairs r) g f e (fun p Hp => Hg (fst p) (in_map fst _ p Hp))).
  assert (T : Rabs (fval result - exact_sum (map g (map fst (laguerre_pairs r))) (map snd (laguerre_pairs r))) <=
    sum_bound (length (laguerre_pairs r)) (abs_sum (map g (map fst (laguerre_pairs r))) (map snd (laguerre_pairs r)))).
  { destruct Hres as [->|[t ->]].
    - assert (X := laguerre_round be unit (pure g) r tt). cbv zeta in X. rewrite (RInstProof.call_all_pure A A g) in X. exact (X Fr).
    - exact (laguerre_par_round be t g r Fr). }
  assert (W' : e * abs_total (map snd (laguerre_pairs r)) <= (3 * Rabs (fval sf) + 1 / 10 ^ 200) * e) by (rewrite (Rmult_comm (3 * Rabs (fval sf) + _)); apply Rmult_le_compat_l; assumption).
  match goal with |- Rabs (?a - ?u) <= ?s + _ + _ => replace (a - u) with ((a - exact_sum (map g (map fst (laguerre_pairs r))) (map snd (laguerre_pairs r))) +
    ((exact_sum (map g (map fst (laguerre_pairs r))) (map snd (laguerre_pairs r)) - apply_rule (real_pairs (laguerre_pairs r)) f) + (apply_rule (real_pairs (laguerre_pairs r)) f - u))) by ring end.
  eapply Rle_trans; [apply Rabs_triang|]. rewrite Rplus_assoc. apply Rplus_le_compat; [exact T|]. eapply Rle_trans; [apply Rabs_triang|]. apply Rplus_le_compat; [|exact B]. 
  eapply Rle_trans; [exact Q|exact W'].
Qed.
End End.

Lemma hermite_float_rule : forall (be : Backend) (ext : Linalg (F64 be)) n (r : GaussHermite (F64 be)) tau rho phi,
  (1 <= n <= 2 ^ 53)%Z -> sorts ext -> sqrt (2 * IZR n) <= tau ->
  float_solver ext (Z.to_nat n) hermite_diag hermite_off_diag tau rho phi -> phi < 1 -> hermite_new ext n = Ok r ->
  (forall c f, (forall x, f x = rsum (2 * Z.to_nat n) (fun j => c j * x ^ j)) -> exists v, hermite_integral f v /\
    Rabs (apply_rule (real_pairs (hermite_pairs r)) f - v) <=
      rsum (2 * Z.to_nat n) (fun j => Rabs (c j) * (sqrt PI * moment_error (Z.to_nat n) tau (rho + 4 / 10 ^ 16 * sqrt (IZR n)) phi j + 3 / 10 ^ 15 * tau ^ j))) /\
  (forall p, In p (hermite_pairs r) -> ffin (fst p) /\ ffin (snd p) /\
    exists x, monic (@hermite_diag RA) (@hermite_off_diag RA) (Z.to_nat n) x = 0 /\
      Rabs (fval (fst p) - x) <= (rho + 4 / 10 ^ 16 * sqrt (IZR n)) * sqrt (IZR n / (1 - phi))).
Proof.
  intros be ext n r tau rho phi Hn So Ht Ex Hphi Hr. split; [exact (hermite_float_values ext n r tau rho phi Hn So Ht Ex Hphi Hr)|exact (hermite_float_nodes ext n r tau rho phi Hn So Ex Hphi Hr)].
Qed.
Lemma laguerre_float_rule : forall (be : Backend) (ext : Linalg (F64 be)) n (al : Param (F64 be)) (r : GaussLaguerre (F64 be)) (G tau rho phi : R),
  (1 <= n <= 2 ^ 52)%Z -> ffin (param_get al) -> -1 < fval (param_get al) <= bpow radix2 500 -> sorts ext -> 4 * IZR n + 3 * Rabs (fval (param_get al)) + 1 <= tau ->
  let s := gamma (nadd (param_get al) lit1) in
  ffin s -> Rabs (fval s) <= bpow radix2 1000 -> is_Gamma (fval (param_get al) + 1) G ->
  float_solver ext (Z.to_nat n) (laguerre_diag (param_get al)) (laguerre_off_diag (param_get al)) tau rho phi -> phi < 1 -> laguerre_new ext n al = Ok r ->
  (forall c f, (forall x, f x = rsum (2 * Z.to_nat n) (fun j => c j * x ^ j)) -> exists v, laguerre_integral (fval (param_get al)) f v /\
    Rabs (apply_rule (real_pairs (laguerre_pairs r)) f - fval s / G * v) <=
      rsum (2 * Z.to_nat n) (fun j => Rabs (c j) * (Rabs (fval s) * moment_error (Z.to_nat n) tau (rho + 2 / 10 ^ 15 * (2 * IZR n + Rabs (fval (param_get al)) + 1)) phi j +
        (1 / 10 ^ 15 * Rabs (fval s) + 1 / 10 ^ 200) * tau ^ j))) /\
  (forall p, In p (laguerre_pairs r) -> ffin (fst p) /\ ffin (snd p) /\
    exists x, monic (@laguerre_diag RA (fval (param_get al))) (@laguerre_off_diag RA (fval (param_get al))) (Z.to_nat n) x = 0 /\
      Rabs (fval (fst p) - x) <= (rho + 2 / 10 ^ 15 * (2 * IZR n + Rabs (fval (param_get al)) + 1)) * sqrt (IZR n / (1 - phi))).
Proof.
  intros be ext n al r G tau rho phi Hn Fa Ba So Ht s Fs Bs HG Ex Hphi Hr.
  split; [exact (laguerre_float_values ext n al r G tau rho phi Hn Fa Ba So Ht Fs Bs HG Ex Hphi Hr)|exact (laguerre_float_nodes ext n al r G tau rho phi Hn Fa Ba So Fs Bs Ex Hphi Hr)].
Qed.
