(** Finite results of the Gauss rules. *)
From Coq Require Import Reals ZArith List Lra Lia.
From Flocq Require Import Core.
From Verif Require Import Arith F64 F64Spec Machine Rules Par Chebyshev Hermite Laguerre Legendre Jacobi IntegrateProof GaussProof
  IntegrateSpec GaussSpec RSum RoundSpec F64Proof RoundProof RoundRules RoundNC AccF64 TrigSpec GaussFloat FinSpec Finite.
Import ListNotations.
Local Open Scope R_scope.

Section F.
Variable be : Backend.
Notation A := (F64 be).

Lemma forall_combine : forall vs ws : list f64, Forall ffin vs -> Forall ffin ws -> Forall (fun vw : f64 * f64 => ffin (fst vw) /\ ffin (snd vw)) (combine vs ws).
Proof.
  induction vs as [|v vs IH]; intros ws H1 H2; [constructor|]. destruct ws as [|w ws]; [constructor|]. inversion H1; subst. inversion H2; subst.
  cbn [combine]. constructor; [split; assumption|]. apply IH; assumption.
Qed.
Lemma weighted_fin : forall vs ws : list A, moderate vs ws ->
  ffin (weighted_sum vs ws : A) /\ Rabs (fval (weighted_sum vs ws : A)) <= 2 * abs_sum vs ws + bpow radix2 (-1030).
Proof.
  intros vs ws (HL & HV & HW & HS). apply (product_sum_fin be (combine vs ws) (weighted_sum vs ws)); [apply float_fin_ok|apply float_sum_ok| |apply forall_combine; assumption|exact HS].
  rewrite combine_length. eapply Rle_trans; [|exact HL]. apply le_INR. apply Nat.le_min_l.
Qed.
Lemma par_weighted_fin : forall t (f : A -> A) (l : list (A * A)), moderate (map f (map fst l)) (map snd l) ->
  ffin (par_sum t (fun '(x, w) => nmul (f x) w) l : A) /\ Rabs (fval (par_sum t (fun '(x, w) => nmul (f x) w) l : A)) <= 2 * abs_sum (map f (map fst l)) (map snd l) + bpow radix2 (-1030).
Proof.
  intros t f l (HL & HV & HW & HS).
  assert (C : @combine f64 f64 (map f (map fst l)) (map snd l) = map (fun xw : A * A => (f (fst xw), snd xw)) l).
  { clear. induction l as [|[x w] l IH]; [reflexivity|]. cbn [map combine fst snd]. refine (f_equal (cons (f x, w)) IH). }
  assert (M : map (fun '(x, w) => nmul (f x) w : A) l = map (fun vw : A * A => nmul (fst vw) (snd vw) : A) (@combine f64 f64 (map f (map fst l)) (map snd l))).
  { refine (eq_trans _ (f_equal (map (fun vw : A * A => nmul (fst vw) (snd vw) : A)) (eq_sym C))). rewrite map_map. apply map_ext. intros [x w]. reflexivity. }
  pose proof (par_fin_ok be _ (fun '(x, w) => nmul (f x) w : A) t l) as FO. pose proof (par_sum_ok be _ (fun '(x, w) => nmul (f x) w : A) t l) as SO. rewrite M in FO, SO.
  apply (product_sum_fin be _ _ FO SO); [|apply forall_combine; assumption|exact HS].
  rewrite combine_length. eapply Rle_trans; [|exact HL]. apply le_INR. apply Nat.le_min_l.
Qed.

Lemma abs_sum_pos : forall vs ws : list f64, 0 <= abs_sum vs ws.
Proof. intros. eapply Rle_trans; [apply Rabs_pos|apply exact_abs]. Qed.
Lemma scale_fin : forall (a b s : A) S, room a b S -> 0 <= S <= bpow radix2 1000 -> ffin s -> Rabs (fval s) <= 2 * S + bpow radix2 (-1030) ->
  ffin (half_width a b) /\ Rabs (fval (half_width a b) * fval s) <= top.
Proof.
  intros a b s S ((Fa & Fb & Ba & Bb) & HS) S0 Fs Hs. pose proof (half_float be a b Fa Fb Ba Bb) as FH. split; [exact FH|].
  pose proof (half_width_err be a b FH) as HW. set (h := fval (half_width a b)) in *. set (D := Rabs (fval b - fval a)) in *. pose proof uro_num as U. pose proof eta_pos as E.
  assert (D0 : 0 <= D) by apply Rabs_pos. assert (DB : D <= 2 * bpow radix2 1000). { unfold D. apply Rabs_le. pose proof (Rle_abs (fval a)). pose proof (Rle_abs (fval b)). pose proof (Rle_abs (- fval a)). pose proof (Rle_abs (- fval b)). rewrite Rabs_Ropp in *. lra. }
  assert (H : Rabs h <= D + 2 * eta).
  { replace h with ((h - (fval b - fval a) / 2) + (fval b - fval a) / 2) by ring. eapply Rle_trans; [apply Rabs_triang|].
    assert (X : Rabs ((fval b - fval a) / 2) = D / 2) by (unfold Rdiv; rewrite Rabs_mult, (Rabs_pos_eq (/ 2)) by lra; reflexivity). rewrite X.
    assert (uro * (D / 2) <= D / 2) by (rewrite <- (Rmult_1_l (D / 2)) at 2; apply Rmult_le_compat_r; lra). lra. }
  rewrite Rabs_mult. set (z := bpow radix2 (-1030)) in *. assert (Z0 : 0 <= z) by apply bpow_ge_0.
  apply Rle_trans with ((D + 2 * eta) * (2 * S + z)); [apply Rmult_le_compat; try apply Rabs_pos; assumption|].
  assert (X1 : D * z <= 1). { apply Rle_trans with (2 * bpow radix2 1000 * z); [apply Rmult_le_compat_r; assumption|]. unfold z. rewrite Rmult_assoc, <- bpow_plus. change (1000 + -1030)%Z with (-30)%Z. 
    assert (bpow radix2 (-30) <= / 2) by (change (/ 2) with (bpow radix2 (-1)); apply bpow_le; lia). lra. }
  assert (E1 : 2 * eta <= 1). { unfold eta. assert (bpow radix2 (-1075) <= / 2) by (change (/ 2) with (bpow radix2 (-1)); apply bpow_le; lia). lra. }
  assert (Z1 : z <= 1) by (unfold z; change 1 with (bpow radix2 0); apply bpow_le; lia).
  assert (K1 : 1 <= bpow radix2 1000) by (change 1 with (bpow radix2 0); apply bpow_le; lia). pose proof ten_kilo as TK.
  assert (X2 : 2 * eta * z <= 1) by (replace 1 with (1 * 1) by ring; apply Rmult_le_compat; lra).
  assert (SB : S * eta <= S) by (rewrite <- (Rmult_1_r S) at 2; apply Rmult_le_compat_l; lra).
  lra.
Qed.

Lemma legendre_fin : forall S (f : S -> A -> A * S) (r : GaussLegendre A) (a b : A) s,
  let vs := fst (call_all f (map (to_interval a b) (map fst (legendre_pairs r))) s) in
  let ws := map snd (legendre_pairs r) in
  moderate vs ws -> room a b (abs_sum vs ws) -> ffin (fst (legendre_integrate f r a b s)).
Proof.
  intros S f r a b s vs ws HM HR. rewrite legendre_calls. fold ws.
  assert (E : fst (let '(vs0, s') := call_all f (map (to_interval a b) (map fst (legendre_pairs r))) s in (nmul (half_width a b) (weighted_sum vs0 ws), s')) = nmul (half_width a b) (weighted_sum vs ws)).
  { unfold vs. destruct (call_all f (map (to_interval a b) (map fst (legendre_pairs r))) s) as [v s']. reflexivity. }
  rewrite E. clear E. clearbody vs ws. destruct (weighted_fin vs ws HM) as [F B]. destruct (scale_fin a b _ _ HR (conj (abs_sum_pos vs ws) (proj2 (proj2 (proj2 HM)))) F B) as [FH P].
  apply fin_mul; assumption || (rewrite Rmult_comm; assumption).
Qed.
Lemma legendre_par_fin : forall t (f : A -> A) (r : GaussLegendre A) (a b : A),
  let vs := map f (map (to_interval a b) (map fst (legendre_pairs r))) in
  let ws := map snd (legendre_pairs r) in
  moderate vs ws -> room a b (abs_sum vs ws) -> ffin (legendre_par_integrate t f r a b).
Proof.
  intros t f r a b vs ws HM HR. pose proof (par_weighted_fin t (fun x => f (to_interval a b x)) (legendre_pairs r)) as E.
  rewrite <- (map_map (to_interval a b) f) in E. destruct (E HM) as [F B]. clear E. destruct (scale_fin a b _ _ HR (conj (abs_sum_pos vs ws) (proj2 (proj2 (proj2 HM)))) F B) as [FH P].
  apply fin_mul; assumption || (rewrite Rmult_comm; assumption).
Qed.

Lemma jacobi_fin : forall S (f : S -> A -> A * S) (r : GaussJacobi A) (a b : A) s,
  let vs := fst (call_all f (map (to_interval a b) (map fst (jacobi_pairs r))) s) in
  let ws := map snd (jacobi_pairs r) in
  moderate vs ws -> room a b (abs_sum vs ws) -> ffin (fst (jacobi_integrate f r a b s)).
Proof.
  intros S f r a b s vs ws HM HR. rewrite jacobi_calls. fold ws.
  assert (E : fst (let '(vs0, s') := call_all f (map (to_interval a b) (map fst (jacobi_pairs r))) s in (nmul (half_width a b) (weighted_sum vs0 ws), s')) = nmul (half_width a b) (weighted_sum vs ws)).
  { unfold vs. destruct (call_all f (map (to_interval a b) (map fst (jacobi_pairs r))) s) as [v s']. reflexivity. }
  rewrite E. clear E. clearbody vs ws. destruct (weighted_fin vs ws HM) as [F B]. destruct (scale_fin a b _ _ HR (conj (abs_sum_pos vs ws) (proj2 (proj2 (proj2 HM)))) F B) as [FH P].
  apply fin_mul; assumption || (rewrite Rmult_comm; assumption).
Qed.
Lemma jacobi_par_fin : forall t (f : A -> A) (r : GaussJacobi A) (a b : A),
  let vs := map f (map (to_interval a b) (map fst (jacobi_pairs r))) in
  let ws := map snd (jacobi_pairs r) in
  moderate vs ws -> room a b (abs_sum vs ws) -> ffin (jacobi_par_integrate t f r a b).
Proof.
  intros t f r a b vs ws HM HR. pose proof (par_weighted_fin t (fun x => f (to_interval a b x)) (jacobi_pairs r)) as E.
  rewrite <- (map_map (to_interval a b) f) in E. destruct (E HM) as [F B]. clear E. destruct (scale_fin a b _ _ HR (conj (abs_sum_pos vs ws) (proj2 (proj2 (proj2 HM)))) F B) as [FH P].
  apply fin_mul; assumption || (rewrite Rmult_comm; assumption).
Qed.

Lemma chebyshev1_fin : forall S (f : S -> A -> A * S) (r : GaussChebyshevFirstKind A) (a b : A) s,
  let vs := fst (call_all f (map (to_interval a b) (map fst (chebyshev1_pairs r))) s) in
  let ws := map snd (chebyshev1_pairs r) in
  moderate vs ws -> room a b (abs_sum vs ws) -> ffin (fst (chebyshev1_integrate f r a b s)).
Proof.
  intros S f r a b s vs ws HM HR. rewrite chebyshev1_calls. fold ws.
  assert (E : fst (let '(vs0, s') := call_all f (map (to_interval a b) (map fst (chebyshev1_pairs r))) s in (nmul (weighted_sum vs0 ws) (half_width a b), s')) = nmul (weighted_sum vs ws) (half_width a b)).
  { unfold vs. destruct (call_all f (map (to_interval a b) (map fst (chebyshev1_pairs r))) s) as [v s']. reflexivity. }
  rewrite E. clear E. clearbody vs ws. destruct (weighted_fin vs ws HM) as [F B]. destruct (scale_fin a b _ _ HR (conj (abs_sum_pos vs ws) (proj2 (proj2 (proj2 HM)))) F B) as [FH P].
  apply fin_mul; assumption || (rewrite Rmult_comm; assumption).
Qed.
Lemma chebyshev1_par_fin : forall t (f : A -> A) (r : GaussChebyshevFirstKind A) (a b : A),
  let vs := map f (map (to_interval a b) (map fst (chebyshev1_pairs r))) in
  let ws := map snd (chebyshev1_pairs r) in
  moderate vs ws -> room a b (abs_sum vs ws) -> ffin (chebyshev1_par_integrate t f r a b).
Proof.
  intros t f r a b vs ws HM HR. pose proof (par_weighted_fin t (fun x => f (to_interval a b x)) (chebyshev1_pairs r)) as E.
  rewrite <- (map_map (to_interval a b) f) in E. destruct (E HM) as [F B]. clear E. destruct (scale_fin a b _ _ HR (conj (abs_sum_pos vs ws) (proj2 (proj2 (proj2 HM)))) F B) as [FH P].
  apply fin_mul; assumption || (rewrite Rmult_comm; assumption).
Qed.

Lemma chebyshev2_fin : forall S (f : S -> A -> A * S) (r : GaussChebyshevSecondKind A) (a b : A) s,
  let vs := fst (call_all f (map (to_interval a b) (map fst (chebyshev2_pairs r))) s) in
  let ws := map snd (chebyshev2_pairs r) in
  moderate vs ws -> room a b (abs_sum vs ws) -> ffin (fst (chebyshev2_integrate f r a b s)).
Proof.
  intros S f r a b s vs ws HM HR. rewrite chebyshev2_calls. fold ws.
  assert (E : fst (let '(vs0, s') := call_all f (map (to_interval a b) (map fst (chebyshev2_pairs r))) s in (nmul (weighted_sum vs0 ws) (half_width a b), s')) = nmul (weighted_sum vs ws) (half_width a b)).
  { unfold vs. destruct (call_all f (map (to_interval a b) (map fst (chebyshev2_pairs r))) s) as [v s']. reflexivity. }
  rewrite E. clear E. clearbody vs ws. destruct (weighted_fin vs ws HM) as [F B]. destruct (scale_fin a b _ _ HR (conj (abs_sum_pos vs ws) (proj2 (proj2 (proj2 HM)))) F B) as [FH P].
  apply fin_mul; assumption || (rewrite Rmult_comm; assumption).
Qed.
Lemma chebyshev2_par_fin : forall t (f : A -> A) (r : GaussChebyshevSecondKind A) (a b : A),
  let vs := map f (map (to_interval a b) (map fst (chebyshev2_pairs r))) in
  let ws := map snd (chebyshev2_pairs r) in
  moderate vs ws -> room a b (abs_sum vs ws) -> ffin (chebyshev2_par_integrate t f r a b).
Proof.
  intros t f r a b vs ws HM HR. pose proof (par_weighted_fin t (fun x => f (to_interval a b x)) (chebyshev2_pairs r)) as E.
  rewrite <- (map_map (to_interval a b) f) in E. destruct (E HM) as [F B]. clear E. destruct (scale_fin a b _ _ HR (conj (abs_sum_pos vs ws) (proj2 (proj2 (proj2 HM)))) F B) as [FH P].
  apply fin_mul; assumption || (rewrite Rmult_comm; assumption).
Qed.

Lemma hermite_fin : forall S (f : S -> A -> A * S) (r : GaussHermite A) s,
  let vs := fst (call_all f (map fst (hermite_pairs r)) s) in
  moderate vs (map snd (hermite_pairs r)) -> ffin (fst (hermite_integrate f r s)).
Proof.
  intros S f r s vs HM. rewrite hermite_calls. unfold vs in HM. clear vs. destruct (call_all f (map fst (hermite_pairs r)) s) as [v s']. cbn [fst] in *.
  apply (weighted_fin _ _ HM).
Qed.
Lemma hermite_par_fin : forall t (f : A -> A) (r : GaussHermite A),
  moderate (map f (map fst (hermite_pairs r))) (map snd (hermite_pairs r)) -> ffin (hermite_par_integrate t f r).
Proof. intros t f r HM. apply (par_weighted_fin t f (hermite_pairs r) HM). Qed.

Lemma laguerre_fin : forall S (f : S -> A -> A * S) (r : GaussLaguerre A) s,
  let vs := fst (call_all f (map fst (laguerre_pairs r)) s) in
  moderate vs (map snd (laguerre_pairs r)) -> ffin (fst (laguerre_integrate f r s)).
Proof.
  intros S f r s vs HM. rewrite laguerre_calls. unfold vs in HM. clear vs. destruct (call_all f (map fst (laguerre_pairs r)) s) as [v s']. cbn [fst] in *.
  apply (weighted_fin _ _ HM).
Qed.
Lemma laguerre_par_fin : forall t (f : A -> A) (r : GaussLaguerre A),
  moderate (map f (map fst (laguerre_pairs r))) (map snd (laguerre_pairs r)) -> ffin (laguerre_par_integrate t f r).
Proof. intros t f r HM. apply (par_weighted_fin t f (laguerre_pairs r) HM). Qed.
End F.
