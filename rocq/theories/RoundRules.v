(** Rounding errors of integrate and par_integrate of the Gauss rules. *)
From Coq Require Import Reals ZArith List Lra Lia Psatz.
From Flocq Require Import Core Mult_error IEEE754.Binary.
From Verif Require Import Arith F64 F64Spec F64Proof RSum Machine Iter Rules Par Chebyshev Hermite Laguerre Legendre Jacobi
  IntegrateSpec IntegrateProof GaussSpec GaussProof RInstProof RoundSpec RoundProof.
Import ListNotations.
Local Open Scope R_scope.
Section F.
Variable be : Backend.
Notation A := (F64 be).
Lemma half_val : fval (@lit_half A) = / 2. Proof. apply half_exact. Qed.
Lemma rnd_format : forall x, generic_format radix2 (FLT_exp (-1074) 53) (rnd x).
Proof. intros x. unfold rnd. apply generic_format_round; [apply FLT_exp_valid; exact prec53|apply valid_rnd_N]. Qed.
Lemma half_err : forall x, generic_format radix2 (FLT_exp (-1074) 53) x -> Rabs (rnd (/ 2 * x) - / 2 * x) <= eta.
Proof.
  intros x F. pose proof eta_pos as T. destruct (Rlt_le_dec (Rabs (/ 2 * x)) (bpow radix2 (-1074 + 53))) as [L|L].
  - unfold rnd. eapply Rle_trans; [apply (error_le_half_ulp radix2 (FLT_exp (-1074) 53)); apply FLT_exp_valid; exact prec53|].
    rewrite ulp_FLT_small; [|exact prec53|exact L]. rewrite eta_half. lra.
  - assert (H : rnd (/ 2 * x) = / 2 * x).
    { unfold rnd. apply round_generic; [apply valid_rnd_N|]. rewrite Rmult_comm. replace (/ 2) with (bpow radix2 (-1)) by reflexivity.
      apply mult_bpow_exact_FLT; [exact F|]. assert (G : bpow radix2 (-1020) <= Rabs x).
      { rewrite Rabs_mult, (Rabs_pos_eq (/ 2)) in L by lra. replace (bpow radix2 (-1020)) with (2 * bpow radix2 (-1074 + 53)); [lra|].
        replace 2 with (bpow radix2 1) by reflexivity. rewrite <- bpow_plus. reflexivity. }
      apply mag_ge_bpow with (e := (-1019)%Z) in G. lia. }
    rewrite H, Rminus_diag_eq, Rabs_R0 by reflexivity. lra.
Qed.
Lemma two_close : forall x y c d, Rabs (x - c) <= d -> Rabs (y - c) <= d -> Rabs (x - y) <= 2 * d.
Proof. intros x y c d H1 H2. replace (x - y) with ((x - c) - (y - c)) by ring. eapply Rle_trans; [apply Rabs_triang|]. rewrite Rabs_Ropp. lra. Qed.
Lemma call_pure : forall (f : A -> A) l, fst (call_all (pure f) l tt) = map f l.
Proof. intros f l. rewrite call_all_pure. reflexivity. Qed.
Lemma par_length : forall (l : list (A * A)), length (combine (map fst l) (map snd l)) = length l.
Proof. intros l. rewrite combine_length, !map_length. apply Nat.min_id. Qed.
Lemma par_scaled_l : forall t (f : A -> A) (l : list (A * A)) (h : A),
  ffin (nmul h (par_sum t (fun '(x, w) => nmul (f x) w) l)) ->
  Rabs (fval (nmul h (par_sum t (fun '(x, w) => nmul (f x) w) l)) - fval h * exact_sum (map f (map fst l)) (map snd l)) <=
  scaled_bound (length l) (fval h) (abs_sum (map f (map fst l)) (map snd l)).
Proof.
  intros t f l h H. apply mul_finite_inv in H. destruct H as (_ & Hs & _ & E).
  apply (scale_err be h (par_sum t (fun '(x, w) => nmul (f x) w) l)); [exact E|apply exact_abs|apply par_weighted_err; assumption].
Qed.
Lemma par_scaled_r : forall t (f : A -> A) (l : list (A * A)) (h : A),
  ffin (nmul (par_sum t (fun '(x, w) => nmul (f x) w) l) h) ->
  Rabs (fval (nmul (par_sum t (fun '(x, w) => nmul (f x) w) l) h) - fval h * exact_sum (map f (map fst l)) (map snd l)) <=
  scaled_bound (length l) (fval h) (abs_sum (map f (map fst l)) (map snd l)).
Proof.
  intros t f l h H. apply mul_finite_inv in H. destruct H as (Hs & _ & _ & E).
  apply (scale_err be h (par_sum t (fun '(x, w) => nmul (f x) w) l)); [rewrite Rmult_comm; exact E|apply exact_abs|apply par_weighted_err; assumption].
Qed.
Lemma half_width_err : forall (a b : A), ffin (half_width a b) ->
  Rabs (fval (half_width a b) - (fval b - fval a) / 2) <= uro * (Rabs (fval b - fval a) / 2) + 2 * eta.
Proof.
  intros a b H. unfold half_width in *. apply mul_finite_inv in H. destruct H as (_ & Hs & _ & E).
  apply sub_finite_inv in Hs. destruct Hs as (_ & _ & _ & Es).
  refine (eq_ind_r (fun z => Rabs (z - _) <= _) _ E).
  assert (L : fval (@lit_half A) = / 2) by exact half_val.
  refine (eq_ind_r (fun z => Rabs (rnd (z * _) - _) <= _) _ L).
  refine (eq_ind_r (fun z => Rabs (rnd (_ * z) - _) <= _) _ Es).
  pose proof (half_err (rnd (fval b - fval a)) (rnd_format _)) as H1.
  assert (H2 : Rabs (rnd (fval b - fval a) - (fval b - fval a)) <= uro * Rabs (fval b - fval a)).
  { apply (rnd_add_err (fval b) (- fval a)); [apply fval_format|apply generic_format_opp, fval_format]. }
  set (x := rnd (fval b - fval a)) in *. set (y := fval b - fval a) in *.
  replace (rnd (/ 2 * x) - y / 2) with ((rnd (/ 2 * x) - / 2 * x) + / 2 * (x - y)) by field.
  eapply Rle_trans; [apply Rabs_triang|]. rewrite (Rabs_mult (/ 2)), (Rabs_pos_eq (/ 2)) by lra. pose proof eta_pos. lra.
Qed.

Lemma legendre_round : forall S (f : S -> A -> A * S) (r : GaussLegendre A) (a b : A) s,
  let vs := fst (call_all f (map (to_interval a b) (map fst (legendre_pairs r))) s) in
  let ws := map snd (legendre_pairs r) in let result := fst (legendre_integrate f r a b s) in
  ffin result -> Rabs (fval result - fval (half_width a b) * exact_sum vs ws) <= scaled_bound (length (legendre_pairs r)) (fval (half_width a b)) (abs_sum vs ws).
Proof.
  intros S f r a b s vs ws result. unfold result. rewrite legendre_calls. unfold vs, ws.
  pose proof (scaled_err_l be f (legendre_pairs r) (map (to_interval a b) (map fst (legendre_pairs r))) s (half_width a b)) as E. cbv zeta in E.
  destruct (call_all f (map (to_interval a b) (map fst (legendre_pairs r))) s) as [v s']. cbn [fst] in *. apply E. rewrite !map_length. reflexivity.
Qed.
Lemma legendre_par_round : forall t (f : A -> A) (r : GaussLegendre A) (a b : A),
  let vs := map f (map (to_interval a b) (map fst (legendre_pairs r))) in
  let ws := map snd (legendre_pairs r) in let result := legendre_par_integrate t f r a b in
  ffin result -> Rabs (fval result - fval (half_width a b) * exact_sum vs ws) <= scaled_bound (length (legendre_pairs r)) (fval (half_width a b)) (abs_sum vs ws).
Proof.
  intros t f r a b vs ws result. unfold vs, ws.
  pose proof (par_scaled_l t (fun x => f (to_interval a b x)) (legendre_pairs r) (half_width a b)) as E.
  rewrite <- (map_map (to_interval a b) f) in E. exact E.
Qed.
Lemma legendre_par_close : forall t (f : A -> A) (r : GaussLegendre A) (a b : A),
  let vs := map f (map (to_interval a b) (map fst (legendre_pairs r))) in let ws := map snd (legendre_pairs r) in
  let p := legendre_par_integrate t f r a b in let q := fst (legendre_integrate (pure f) r a b tt) in
  ffin p -> ffin q -> Rabs (fval p - fval q) <= 2 * scaled_bound (length (legendre_pairs r)) (fval (half_width a b)) (abs_sum vs ws).
Proof.
  intros t f r a b vs ws p q Hp Hq. apply (legendre_par_round t f r a b) in Hp. apply (legendre_round unit (pure f) r a b tt) in Hq.
  rewrite (call_pure f) in Hq. fold p in Hp. fold q in Hq. fold vs ws in Hp, Hq. exact (two_close _ _ _ _ Hp Hq).
Qed.

Lemma jacobi_round : forall S (f : S -> A -> A * S) (r : GaussJacobi A) (a b : A) s,
  let vs := fst (call_all f (map (to_interval a b) (map fst (jacobi_pairs r))) s) in
  let ws := map snd (jacobi_pairs r) in let result := fst (jacobi_integrate f r a b s) in
  ffin result -> Rabs (fval result - fval (half_width a b) * exact_sum vs ws) <= scaled_bound (length (jacobi_pairs r)) (fval (half_width a b)) (abs_sum vs ws).
Proof.
  intros S f r a b s vs ws result. unfold result. rewrite jacobi_calls. unfold vs, ws.
  pose proof (scaled_err_l be f (jacobi_pairs r) (map (to_interval a b) (map fst (jacobi_pairs r))) s (half_width a b)) as E. cbv zeta in E.
  destruct (call_all f (map (to_interval a b) (map fst (jacobi_pairs r))) s) as [v s']. cbn [fst] in *. apply E. rewrite !map_length. reflexivity.
Qed.
Lemma jacobi_par_round : forall t (f : A -> A) (r : GaussJacobi A) (a b : A),
  let vs := map f (map (to_interval a b) (map fst (jacobi_pairs r))) in
  let ws := map snd (jacobi_pairs r) in let result := jacobi_par_integrate t f r a b in
  ffin result -> Rabs (fval result - fval (half_width a b) * exact_sum vs ws) <= scaled_bound (length (jacobi_pairs r)) (fval (half_width a b)) (abs_sum vs ws).
Proof.
  intros t f r a b vs ws result. unfold vs, ws.
  pose proof (par_scaled_l t (fun x => f (to_interval a b x)) (jacobi_pairs r) (half_width a b)) as E.
  rewrite <- (map_map (to_interval a b) f) in E. exact E.
Qed.
Lemma jacobi_par_close : forall t (f : A -> A) (r : GaussJacobi A) (a b : A),
  let vs := map f (map (to_interval a b) (map fst (jacobi_pairs r))) in let ws := map snd (jacobi_pairs r) in
  let p := jacobi_par_integrate t f r a b in let q := fst (jacobi_integrate (pure f) r a b tt) in
  ffin p -> ffin q -> Rabs (fval p - fval q) <= 2 * scaled_bound (length (jacobi_pairs r)) (fval (half_width a b)) (abs_sum vs ws).
Proof.
  intros t f r a b vs ws p q Hp Hq. apply (jacobi_par_round t f r a b) in Hp. apply (jacobi_round unit (pure f) r a b tt) in Hq.
  rewrite (call_pure f) in Hq. fold p in Hp. fold q in Hq. fold vs ws in Hp, Hq. exact (two_close _ _ _ _ Hp Hq).
Qed.

Lemma chebyshev1_round : forall S (f : S -> A -> A * S) (r : GaussChebyshevFirstKind A) (a b : A) s,
  let vs := fst (call_all f (map (to_interval a b) (map fst (chebyshev1_pairs r))) s) in
  let ws := map snd (chebyshev1_pairs r) in let result := fst (chebyshev1_integrate f r a b s) in
  ffin result -> Rabs (fval result - fval (half_width a b) * exact_sum vs ws) <= scaled_bound (length (chebyshev1_pairs r)) (fval (half_width a b)) (abs_sum vs ws).
Proof.
  intros S f r a b s vs ws result. unfold result. rewrite chebyshev1_calls. unfold vs, ws.
  pose proof (scaled_err_r be f (chebyshev1_pairs r) (map (to_interval a b) (map fst (chebyshev1_pairs r))) s (half_width a b)) as E. cbv zeta in E.
  destruct (call_all f (map (to_interval a b) (map fst (chebyshev1_pairs r))) s) as [v s']. cbn [fst] in *. apply E. rewrite !map_length. reflexivity.
Qed.
Lemma chebyshev1_par_round : forall t (f : A -> A) (r : GaussChebyshevFirstKind A) (a b : A),
  let vs := map f (map (to_interval a b) (map fst (chebyshev1_pairs r))) in
  let ws := map snd (chebyshev1_pairs r) in let result := chebyshev1_par_integrate t f r a b in
  ffin result -> Rabs (fval result - fval (half_width a b) * exact_sum vs ws) <= scaled_bound (length (chebyshev1_pairs r)) (fval (half_width a b)) (abs_sum vs ws).
Proof.
  intros t f r a b vs ws result. unfold vs, ws.
  pose proof (par_scaled_r t (fun x => f (to_interval a b x)) (chebyshev1_pairs r) (half_width a b)) as E.
  rewrite <- (map_map (to_interval a b) f) in E. exact E.
Qed.
Lemma chebyshev1_par_close : forall t (f : A -> A) (r : GaussChebyshevFirstKind A) (a b : A),
  let vs := map f (map (to_interval a b) (map fst (chebyshev1_pairs r))) in let ws := map snd (chebyshev1_pairs r) in
  let p := chebyshev1_par_integrate t f r a b in let q := fst (chebyshev1_integrate (pure f) r a b tt) in
  ffin p -> ffin q -> Rabs (fval p - fval q) <= 2 * scaled_bound (length (chebyshev1_pairs r)) (fval (half_width a b)) (abs_sum vs ws).
Proof.
  intros t f r a b vs ws p q Hp Hq. apply (chebyshev1_par_round t f r a b) in Hp. apply (chebyshev1_round unit (pure f) r a b tt) in Hq.
  rewrite (call_pure f) in Hq. fold p in Hp. fold q in Hq. fold vs ws in Hp, Hq. exact (two_close _ _ _ _ Hp Hq).
Qed.

Lemma chebyshev2_round : forall S (f : S -> A -> A * S) (r : GaussChebyshevSecondKind A) (a b : A) s,
  let vs := fst (call_all f (map (to_interval a b) (map fst (chebyshev2_pairs r))) s) in
  let ws := map snd (chebyshev2_pairs r) in let result := fst (chebyshev2_integrate f r a b s) in
  ffin result -> Rabs (fval result - fval (half_width a b) * exact_sum vs ws) <= scaled_bound (length (chebyshev2_pairs r)) (fval (half_width a b)) (abs_sum vs ws).
Proof.
  intros S f r a b s vs ws result. unfold result. rewrite chebyshev2_calls. unfold vs, ws.
  pose proof (scaled_err_r be f (chebyshev2_pairs r) (map (to_interval a b) (map fst (chebyshev2_pairs r))) s (half_width a b)) as E. cbv zeta in E.
  destruct (call_all f (map (to_interval a b) (map fst (chebyshev2_pairs r))) s) as [v s']. cbn [fst] in *. apply E. rewrite !map_length. reflexivity.
Qed.
Lemma chebyshev2_par_round : forall t (f : A -> A) (r : GaussChebyshevSecondKind A) (a b : A),
  let vs := map f (map (to_interval a b) (map fst (chebyshev2_pairs r))) in
  let ws := map snd (chebyshev2_pairs r) in let result := chebyshev2_par_integrate t f r a b in
  ffin result -> Rabs (fval result - fval (half_width a b) * exact_sum vs ws) <= scaled_bound (length (chebyshev2_pairs r)) (fval (half_width a b)) (abs_sum vs ws).
Proof.
  intros t f r a b vs ws result. unfold vs, ws.
  pose proof (par_scaled_r t (fun x => f (to_interval a b x)) (chebyshev2_pairs r) (half_width a b)) as E.
  rewrite <- (map_map (to_interval a b) f) in E. exact E.
Qed.
Lemma chebyshev2_par_close : forall t (f : A -> A) (r : GaussChebyshevSecondKind A) (a b : A),
  let vs := map f (map (to_interval a b) (map fst (chebyshev2_pairs r))) in let ws := map snd (chebyshev2_pairs r) in
  let p := chebyshev2_par_integrate t f r a b in let q := fst (chebyshev2_integrate (pure f) r a b tt) in
  ffin p -> ffin q -> Rabs (fval p - fval q) <= 2 * scaled_bound (length (chebyshev2_pairs r)) (fval (half_width a b)) (abs_sum vs ws).
Proof.
  intros t f r a b vs ws p q Hp Hq. apply (chebyshev2_par_round t f r a b) in Hp. apply (chebyshev2_round unit (pure f) r a b tt) in Hq.
  rewrite (call_pure f) in Hq. fold p in Hp. fold q in Hq. fold vs ws in Hp, Hq. exact (two_close _ _ _ _ Hp Hq).
Qed.

Lemma hermite_round : forall S (f : S -> A -> A * S) (r : GaussHermite A) s,
  let vs := fst (call_all f (map fst (hermite_pairs r)) s) in
  let ws := map snd (hermite_pairs r) in let result := fst (hermite_integrate f r s) in
  ffin result -> Rabs (fval result - exact_sum vs ws) <= sum_bound (length (hermite_pairs r)) (abs_sum vs ws).
Proof.
  intros S f r s vs ws result. unfold result. rewrite hermite_calls. unfold vs, ws.
  pose proof (plain_err be f (hermite_pairs r) (map fst (hermite_pairs r)) s) as E. cbv zeta in E.
  destruct (call_all f (map fst (hermite_pairs r)) s) as [v s']. cbn [fst] in *. apply E. rewrite !map_length. reflexivity.
Qed.
Lemma hermite_par_round : forall t (f : A -> A) (r : GaussHermite A),
  let vs := map f (map fst (hermite_pairs r)) in
  let ws := map snd (hermite_pairs r) in let result := hermite_par_integrate t f r in
  ffin result -> Rabs (fval result - exact_sum vs ws) <= sum_bound (length (hermite_pairs r)) (abs_sum vs ws).
Proof. intros t f r. exact (par_weighted_err be t f (hermite_pairs r)). Qed.
Lemma hermite_par_close : forall t (f : A -> A) (r : GaussHermite A),
  let vs := map f (map fst (hermite_pairs r)) in let ws := map snd (hermite_pairs r) in
  let p := hermite_par_integrate t f r in let q := fst (hermite_integrate (pure f) r tt) in
  ffin p -> ffin q -> Rabs (fval p - fval q) <= 2 * sum_bound (length (hermite_pairs r)) (abs_sum vs ws).
Proof.
  intros t f r vs ws p q Hp Hq. apply (hermite_par_round t f r) in Hp. apply (hermite_round unit (pure f) r tt) in Hq.
  rewrite (call_pure f) in Hq. fold p in Hp. fold q in Hq. fold vs ws in Hp, Hq. exact (two_close _ _ _ _ Hp Hq).
Qed.

Lemma laguerre_round : forall S (f : S -> A -> A * S) (r : GaussLaguerre A) s,
  let vs := fst (call_all f (map fst (laguerre_pairs r)) s) in
  let ws := map snd (laguerre_pairs r) in let result := fst (laguerre_integrate f r s) in
  ffin result -> Rabs (fval result - exact_sum vs ws) <= sum_bound (length (laguerre_pairs r)) (abs_sum vs ws).
Proof.
  intros S f r s vs ws result. unfold result. rewrite laguerre_calls. unfold vs, ws.
  pose proof (plain_err be f (laguerre_pairs r) (map fst (laguerre_pairs r)) s) as E. cbv zeta in E.
  destruct (call_all f (map fst (laguerre_pairs r)) s) as [v s']. cbn [fst] in *. apply E. rewrite !map_length. reflexivity.
Qed.
Lemma laguerre_par_round : forall t (f : A -> A) (r : GaussLaguerre A),
  let vs := map f (map fst (laguerre_pairs r)) in
  let ws := map snd (laguerre_pairs r) in let result := laguerre_par_integrate t f r in
  ffin result -> Rabs (fval result - exact_sum vs ws) <= sum_bound (length (laguerre_pairs r)) (abs_sum vs ws).
Proof. intros t f r. exact (par_weighted_err be t f (laguerre_pairs r)). Qed.
Lemma laguerre_par_close : forall t (f : A -> A) (r : GaussLaguerre A),
  let vs := map f (map fst (laguerre_pairs r)) in let ws := map snd (laguerre_pairs r) in
  let p := laguerre_par_integrate t f r in let q := fst (laguerre_integrate (pure f) r tt) in
  ffin p -> ffin q -> Rabs (fval p - fval q) <= 2 * sum_bound (length (laguerre_pairs r)) (abs_sum vs ws).
Proof.
  intros t f r vs ws p q Hp Hq. apply (laguerre_par_round t f r) in Hp. apply (laguerre_round unit (pure f) r tt) in Hq.
  rewrite (call_pure f) in Hq. fold p in Hp. fold q in Hq. fold vs ws in Hp, Hq. exact (two_close _ _ _ _ Hp Hq).
Qed.

End F.
