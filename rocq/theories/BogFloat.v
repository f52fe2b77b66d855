(** Gauss-Legendre rules of more than 100 points: smooth and continuous integrands, and double arithmetic. *)
From Coq Require Import Reals ZArith List Lra Lia.
From Coquelicot Require Import Coquelicot.
From Flocq Require Import Core.
From Verif Require Import Arith RInst F64 F64Spec Machine Rules Par LegendreData Legendre IntegrateSpec GaussSpec RSum PolySpec PolyProof RoundSpec RuleSpec ErrorSpec GaussProof GaussErr TransferSpec TransferProof SizeProof
  LegAsym LegSym LegShape LegInt LegConv Gaussian ErrRules ErrLeg ErrConv ErrCheb TrigSpec LegFloat GaussFloat GaussFloatRules LegBigRule GaussRuleSpec BogRule BogUse.
Import ListNotations.
Local Open Scope R_scope.

Section N.
Variables (t : Target) (n : nat) (r : GaussLegendre RA).
Hypothesis Hu : (100 <= usize_max t)%Z.
Hypothesis Hn : (100 < n)%nat.
Hypothesis H2n : (2 * Z.of_nat n <= usize_max t)%Z.
Hypothesis Hr : legendre_new t (Z.of_nat n) = Ok r.
Lemma big_pulled_any : forall a b (f p : R -> R) M E, a <> b -> polynomial (2 * n - 1) p -> ex_RInt f a b ->
  (forall x, closed_between a b x -> Rabs (f x) <= M) -> (forall x, -1 <= x <= 1 -> Rabs (pulled a b f x - p x) <= E) ->
  Rabs (legendre_value r a b f - RInt f a b) <= (105 / 10 ^ 14 * M + 5 * E) * (Rabs (b - a) / 2).
Proof.
  intros a b f p M E Nab Hp Hf HM HE.
  apply (big_any t n r Hu Hn H2n Hr a b f (fun x => p (to_unit a b x)) M E); [apply poly_to_unit; assumption|exact Hf|exact HM|].
  intros x Hx. rewrite <- (pulled_back a b f x Nab). apply HE, to_unit_closed; assumption.
Qed.
Theorem big_modulus : forall a b f M delta omega, a <> b -> ex_RInt f a b -> (forall x, closed_between a b x -> Rabs (f x) <= M) ->
  0 < delta -> oscillation a b f delta omega ->
  Rabs (legendre_value r a b f - RInt f a b) <=
    (105 / 10 ^ 14 * M + 5 * ((1 + (b - a) * (b - a) / (4 * INR (2 * n - 1) * (delta * delta))) * omega)) * (Rabs (b - a) / 2).
Proof.
  intros a b f M de om E Hf HM Hde Ho.
  destruct (interval_bernstein a b f de om (2 * n - 1) E ltac:(lia) Hde Ho) as (p & Hp & B).
  apply (big_pulled_any a b f p); assumption.
Qed.
Theorem big_derivatives : forall a b (F : nat -> R -> R) M0 M, a <> b -> has_derivatives (closed_between a b) (2 * n) F ->
  (forall x, closed_between a b x -> Rabs (F O x) <= M0) -> (forall x, closed_between a b x -> Rabs (F (2 * n)%nat x) <= M) ->
  Rabs (legendre_value r a b (F O) - RInt (F O) a b) <=
    (105 / 10 ^ 14 * M0 + 20 * M * (Rabs (b - a) / 4) ^ (2 * n) / INR (fact (2 * n))) * (Rabs (b - a) / 2).
Proof.
  intros a b F M0 M E HF H0 HM. set (h := (b - a) / 2).
  destruct (chebyshev_interpolant n (fun i x => h ^ i * pulled a b (F i) x) (M * Rabs h ^ (2 * n)) ltac:(lia)) as (p & Hp & B).
  - intros i x Hi Hx. unfold pulled. fold h.
    apply (is_derive_val _ _ (h ^ i * (h * F (S i) (h * x + (a + b) / 2)))); [simpl; ring|].
    apply (is_derive_scal (fun x => F i (h * x + (a + b) / 2))).
    apply (is_derive_comp (F i) (fun x => h * x + (a + b) / 2) x).
    + apply HF; [exact Hi|]. apply closed_pull, Hx.
    + auto_derive; [exact I|]. ring.
  - intros x Hx. rewrite Rabs_mult, RPow_abs, Rmult_comm. apply Rmult_le_compat_r; [apply Rabs_pos|]. apply HM, closed_pull, Hx.
  - assert (Fi : ex_RInt (F O) a b).
    { apply (ex_RInt_continuous (V := R_CompleteNormedModule)). intros x Hx. apply (ex_derive_continuous (V := R_NormedModule)).
      exists (F 1%nat x). apply HF; [lia|exact Hx]. }
    assert (P := big_pulled_any a b (F O) p M0 (M * Rabs h ^ (2 * n) / INR (fact (2 * n)) * (4 / 4 ^ n)) E Hp Fi H0).
    eapply Rle_trans; [apply P|].
    + intros x Hx. assert (Bx := B x Hx). simpl (h ^ 0) in Bx. rewrite Rmult_1_l in Bx. exact Bx.
    + right. f_equal. f_equal.
      replace (Rabs (b - a) / 4) with (Rabs h * / 2) by (unfold h, Rdiv; rewrite Rabs_mult, (Rabs_right (/ 2)) by lra; field).
      rewrite Rpow_mult_distr. rewrite (pow_mult (/ 2) 2 n). replace ((/ 2) ^ 2) with (/ 4) by (simpl; field). rewrite <- Rinv_pow by lra.
      assert (Q : 4 ^ n <> 0) by (apply pow_nonzero; lra). assert (K := INR_fact_neq_0 (2 * n)).
      set (z := Rabs h ^ (2 * n)). set (u := 4 ^ n) in *. set (k := INR (fact (2 * n))) in *. clearbody z u k. field. split; assumption.
Qed.
End N.

Section F.
Variable be : Backend.
Notation A := (F64 be).
Variable kappa : R.
Hypothesis HT : accurate_trig be kappa.

Definition near_gauss (dx dw e : R) (p : A * A) (q : R * R) : Prop :=
  (ffin (fst p) /\ Rabs (fval (fst p) - fst q) <= dx) /\ (ffin (snd p) /\ Rabs (fval (snd p) - snd q) <= dw + e * snd q).
Lemma two_steps : forall a b c u v, Rabs (a - b) <= u -> Rabs (b - c) <= v -> Rabs (a - c) <= u + v.
Proof. intros a b c u v H1 H2. replace (a - c) with ((a - b) + (b - c)) by ring. eapply Rle_trans; [apply Rabs_triang|]. lra. Qed.
Lemma chain : forall dx dw d e (ps : list (A * A)) (qs l : list (R * R)),
  close_pairs dx dw ps qs -> Forall2 (fun p q : R * R => Rabs (fst p - fst q) <= d /\ Rabs (snd p - snd q) <= e * snd q) qs l ->
  Forall2 (near_gauss (dx + d) dw e) ps l.
Proof.
  intros dx dw d e ps qs l C. revert l. induction C as [|p q ps qs ((F1 & D1) & F2 & D2) _ IH]; intros l H; inversion H as [|q' m qs' l' [E1 E2] H']; subst; constructor.
  - split; (split; [assumption|]).
    + exact (two_steps _ _ _ _ _ D1 E1).
    + exact (two_steps _ _ _ _ _ D2 E2).
  - apply IH. assumption.
Qed.
Lemma big_gauss_close : forall t (n : nat) (r : GaussLegendre A), (100 <= usize_max t)%Z -> (100 < n)%nat -> (Z.of_nat n <= 2 ^ 40)%Z -> (2 * Z.of_nat n <= usize_max t)%Z ->
  legendre_new t (Z.of_nat n) = Ok r -> forall l, gauss_rule n l ->
  Forall2 (fun p q => (ffin (fst p) /\ Rabs (fval (fst p) - fst q) <= 102 / 100 * kappa + 4 / 10 ^ 15) /\
    (ffin (snd p) /\ Rabs (fval (snd p) - snd q) <= (2 / 10 ^ 14 + 5 * kappa) / INR n + 24 / 10 ^ 14 * snd q)) (legendre_pairs r) l.
Proof.
  intros t n r Hu Hn Hn2 H2 Hr l G. destruct (legendre_new_ok (A := RA) t (Z.of_nat n) Hu ltac:(lia) H2) as (q & Hq & _).
  pose proof (big_rule_close be kappa HT t n r q Hu Hn Hn2 H2 Hr Hq) as C. pose proof (pairs_close t n Hu Hn H2 q Hq l G) as D.
  assert (D' : Forall2 (fun p q : R * R => Rabs (fst p - fst q) <= 71 / 10 ^ 15 / (INR n + / 2) /\ Rabs (snd p - snd q) <= 24 / 10 ^ 14 * snd q) (legendre_pairs q) l).
  { eapply forall2_impl; [|exact D]. intros x y (_ & A1 & A2). split; assumption. }
  pose proof (chain _ _ _ _ _ _ _ C D') as E. eapply forall2_impl; [|exact E]. intros x y ((A1 & A2) & A3). split; [split; [exact A1|]|exact A3].
  eapply Rle_trans; [exact A2|].
  assert (N : 101 <= INR n) by (rewrite INR_IZR_INZ; apply IZR_le; lia).
  assert (IN : / (INR n + / 2) <= / 100) by (apply Rinv_le_contravar; lra). unfold Rdiv at 4. lra.
Qed.
Lemma big_total_close : forall t (n : nat) (r : GaussLegendre A) (q : GaussLegendre RA) (a b : A) (g : A -> A) G e L B (result : A),
  (100 <= usize_max t)%Z -> (100 < n)%nat -> (Z.of_nat n <= 2 ^ 40)%Z -> (2 * Z.of_nat n <= usize_max t)%Z -> legendre_new t (Z.of_nat n) = Ok r -> legendre_new t (Z.of_nat n) = Ok q ->
  usable a b -> computes_near g G (fval a) (fval b) (102 / 100 * kappa + 3 / 10 ^ 15) e L B ->
  (result = fst (legendre_integrate (pure g) r a b tt) \/ exists s, result = legendre_par_integrate s g r a b) -> ffin result ->
  Rabs (fval result - legendre_value q (fval a) (fval b) G) <=
    gauss_excess (INR n) (fval a) (fval b) (2 + 48 / 10 ^ 14) (102 / 100 * kappa + 3 / 10 ^ 15) ((2 / 10 ^ 14 + 5 * kappa) / INR n) e L B.
Proof.
  intros t n r q a b g G e L B result Hu Hn Hn2 H2 Hr Hq HI HG HE HF. destruct HT as [[K0 K1] _].
  assert (N : 101 <= INR n) by (rewrite INR_IZR_INZ; apply IZR_le; lia). pose proof (big_weights t n q Hu Hn H2 Hq) as T. apply LegAsym.abs_upper in T.
  rewrite INR_IZR_INZ at 1.
  apply (legendre_close be t (Z.of_nat n) r q _ _ _ a b g G e L B result); try assumption; try lia; try lra.
  - apply Rdiv_le_0_compat; lra.
  - apply (big_rule_close be kappa HT t); assumption.
Qed.
Lemma big_end_any : forall t (n : nat) (r : GaussLegendre A) (a b : A) (g : A -> A) (f p : R -> R) e L B E (result : A),
  (100 <= usize_max t)%Z -> (100 < n)%nat -> (Z.of_nat n <= 2 ^ 40)%Z -> (2 * Z.of_nat n <= usize_max t)%Z -> legendre_new t (Z.of_nat n) = Ok r ->
  usable a b -> computes_near g f (fval a) (fval b) (102 / 100 * kappa + 3 / 10 ^ 15) e L B ->
  polynomial (2 * n - 1) p -> ex_RInt f (fval a) (fval b) ->
  (forall x, Rmin (fval a) (fval b) <= x <= Rmax (fval a) (fval b) -> Rabs (f x - p x) <= E) ->
  (result = fst (legendre_integrate (pure g) r a b tt) \/ exists s, result = legendre_par_integrate s g r a b) -> ffin result ->
  Rabs (fval result - RInt f (fval a) (fval b)) <= (105 / 10 ^ 14 * B + 5 * E) * (Rabs (fval b - fval a) / 2) +
    gauss_excess (INR n) (fval a) (fval b) (2 + 48 / 10 ^ 14) (102 / 100 * kappa + 3 / 10 ^ 15) ((2 / 10 ^ 14 + 5 * kappa) / INR n) e L B.
Proof.
  intros t n r a b g f p e L B E result Hu Hn Hn2 H2 Hr HI HG Hp Hf Hfp HE HR.
  destruct (legendre_new_ok (A := RA) t (Z.of_nat n) Hu ltac:(lia) H2) as (q & Hq & _).
  eapply through; [exact (big_total_close t n r q a b g f e L B result Hu Hn Hn2 H2 Hr Hq HI HG HE HR)|].
  refine (big_any t n q Hu Hn H2 Hq (fval a) (fval b) f p B E Hp Hf _ Hfp).
  intros x Hx. destruct HG as (_ & _ & _ & G3). apply G3. destruct HT as [[K0 K1] _].
  assert (0 <= reach (fval a) (fval b) (102 / 100 * kappa + 3 / 10 ^ 15)) by (apply rho_pos; lra). unfold between in Hx. lra.
Qed.
Lemma big_end_smooth : forall t (n : nat) (r : GaussLegendre A) (a b : A) (g : A -> A) (F : nat -> R -> R) e L B M0 M (result : A),
  (100 <= usize_max t)%Z -> (100 < n)%nat -> (Z.of_nat n <= 2 ^ 40)%Z -> (2 * Z.of_nat n <= usize_max t)%Z -> legendre_new t (Z.of_nat n) = Ok r ->
  usable a b -> fval a <> fval b -> computes_near g (F O) (fval a) (fval b) (102 / 100 * kappa + 3 / 10 ^ 15) e L B ->
  has_derivatives (closed_between (fval a) (fval b)) (2 * n) F -> (forall x, closed_between (fval a) (fval b) x -> Rabs (F O x) <= M0) ->
  (forall x, closed_between (fval a) (fval b) x -> Rabs (F (2 * n)%nat x) <= M) ->
  (result = fst (legendre_integrate (pure g) r a b tt) \/ exists s, result = legendre_par_integrate s g r a b) -> ffin result ->
  Rabs (fval result - RInt (F O) (fval a) (fval b)) <=
    (105 / 10 ^ 14 * M0 + 20 * M * (Rabs (fval b - fval a) / 4) ^ (2 * n) / INR (fact (2 * n))) * (Rabs (fval b - fval a) / 2) +
    gauss_excess (INR n) (fval a) (fval b) (2 + 48 / 10 ^ 14) (102 / 100 * kappa + 3 / 10 ^ 15) ((2 / 10 ^ 14 + 5 * kappa) / INR n) e L B.
Proof.
  intros t n r a b g F e L B M0 M result Hu Hn Hn2 H2 Hr HI Hab HG HF HM0 HM HE HR.
  destruct (legendre_new_ok (A := RA) t (Z.of_nat n) Hu ltac:(lia) H2) as (q & Hq & _).
  eapply through; [exact (big_total_close t n r q a b g (F O) e L B result Hu Hn Hn2 H2 Hr Hq HI HG HE HR)|].
  exact (big_derivatives t n q Hu Hn H2 Hq (fval a) (fval b) F M0 M Hab HF HM0 HM).
Qed.
End F.
