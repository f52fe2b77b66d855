(** The interval Gauss rules in double arithmetic, from the call to the exact rule and to the integral. *)
From Coq Require Import Reals ZArith List Lra Lia.
From Coquelicot Require Import Coquelicot.
From Flocq Require Import Core.
From Verif Require Import Arith RInst F64 F64Spec Machine Rules Par Legendre Chebyshev IntegrateSpec GaussSpec RSum RoundSpec RoundRules RuleSpec PolySpec GaussProof ChebSpec ChebRule
  LegSym LegShape SizeProof ErrorSpec TransferSpec ErrCheb ErrLeg LegInt TrigSpec ChebFloat LegFloat GaussFloat Prop_LegExact Prop_Legendre.
Import ListNotations.
Local Open Scope R_scope.

Lemma abs_weights : forall l : list (R * R), List.Forall (fun xw : R * R => -1 < fst xw < 1 /\ 0 < snd xw) l ->
  List.Forall (fun q => Rabs (fst q) <= 1) l /\ lsum (map (fun q => Rabs (snd q)) l) = lsum (map snd l).
Proof.
  intros l H. split.
  - eapply List.Forall_impl; [|exact H]. intros q [H1 _]. apply Rabs_le. lra.
  - apply lsum_map_ext. intros q Hq. rewrite List.Forall_forall in H. destruct (H q Hq). apply Rabs_pos_eq. lra.
Qed.

Section F.
Variable be : Backend.
Notation A := (F64 be).
Variable kappa : R.
Hypothesis HT : accurate_trig be kappa.

Lemma kappa_small : 0 <= kappa + 1 / 10 ^ 15 <= 1 / 1000 /\ 0 <= kappa + 12 / 10 ^ 16 <= 1 / 1000 /\ 0 <= kappa + 8 / 10 ^ 16 <= 1 / 1000.
Proof. destruct HT as [[K0 K1] _]. lra. Qed.

Lemma legendre_close : forall t n (r : GaussLegendre A) (q : GaussLegendre RA) dx dw W (a b : A) (g : A -> A) G e L B (result : A),
  0 <= dx <= 1 / 1000 -> 0 <= dw -> close_pairs dx dw (legendre_pairs r) (legendre_pairs q) -> (100 <= usize_max t)%Z -> (1 <= n <= 2 ^ 40)%Z -> (2 * n <= usize_max t)%Z -> legendre_new t n = Ok r -> legendre_new t n = Ok q ->
  lsum (map snd (legendre_pairs q)) <= W -> usable a b -> computes_near g G (fval a) (fval b) dx e L B ->
  (result = fst (legendre_integrate (pure g) r a b tt) \/ exists s, result = legendre_par_integrate s g r a b) -> ffin result ->
  Rabs (fval result - legendre_value q (fval a) (fval b) G) <= gauss_excess (IZR n) (fval a) (fval b) W dx dw e L B.
Proof.
  intros t n r q dx dw W a b g G e L B result Hdx Hdw HC Hu Hn H2 Hr Hq HW (Fa & Fb & Ba & Bb) HG HE HF.
  destruct (legendre_shape t n q Hu ltac:(lia) H2 Hq) as [_ HS]. destruct (abs_weights _ HS) as [HU HA]. apply (Rle_trans _ _ _ (Req_le _ _ HA)) in HW.
  assert (HL : INR (length (legendre_pairs r)) = IZR n).
  { rewrite (legendre_list t n r) by (assumption || lia). rewrite rev_length, map_length, seq_length, INR_IZR_INZ, Z2Nat.id by lia. reflexivity. }
  unfold legendre_value. rewrite legendre_R, <- HL.
  apply (gauss_close be a b g G e L B dx dw W (legendre_pairs r) (legendre_pairs q) Fa Fb Ba Bb Hdx Hdw HG HC HU HW).
  - rewrite HL, pow_IZR. apply IZR_le. lia.
  - destruct HE as [E|[s E]].
    + pose proof (legendre_round be unit (pure g) r a b tt) as R. cbv zeta in R. rewrite <- E in R. specialize (R HF). rewrite call_pure in R. exact R.
    + pose proof (legendre_par_round be s g r a b) as R. cbv zeta in R. rewrite <- E in R. exact (R HF).
Qed.

Lemma chebyshev1_close : forall t n (r : GaussChebyshevFirstKind A) (q : GaussChebyshevFirstKind RA) (a b : A) (g : A -> A) G e L B (result : A),
  (1 <= n <= 2 ^ 40)%Z -> (n < usize_max t)%Z -> chebyshev1_new t n = Ok r -> chebyshev1_new t n = Ok q ->
  usable a b -> computes_near g G (fval a) (fval b) (kappa + 1 / 10 ^ 15) e L B ->
  (result = fst (chebyshev1_integrate (pure g) r a b tt) \/ exists s, result = chebyshev1_par_integrate s g r a b) -> ffin result ->
  Rabs (fval result - chebyshev1_value q (fval a) (fval b) G) <= gauss_excess (IZR n) (fval a) (fval b) PI (kappa + 1 / 10 ^ 15) (5 / 10 ^ 16 / IZR n) e L B.
Proof.
  intros t n r q a b g G e L B result Hn Hu Hr Hq (Fa & Fb & Ba & Bb) HG HE HF. destruct kappa_small as (K & _ & _).
  pose proof (chebyshev1_rule_close be kappa HT t n r q ltac:(lia) Hu Hr Hq) as HC.
  destruct (cheb1_shape t n q ltac:(lia) Hq) as (_ & _ & HS & HP). destruct (abs_weights _ HS) as [HU HA]. apply (eq_trans HA) in HP.
  assert (0 < IZR n) by (apply IZR_lt; lia).
  assert (HL : INR (length (chebyshev1_pairs r)) = IZR n).
  { destruct (chebyshev1_new_ok (A := A) t n ltac:(lia)) as (r' & E' & L'). rewrite E' in Hr. injection Hr as <-. refine (eq_trans (f_equal INR L') _). rewrite INR_IZR_INZ, Z2Nat.id by lia. reflexivity. }
  unfold chebyshev1_value. rewrite chebyshev1_R, <- HL.
  assert (DW : 0 <= 5 / 10 ^ 16 / INR (length (chebyshev1_pairs r))) by (rewrite HL; apply Rdiv_le_0_compat; lra).
  rewrite <- HL in HC.
  apply (gauss_close be a b g G e L B _ _ PI (chebyshev1_pairs r) (chebyshev1_pairs q) Fa Fb Ba Bb K DW HG HC HU (Req_le _ _ HP)).
  - rewrite HL, pow_IZR. apply IZR_le. lia.
  - destruct HE as [E|[s E]].
    + pose proof (chebyshev1_round be unit (pure g) r a b tt) as R. cbv zeta in R. rewrite <- E in R. specialize (R HF). rewrite call_pure in R. exact R.
    + pose proof (chebyshev1_par_round be s g r a b) as R. cbv zeta in R. rewrite <- E in R. exact (R HF).
Qed.
Lemma chebyshev2_close : forall t n (r : GaussChebyshevSecondKind A) (q : GaussChebyshevSecondKind RA) (a b : A) (g : A -> A) G e L B (result : A),
  (1 <= n <= 2 ^ 40)%Z -> (n < usize_max t)%Z -> chebyshev2_new t n = Ok r -> chebyshev2_new t n = Ok q ->
  usable a b -> computes_near g G (fval a) (fval b) (kappa + 12 / 10 ^ 16) e L B ->
  (result = fst (chebyshev2_integrate (pure g) r a b tt) \/ exists s, result = chebyshev2_par_integrate s g r a b) -> ffin result ->
  Rabs (fval result - chebyshev2_value q (fval a) (fval b) G) <=
    gauss_excess (IZR n) (fval a) (fval b) (PI / 2) (kappa + 12 / 10 ^ 16) ((7 * kappa + 1 / 10 ^ 14) / IZR n) e L B.
Proof.
  intros t n r q a b g G e L B result Hn Hu Hr Hq (Fa & Fb & Ba & Bb) HG HE HF. destruct kappa_small as (_ & K & _).
  pose proof (chebyshev2_rule_close be kappa HT t n r q ltac:(lia) Hu Hr Hq) as HC.
  destruct (cheb2_shape t n q ltac:(lia) Hq) as (_ & _ & HS & HP). destruct (abs_weights _ HS) as [HU HA]. apply (eq_trans HA) in HP.
  assert (0 < IZR n) by (apply IZR_lt; lia).
  assert (HL : INR (length (chebyshev2_pairs r)) = IZR n).
  { destruct (chebyshev2_new_ok (A := A) t n ltac:(lia)) as (r' & E' & L'). rewrite E' in Hr. injection Hr as <-. refine (eq_trans (f_equal INR L') _). rewrite INR_IZR_INZ, Z2Nat.id by lia. reflexivity. }
  unfold chebyshev2_value. rewrite chebyshev2_R, <- HL.
  assert (DW : 0 <= (7 * kappa + 1 / 10 ^ 14) / INR (length (chebyshev2_pairs r))) by (rewrite HL; apply Rdiv_le_0_compat; destruct HT as [[K0 K1] _]; lra).
  rewrite <- HL in HC.
  apply (gauss_close be a b g G e L B _ _ (PI / 2) (chebyshev2_pairs r) (chebyshev2_pairs q) Fa Fb Ba Bb K DW HG HC HU (Req_le _ _ HP)).
  - rewrite HL, pow_IZR. apply IZR_le. lia.
  - destruct HE as [E|[s E]].
    + pose proof (chebyshev2_round be unit (pure g) r a b tt) as R. cbv zeta in R. rewrite <- E in R. specialize (R HF). rewrite call_pure in R. exact R.
    + pose proof (chebyshev2_par_round be s g r a b) as R. cbv zeta in R. rewrite <- E in R. exact (R HF).
Qed.

Lemma tabulated_mass : forall t (n : nat) (q : GaussLegendre RA), (100 <= usize_max t)%Z -> (1 <= n <= 100)%nat -> (2 * Z.of_nat n <= usize_max t)%Z -> legendre_new t (Z.of_nat n) = Ok q ->
  lsum (map snd (legendre_pairs q)) <= 2 + 1 / 10 ^ 15.
Proof.
  intros t n q Hu Hn H2 Hq. pose proof (value_max t n q Hu Hn H2 Hq) as V.
  pose proof (value_coefficients t n q Hu Hn H2 Hq (fun k => if Nat.eqb k 0 then 1 else 0)) as E. cbv beta zeta in E.
  assert (S1 : forall f : nat -> R, (forall k, (k <> 0)%nat -> f k = 0) -> rsum (2 * n) f = f O).
  { intros f Hf. destruct n as [|m]; [lia|]. replace (2 * S m)%nat with (S (2 * m + 1)) by lia. clear -Hf. induction (2 * m + 1)%nat as [|k IH]; [simpl; ring|].
    change (rsum (S k) f + f (S k) = f O). rewrite IH, (Hf (S k)) by lia. ring. }
  assert (EF : forall x : R, rsum (2 * n) (fun k => (if Nat.eqb k 0 then 1 else 0) * x ^ k) = 1).
  { intros x. rewrite S1; [simpl; ring|]. intros k Hk. destruct (Nat.eqb_spec k 0); [contradiction|ring]. }
  rewrite (S1 (fun k => Rabs (if Nat.eqb k 0 then 1 else 0))) in E by (intros k Hk; destruct (Nat.eqb_spec k 0); [contradiction|apply Rabs_R0]).
  cbn [Nat.eqb] in E. rewrite Rabs_R1 in E.
  rewrite (RInt_ext _ (fun _ => 1)) in E by (intros; apply EF). rewrite RInt_const in E. change (scal (1 - -1) 1) with ((1 - -1) * 1) in E.
  unfold legendre_value in E. rewrite legendre_R in E. unfold gauss_on in E.
  rewrite (lsum_map_ext _ _ (fun xw : R * R => snd xw)) in E by (intros q0 _; rewrite EF; ring).
  pose proof (Rle_abs ((1 - -1) / 2 * lsum (map (fun xw : R * R => snd xw) (legendre_pairs q)) - (1 - -1) * 1)).
  change (map snd (legendre_pairs q)) with (map (fun xw : R * R => snd xw) (legendre_pairs q)). lra.
Qed.
Lemma tabulated_legendre_close : forall t (n : nat) (r : GaussLegendre A) (q : GaussLegendre RA) (a b : A) (g : A -> A) G e L B (result : A),
  (100 <= usize_max t)%Z -> (1 <= n <= 100)%nat -> (2 * Z.of_nat n <= usize_max t)%Z -> legendre_new t (Z.of_nat n) = Ok r -> legendre_new t (Z.of_nat n) = Ok q ->
  usable a b -> computes_near g G (fval a) (fval b) (kappa + 8 / 10 ^ 16) e L B ->
  (result = fst (legendre_integrate (pure g) r a b tt) \/ exists s, result = legendre_par_integrate s g r a b) -> ffin result ->
  Rabs (fval result - legendre_value q (fval a) (fval b) G) <= gauss_excess (INR n) (fval a) (fval b) (2 + 1 / 10 ^ 15) (kappa + 8 / 10 ^ 16) (2 / 10 ^ 15 / INR n) e L B.
Proof.
  intros t n r q a b g G e L B result Hu Hn H2 Hr Hq HI HG HE HF. destruct kappa_small as (_ & _ & K).
  assert (0 < INR n) by (apply lt_0_INR; lia). rewrite INR_IZR_INZ in *.
  apply (legendre_close t (Z.of_nat n) r q _ _ _ a b g G e L B result K); try assumption; try lia.
  - apply Rdiv_le_0_compat; lra.
  - apply (tabulated_rule_close be kappa HT t); try assumption; lia.
  - apply (tabulated_mass t n); assumption.
Qed.

Lemma through : forall x y v d e, Rabs (x - y) <= e -> Rabs (y - v) <= d -> Rabs (x - v) <= d + e.
Proof. intros x y v d e H1 H2. replace (x - v) with ((x - y) + (y - v)) by ring. eapply Rle_trans; [apply Rabs_triang|]. lra. Qed.

Lemma chebyshev1_end : forall t n (r : GaussChebyshevFirstKind A) (a b : A) (g : A -> A) (F : nat -> R -> R) e L B M v (result : A),
  (1 <= n <= 2 ^ 40)%Z -> (n < usize_max t)%Z -> chebyshev1_new t n = Ok r ->
  usable a b -> fval a <> fval b -> computes_near g (F O) (fval a) (fval b) (kappa + 1 / 10 ^ 15) e L B ->
  let m := Z.to_nat n in
  has_derivatives (open_between (fval a) (fval b)) (2 * m) F -> (forall x, open_between (fval a) (fval b) x -> Rabs (F (2 * m)%nat x) <= M) ->
  weighted_integral (fun x => / sqrt (1 - x * x)) (fval a) (fval b) (F O) v ->
  (result = fst (chebyshev1_integrate (pure g) r a b tt) \/ exists s, result = chebyshev1_par_integrate s g r a b) -> ffin result ->
  Rabs (fval result - v) <= M * (Rabs (fval b - fval a) / 2) ^ (2 * m + 1) / INR (fact (2 * m)) * (PI / 2 ^ (2 * m - 1)) +
    gauss_excess (IZR n) (fval a) (fval b) PI (kappa + 1 / 10 ^ 15) (5 / 10 ^ 16 / IZR n) e L B.
Proof.
  intros t n r a b g F e L B M v result Hn Hu Hr HI Hab HG m HF HM Hv HE HR.
  destruct (chebyshev1_new_ok (A := RA) t n ltac:(lia)) as (q & Hq & _).
  eapply through; [exact (chebyshev1_close t n r q a b g (F O) e L B result Hn Hu Hr Hq HI HG HE HR)|].
  exact (chebyshev1_error t n q ltac:(lia) Hq (fval a) (fval b) F M v Hab HF HM Hv).
Qed.
Lemma chebyshev2_end : forall t n (r : GaussChebyshevSecondKind A) (a b : A) (g : A -> A) (F : nat -> R -> R) e L B M v (result : A),
  (1 <= n <= 2 ^ 40)%Z -> (n < usize_max t)%Z -> chebyshev2_new t n = Ok r ->
  usable a b -> fval a <> fval b -> computes_near g (F O) (fval a) (fval b) (kappa + 12 / 10 ^ 16) e L B ->
  let m := Z.to_nat n in
  has_derivatives (open_between (fval a) (fval b)) (2 * m) F -> (forall x, open_between (fval a) (fval b) x -> Rabs (F (2 * m)%nat x) <= M) ->
  weighted_integral (fun x => sqrt (1 - x * x)) (fval a) (fval b) (F O) v ->
  (result = fst (chebyshev2_integrate (pure g) r a b tt) \/ exists s, result = chebyshev2_par_integrate s g r a b) -> ffin result ->
  Rabs (fval result - v) <= M * (Rabs (fval b - fval a) / 2) ^ (2 * m + 1) / INR (fact (2 * m)) * (PI / 2 ^ (2 * m + 1)) +
    gauss_excess (IZR n) (fval a) (fval b) (PI / 2) (kappa + 12 / 10 ^ 16) ((7 * kappa + 1 / 10 ^ 14) / IZR n) e L B.
Proof.
  intros t n r a b g F e L B M v result Hn Hu Hr HI Hab HG m HF HM Hv HE HR.
  destruct (chebyshev2_new_ok (A := RA) t n ltac:(lia)) as (q & Hq & _).
  eapply through; [exact (chebyshev2_close t n r q a b g (F O) e L B result Hn Hu Hr Hq HI HG HE HR)|].
  exact (chebyshev2_error t n q ltac:(lia) Hq (fval a) (fval b) F M v Hab HF HM Hv).
Qed.
Lemma tabulated_end : forall t (n : nat) (r : GaussLegendre A) (a b : A) (g : A -> A) (F : nat -> R -> R) e L B M0 M (result : A),
  (100 <= usize_max t)%Z -> (1 <= n <= 100)%nat -> (2 * Z.of_nat n <= usize_max t)%Z -> legendre_new t (Z.of_nat n) = Ok r ->
  usable a b -> fval a <> fval b -> computes_near g (F O) (fval a) (fval b) (kappa + 8 / 10 ^ 16) e L B ->
  has_derivatives (closed_between (fval a) (fval b)) (2 * n) F -> (forall x, closed_between (fval a) (fval b) x -> Rabs (F O x) <= M0) ->
  (forall x, closed_between (fval a) (fval b) x -> Rabs (F (2 * n)%nat x) <= M) ->
  (result = fst (legendre_integrate (pure g) r a b tt) \/ exists s, result = legendre_par_integrate s g r a b) -> ffin result ->
  Rabs (fval result - RInt (F O) (fval a) (fval b)) <=
    (3 / 10 ^ 14 * M0 + 20 * M * (Rabs (fval b - fval a) / 4) ^ (2 * n) / INR (fact (2 * n))) * (Rabs (fval b - fval a) / 2) +
    gauss_excess (INR n) (fval a) (fval b) (2 + 1 / 10 ^ 15) (kappa + 8 / 10 ^ 16) (2 / 10 ^ 15 / INR n) e L B.
Proof.
  intros t n r a b g F e L B M0 M result Hu Hn H2 Hr HI Hab HG HF HM0 HM HE HR.
  destruct (legendre_new_ok (A := RA) t (Z.of_nat n) Hu ltac:(lia) H2) as (q & Hq & _).
  eapply through; [exact (tabulated_legendre_close t n r q a b g (F O) e L B result Hu Hn H2 Hr Hq HI HG HE HR)|].
  exact (legendre_error t n q Hu Hn H2 Hq (fval a) (fval b) F M0 M Hab HF HM0 HM).
Qed.
Lemma tabulated_end_any : forall t (n : nat) (r : GaussLegendre A) (a b : A) (g : A -> A) (f p : R -> R) e L B E (result : A),
  (100 <= usize_max t)%Z -> (1 <= n <= 100)%nat -> (2 * Z.of_nat n <= usize_max t)%Z -> legendre_new t (Z.of_nat n) = Ok r ->
  usable a b -> computes_near g f (fval a) (fval b) (kappa + 8 / 10 ^ 16) e L B ->
  polynomial (2 * n - 1) p -> ex_RInt f (fval a) (fval b) ->
  (forall x, Rmin (fval a) (fval b) <= x <= Rmax (fval a) (fval b) -> Rabs (f x - p x) <= E) ->
  (result = fst (legendre_integrate (pure g) r a b tt) \/ exists s, result = legendre_par_integrate s g r a b) -> ffin result ->
  Rabs (fval result - RInt f (fval a) (fval b)) <= (3 / 10 ^ 14 * B + 5 * E) * (Rabs (fval b - fval a) / 2) +
    gauss_excess (INR n) (fval a) (fval b) (2 + 1 / 10 ^ 15) (kappa + 8 / 10 ^ 16) (2 / 10 ^ 15 / INR n) e L B.
Proof.
  intros t n r a b g f p e L B E result Hu Hn H2 Hr HI HG Hp Hf Hfp HE HR.
  destruct (legendre_new_ok (A := RA) t (Z.of_nat n) Hu ltac:(lia) H2) as (q & Hq & _).
  eapply through; [exact (tabulated_legendre_close t n r q a b g f e L B result Hu Hn H2 Hr Hq HI HG HE HR)|].
  refine (value_any t n q Hu Hn H2 Hq (fval a) (fval b) f p B E Hp Hf _ Hfp).
  intros x Hx. destruct HG as (_ & _ & _ & G3). apply G3.
  assert (0 <= reach (fval a) (fval b) (kappa + 8 / 10 ^ 16)) by (apply rho_pos; apply kappa_small). unfold between in Hx. lra.
Qed.
End F.
