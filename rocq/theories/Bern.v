(** An inequality of Bernstein's type: if |p| <= M on [-1,1] for a polynomial p of degree at most m
    then p (cos theta) changes by at most 2 m M |theta - phi|. *)
From Coq Require Import Reals ZArith List Lia Lra Psatz.
From Coquelicot Require Import Coquelicot.
From Verif Require Import RSum PolySpec PolyProof ChebExact.
Local Open Scope R_scope.

Section Grid.
Variable N : nat.
Hypothesis HN : (0 < N)%nat.
Definition u (j : nat) : R := 2 * PI * INR j / INR N.
Lemma N_pos : 0 < INR N. Proof. apply lt_0_INR. exact HN. Qed.
Lemma arc : forall al phi k, 2 * sin (al / 2) * rsum k (fun j => sin (phi + INR j * al)) = cos (phi - al / 2) - cos (phi + (INR k - / 2) * al).
Proof.
  intros al phi k. induction k as [|k IH]; [simpl; replace (phi + (0 - / 2) * al) with (phi - al / 2) by field; ring|].
  rewrite rsum_S, Rmult_plus_distr_l, IH, S_INR.
  replace (phi + (INR k - / 2) * al) with (phi + INR k * al - al / 2) by field. replace (phi + (INR k + 1 - / 2) * al) with (phi + INR k * al + al / 2) by field.
  rewrite (cos_minus (phi + INR k * al)), (cos_plus (phi + INR k * al)). ring.
Qed.
Lemma full_turn : forall q x, cos (x + IZR q * (2 * PI)) = cos x.
Proof.
  intros q x. rewrite cos_plus. assert (S : sin (IZR q * (2 * PI)) = 0). { apply sin_eq_0_1. exists (2 * q)%Z. rewrite mult_IZR. ring. }
  assert (C : cos (IZR q * (2 * PI)) = 1). { replace (IZR q * (2 * PI)) with (2 * (IZR q * PI)) by ring. rewrite cos_2a_sin. assert (Z : sin (IZR q * PI) = 0) by (apply sin_eq_0_1; exists q; reflexivity). rewrite Z. ring. }
  rewrite S, C. ring.
Qed.
Lemma wave_off : forall (q : Z) phi, (q <> 0)%Z -> (Z.abs q < Z.of_nat N)%Z -> rsum N (fun j => sin (phi + IZR q * u j)) = 0.
Proof.
  intros q phi Hq Hb. pose proof N_pos as NP. set (al := 2 * PI * IZR q / INR N).
  rewrite (rsum_ext N _ (fun j => sin (phi + INR j * al))) by (intros j _; f_equal; unfold u, al; field; lra).
  assert (A := arc al phi N). replace (phi + (INR N - / 2) * al) with (phi - al / 2 + IZR q * (2 * PI)) in A by (unfold al; field; lra).
  rewrite full_turn in A. assert (NZ : sin (al / 2) <> 0).
  { intros S. apply sin_eq_0_0 in S. destruct S as [k K]. unfold al in K. assert (E : IZR q = IZR (k * Z.of_nat N)).
    { rewrite mult_IZR, <- INR_IZR_INZ. pose proof PI_RGT_0. apply (Rmult_eq_reg_r (PI / INR N)); [|apply Rgt_not_eq, Rdiv_lt_0_compat; lra]. transitivity (2 * PI * IZR q / INR N / 2); [field; lra|]. rewrite K. field. lra. }
    apply eq_IZR in E. subst q. rewrite Z.abs_mul in Hb. assert (k <> 0)%Z by (intros ->; apply Hq; reflexivity). nia. }
  assert (Z : 2 * sin (al / 2) * rsum N (fun j => sin (phi + INR j * al)) = 0) by lra.
  apply Rmult_integral in Z. destruct Z as [Z|Z]; [lra|exact Z].
Qed.
Lemma wave : forall (q : Z) phi, (Z.abs q < Z.of_nat N)%Z -> rsum N (fun j => sin (phi + IZR q * u j)) = if (q =? 0)%Z then INR N * sin phi else 0.
Proof.
  intros q phi Hb. destruct (Z.eqb_spec q 0) as [-> |H]; [|apply wave_off; assumption].
  rewrite <- rsum_const. apply rsum_ext. intros j _. f_equal. ring.
Qed.
Lemma wave_cos : forall (q : Z), (Z.abs q < Z.of_nat N)%Z -> rsum N (fun j => cos (IZR q * u j)) = if (q =? 0)%Z then INR N else 0.
Proof.
  intros q Hb. rewrite (rsum_ext N _ (fun j => sin (PI / 2 + IZR q * u j))) by (intros j _; rewrite sin_plus, sin_PI2, cos_PI2; ring).
  rewrite wave by exact Hb. destruct (q =? 0)%Z; [|reflexivity]. rewrite sin_PI2. ring.
Qed.

Variable m : nat.
Hypothesis Hm : (1 <= m)%nat.
Hypothesis HNm : (N = 4 * m)%nat.
(** the kernel |1 + e^(iu) + ... + e^(i(m-1)u)|^2 as a double sum, and as a sum of two squares *)
Definition ker (x : R) : R := rsum m (fun a => rsum m (fun b => cos ((INR a - INR b) * x))).
Lemma ker_sq : forall x, ker x = rsum m (fun a => cos (INR a * x)) * rsum m (fun a => cos (INR a * x)) + rsum m (fun a => sin (INR a * x)) * rsum m (fun a => sin (INR a * x)).
Proof.
  intros x. unfold ker. rewrite <- !rsum_scal_r, <- rsum_plus. apply rsum_ext. intros a _. rewrite <- !rsum_scal, <- rsum_plus. apply rsum_ext. intros b _.
  rewrite Rmult_minus_distr_r, cos_minus. reflexivity.
Qed.
Lemma ker_pos : forall x, 0 <= ker x. Proof. intros x. rewrite ker_sq. nra. Qed.
Lemma diff_Z : forall a b, INR a - INR b = IZR (Z.of_nat a - Z.of_nat b). Proof. intros a b. rewrite minus_IZR, <- !INR_IZR_INZ. reflexivity. Qed.
Lemma ker_mass : rsum N (fun j => ker (u j)) = INR N * INR m.
Proof.
  unfold ker. rewrite rsum_swap. rewrite (rsum_ext m _ (fun _ => INR N)); [rewrite rsum_const; ring|]. intros a Ha. rewrite rsum_swap.
  rewrite (rsum_ext m _ (fun b => if Nat.eqb b a then INR N else 0)); [apply (rsum_delta m a (fun _ => INR N)); exact Ha|]. intros b Hb.
  rewrite (rsum_ext N _ (fun j => cos (IZR (Z.of_nat a - Z.of_nat b) * u j))) by (intros j _; rewrite diff_Z; reflexivity).
  rewrite wave_cos by lia. destruct (Nat.eqb_spec b a) as [-> |E]; [rewrite Z.sub_diag; reflexivity|]. destruct (Z.eqb_spec (Z.of_nat a - Z.of_nat b) 0); [lia|reflexivity].
Qed.
Lemma count : forall k c, (k <= m)%nat -> rsum m (fun a => rsum m (fun b => if (Z.of_nat a - Z.of_nat b =? Z.of_nat k - Z.of_nat m)%Z then c else 0)) = INR k * c.
Proof.
  intros k c Hk. rewrite (rsum_ext m _ (fun a => if (a <? k)%nat then c else 0)).
  - replace m with (k + (m - k))%nat by lia. rewrite rsum_add. rewrite (rsum_ext k _ (fun _ => c)); [|intros a Ha; destruct (Nat.ltb_spec a k); [reflexivity|lia]].
    rewrite (rsum_eq0 (m - k)); [rewrite rsum_const; ring|]. intros a _. destruct (Nat.ltb_spec (k + a) k); [lia|reflexivity].
  - intros a Ha. destruct (Nat.ltb_spec a k) as [L|L].
    + rewrite (rsum_ext m _ (fun b => if Nat.eqb b (a + (m - k)) then c else 0)); [apply (rsum_delta m (a + (m - k)) (fun _ => c)); lia|].
      intros b Hb. destruct (Nat.eqb_spec b (a + (m - k))); destruct (Z.eqb_spec (Z.of_nat a - Z.of_nat b) (Z.of_nat k - Z.of_nat m)); try reflexivity; lia.
    + apply rsum_eq0. intros b Hb. destruct (Z.eqb_spec (Z.of_nat a - Z.of_nat b) (Z.of_nat k - Z.of_nat m)); [lia|reflexivity].
Qed.
Lemma prod4 : forall A B D, cos A * (sin B * cos D) = / 4 * (sin (A + B + D) - sin (A - B - D) + (sin (A + B - D) - sin (A - B + D))).
Proof.
  intros A B D. replace (A + B + D) with (A + (B + D)) by ring. replace (A - B - D) with (A - (B + D)) by ring. replace (A + B - D) with (A + (B - D)) by ring. replace (A - B + D) with (A - (B - D)) by ring.
  repeat (rewrite sin_plus || rewrite sin_minus || rewrite cos_plus || rewrite cos_minus). field.
Qed.
Lemma conv_ab : forall k a b th, (k <= m)%nat -> (a < m)%nat -> (b < m)%nat ->
  rsum N (fun j => cos (INR k * (th + u j)) * (sin (INR m * u j) * cos ((INR a - INR b) * u j))) =
  - (/ 4 * INR N * sin (INR k * th)) * ((if (Z.of_nat a - Z.of_nat b =? Z.of_nat k - Z.of_nat m)%Z then 1 else 0) + (if (Z.of_nat b - Z.of_nat a =? Z.of_nat k - Z.of_nat m)%Z then 1 else 0)).
Proof.
  intros k a b th Hk Ha Hb. set (d := (Z.of_nat a - Z.of_nat b)%Z). set (K := Z.of_nat k). set (Mz := Z.of_nat m).
  rewrite (rsum_ext N _ (fun j => / 4 * (sin (INR k * th + IZR (K + Mz + d) * u j) - sin (INR k * th + IZR (K - Mz - d) * u j) + (sin (INR k * th + IZR (K + Mz - d) * u j) - sin (INR k * th + IZR (K - Mz + d) * u j))))).
  2:{ intros j _. rewrite prod4, diff_Z. fold d. repeat (rewrite plus_IZR || rewrite minus_IZR). unfold K, Mz. rewrite <- !INR_IZR_INZ. f_equal. f_equal; f_equal; f_equal; ring. }
  rewrite rsum_scal, rsum_plus, !rsum_minus, !wave by (unfold d, K, Mz; lia).
  destruct (Z.eqb_spec (K + Mz + d) 0) as [E1|_]; [unfold d, K, Mz in E1; lia|]. destruct (Z.eqb_spec (K + Mz - d) 0) as [E1|_]; [unfold d, K, Mz in E1; lia|].
  replace (K - Mz - d =? 0)%Z with (d =? K - Mz)%Z by (destruct (Z.eqb_spec d (K - Mz)), (Z.eqb_spec (K - Mz - d) 0); lia).
  replace (K - Mz + d =? 0)%Z with (Z.of_nat b - Z.of_nat a =? K - Mz)%Z by (unfold d; destruct (Z.eqb_spec (Z.of_nat b - Z.of_nat a) (K - Mz)), (Z.eqb_spec (K - Mz + (Z.of_nat a - Z.of_nat b)) 0); lia).
  destruct (d =? K - Mz)%Z; destruct (Z.of_nat b - Z.of_nat a =? K - Mz)%Z; field.
Qed.
Lemma conv : forall k th, (k <= m)%nat -> rsum N (fun j => cos (INR k * (th + u j)) * (sin (INR m * u j) * ker (u j))) = - (/ 2 * INR N) * (INR k * sin (INR k * th)).
Proof.
  intros k th Hk. rewrite (rsum_ext N _ (fun j => rsum m (fun a => rsum m (fun b => cos (INR k * (th + u j)) * (sin (INR m * u j) * cos ((INR a - INR b) * u j)))))).
  2:{ intros j _. unfold ker. rewrite <- !rsum_scal. apply rsum_ext. intros a _. rewrite <- !rsum_scal. reflexivity. }
  rewrite rsum_swap. rewrite (rsum_ext m _ (fun a => rsum m (fun b => - (/ 4 * INR N * sin (INR k * th)) * (if (Z.of_nat a - Z.of_nat b =? Z.of_nat k - Z.of_nat m)%Z then 1 else 0)) + rsum m (fun b => - (/ 4 * INR N * sin (INR k * th)) * (if (Z.of_nat b - Z.of_nat a =? Z.of_nat k - Z.of_nat m)%Z then 1 else 0)))).
  2:{ intros a Ha. rewrite rsum_swap, <- rsum_plus. apply rsum_ext. intros b Hb. rewrite conv_ab by assumption. ring. }
  set (c := - (/ 4 * INR N * sin (INR k * th))).
  assert (IFE : forall z, c * (if (z =? Z.of_nat k - Z.of_nat m)%Z then 1 else 0) = if (z =? Z.of_nat k - Z.of_nat m)%Z then c else 0) by (intros z; destruct (z =? _)%Z; ring).
  rewrite rsum_plus. rewrite (rsum_ext m _ (fun a => rsum m (fun b => if (Z.of_nat a - Z.of_nat b =? Z.of_nat k - Z.of_nat m)%Z then c else 0))) by (intros a _; apply rsum_ext; intros b _; apply IFE).
  rewrite count by exact Hk. rewrite (rsum_ext m _ (fun a => rsum m (fun b => if (Z.of_nat b - Z.of_nat a =? Z.of_nat k - Z.of_nat m)%Z then c else 0))) by (intros a _; apply rsum_ext; intros b _; apply IFE).
  rewrite rsum_swap, count by exact Hk. unfold c. field.
Qed.
End Grid.

Lemma bernstein_der : forall m (c : nat -> R) M, (forall t, Rabs (rsum (S m) (fun k => c k * cos (INR k * t))) <= M) ->
  forall t, Rabs (rsum (S m) (fun k => c k * (INR k * sin (INR k * t)))) <= 2 * INR m * M.
Proof.
  intros m c M HM t. destruct m as [|m'].
  { simpl. replace (0 + c O * (0 * sin (0 * t))) with 0 by ring. rewrite Rabs_R0. lra. }
  set (m := S m') in *. set (N := (4 * m)%nat). assert (HN : (0 < N)%nat) by (unfold N, m; lia). assert (NP := N_pos N HN).
  assert (E : rsum (S m) (fun k => c k * (INR k * sin (INR k * t))) = - (2 / INR N) * rsum N (fun j => rsum (S m) (fun k => c k * cos (INR k * (t + u N j))) * (sin (INR m * u N j) * ker m (u N j)))).
  { rewrite (rsum_ext N _ (fun j => rsum (S m) (fun k => c k * (cos (INR k * (t + u N j)) * (sin (INR m * u N j) * ker m (u N j)))))) by (intros j _; rewrite <- rsum_scal_r; apply rsum_ext; intros k _; ring).
    rewrite rsum_swap, <- rsum_scal. apply rsum_ext. intros k Hk. rewrite rsum_scal, (conv N HN m) by (unfold N; lia). field. lra. }
  rewrite E, Rabs_mult, Rabs_Ropp, (Rabs_pos_eq (2 / INR N)) by (left; apply Rdiv_lt_0_compat; lra).
  replace (2 * INR m * M) with (2 / INR N * (M * (INR N * INR m))) by (field; lra). apply Rmult_le_compat_l; [left; apply Rdiv_lt_0_compat; lra|].
  eapply Rle_trans; [apply rsum_abs|]. rewrite <- (ker_mass N HN m) by (unfold N; lia). rewrite <- rsum_scal. apply rsum_le. intros j _.
  pose proof (ker_pos m (u N j)) as KP. pose proof (HM (t + u N j)) as H1. rewrite !Rabs_mult, (Rabs_pos_eq (ker _ _)) by exact KP.
  assert (S1 : Rabs (sin (INR m * u N j)) <= 1) by (apply Rabs_le; pose proof (SIN_bound (INR m * u N j)); lra).
  apply Rmult_le_compat; [apply Rabs_pos|apply Rmult_le_pos; [apply Rabs_pos|exact KP]|exact H1|]. rewrite <- (Rmult_1_l (ker m (u N j))) at 2. apply Rmult_le_compat_r; assumption.
Qed.
Lemma bernstein : forall m p M, polynomial m p -> (forall x, -1 <= x <= 1 -> Rabs (p x) <= M) -> forall s t, Rabs (p (cos s) - p (cos t)) <= 2 * INR m * M * Rabs (s - t).
Proof.
  intros m p M Hp HM s t. destruct (expand (ch 1) (ch_exact 1 R1_neq_R0) m p Hp) as [c Hc].
  set (g := fun x => rsum (S m) (fun k => c k * cos (INR k * x))).
  assert (G : forall x, p (cos x) = g x) by (intros x; unfold g; rewrite Hc; apply rsum_ext; intros k _; rewrite T_cos; reflexivity).
  assert (B := bernstein_der m c M). assert (HB : forall x, Rabs (g x) <= M) by (intros x; rewrite <- G; apply HM; apply COS_bound). specialize (B HB).
  rewrite !G.
  assert (D : forall x, is_derive g x (- rsum (S m) (fun k => c k * (INR k * sin (INR k * x))))).
  { intros x. unfold g. generalize (S m) as q. clear. induction q as [|q IH]; cbn [rsum]; [rewrite Ropp_0; auto_derive; [exact I|ring]|].
    rewrite Ropp_plus_distr. apply (is_derive_plus (K := R_AbsRing) (V := R_NormedModule)); [exact IH|]. auto_derive; [exact I|]. ring. }
  destruct (MVT_gen g t s (fun x => - rsum (S m) (fun k => c k * (INR k * sin (INR k * x))))) as (x & _ & E).
  - intros x _. apply D.
  - intros x _. apply derivable_continuous_pt. exists (- rsum (S m) (fun k => c k * (INR k * sin (INR k * x)))). apply is_derive_Reals, D.
  - rewrite E, Rabs_mult, Rabs_Ropp. apply Rmult_le_compat_r; [apply Rabs_pos|apply B].
Qed.
