(** Golub-Welsch rules built with a solver that has errors. *)
From Coq Require Import Reals List Lia Lra Arith ZArith Permutation.
From Coquelicot Require Import Coquelicot.
From Verif Require Import Arith RInst RInstProof Machine Param Rules RSum PolySpec PolyProof GolubWelsch GWSpec EigenSpec WeightSpec MassSpec InexactSpec RuleSpec
  EigenProof Spectral GWProof Inexact Gamma Hermite Laguerre Jacobi GaussProof GaussExact LaguerreWeight JacobiWeight Improper OrthoProof.
Import ListNotations.
Local Open Scope R_scope.

Section Driver.
Variables (ext : Linalg RA) (n : nat) (a b : nat -> R) (s tau rho phi : R) (ps : list (R * R)).
Hypothesis Hn : (1 <= n)%nat.
Hypothesis Hb : forall i, (i < n - 1)%nat -> b i <> 0.
Hypothesis So : sorts ext.
Hypothesis Ex : inexact_on ext n a b tau rho phi.
Hypothesis HG : @golub_welsch RA ext n a b s = Ok ps.

Lemma inexact_pairs : exists (lam : nat -> R) (V : nat -> nat -> R),
  (forall k, (k < n)%nat -> Rabs (lam k) <= tau) /\ eigen_error n (@tridiagonal RA a b) lam V rho phi /\
  (forall f, apply_rule ps f = rsum n (fun k => f (lam k) * (V O k * V O k * s))) /\
  (forall p, In p ps -> exists k, (k < n)%nat /\ fst p = lam k).
Proof.
  destruct Ex as [_ H]. destruct (@companion_ok RA n a b Hn) as (m & E & Sq & Hm). specialize (H m Sq Hm).
  unfold golub_welsch in HG. rewrite E in HG. cbn [bind] in HG.
  destruct (symmetric_eigen ext m) as [ev V'] eqn:EE. cbn [fst snd] in H. destruct H as (Le & [L1 L2] & Hl & He).
  destruct V' as [|row0 rest]; [simpl in L1; lia|]. cbn [bind index Z.to_nat nth_error] in HG. injection HG; intros Ep.
  assert (Lr : length row0 = n) by (inversion L2; assumption).
  exists (fun k => nth k ev 0), (@entry RA (row0 :: rest)). split; [exact Hl|]. split; [apply (eigen_error_ext n (@entry RA m)); assumption|].
  assert (Pe : Permutation ps (combine ev (map (fun x => x * x * s) row0))) by (rewrite <- Ep; apply So). split.
  - intros f. rewrite (apply_rule_perm _ _ f Pe). rewrite (apply_rule_combine n); [|exact Le|rewrite map_length; exact Lr].
    apply rsum_ext. intros j Hj. rewrite sq_nth. unfold entry. cbn [nth]. rewrite ra_lit0. reflexivity.
  - intros p Hp. apply (Permutation_in _ Pe) in Hp. destruct (combine_nth_in n ev (map (fun x => x * x * s) row0) p Le ltac:(rewrite map_length; exact Lr) Hp) as (k & Hk & Ek).
    exists k. split; [exact Hk|]. rewrite Ek. reflexivity.
Qed.
Variable L : (R -> R) -> R.
Hypothesis HL : linear_on_polynomials L.
Hypothesis H1 : L (fun _ => 1) = s.
Hypothesis HO : orthogonal_up_to n L (monic a b).
Lemma inexact_values : forall c f, (forall x, f x = rsum (2 * n) (fun j => c j * x ^ j)) ->
  Rabs (apply_rule ps f - L f) <= Rabs s * rsum (2 * n) (fun j => Rabs (c j) * moment_error n tau rho phi j).
Proof.
  intros c f Hf. destruct inexact_pairs as (lam & V & Hl & He & Hv & _). rewrite Hv, <- H1.
  exact (functional_close n a b L Hn Hb HL HO lam V tau rho phi (proj1 Ex) Hl He c f Hf).
Qed.
Lemma inexact_nodes : phi < 1 -> forall p, In p ps -> exists x, monic a b n x = 0 /\ Rabs (fst p - x) <= rho * sqrt (INR n / (1 - phi)).
Proof.
  intros Hp p Hin. destruct inexact_pairs as (lam & V & Hl & He & _ & Hv). destruct (Hv p Hin) as (k & Hk & ->).
  exact (node_close n a b L Hn Hb HL HO lam V rho phi He Hp k Hk).
Qed.
End Driver.

(** ** Hermite *)
Lemma hermite_inexact : forall (ext : Linalg RA) n (r : GaussHermite RA) tau rho phi, (1 <= n)%Z -> sorts ext ->
  inexact_on ext (Z.to_nat n) (@hermite_diag RA) (@hermite_off_diag RA) tau rho phi -> hermite_new ext n = Ok r ->
  (forall c f, (forall x, f x = rsum (2 * Z.to_nat n) (fun j => c j * x ^ j)) -> exists v, hermite_integral f v /\
    Rabs (hermite_value r f - v) <= sqrt PI * rsum (2 * Z.to_nat n) (fun j => Rabs (c j) * moment_error (Z.to_nat n) tau rho phi j)) /\
  (phi < 1 -> forall p, In p (hermite_pairs r) -> exists x, monic (@hermite_diag RA) (@hermite_off_diag RA) (Z.to_nat n) x = 0 /\
    Rabs (fst p - x) <= rho * sqrt (INR (Z.to_nat n) / (1 - phi))).
Proof.
  intros ext n r tau rho phi Hn So Ex Hr. destruct hermite_coeffs as (Ca & Cb & Cz). assert (Hn' : (1 <= Z.to_nat n)%nat) by lia.
  assert (HO : orthogonal_up_to (Z.to_nat n) hermite_L (monic (@hermite_diag RA) (@hermite_off_diag RA))) by (intros i k Hik _; apply hermite_orth; [exact Ca|exact Cb|lia]).
  split.
  - intros c f Hf. exists (hermite_L f). split.
    + apply (hermite_gen (2 * Z.to_nat n - 1)). exists c. intros x. replace (S (2 * Z.to_nat n - 1)) with (2 * Z.to_nat n)%nat by lia. apply Hf.
    + unfold hermite_value. rewrite hermite_R. rewrite <- (Rabs_right (sqrt PI)) by (apply Rle_ge, sqrt_pos).
      exact (inexact_values ext (Z.to_nat n) _ _ (sqrt PI) tau rho phi _ Hn' (fun i _ => Cz i) So Ex (hermite_new_inv ext n r Hr) hermite_L hermite_linear hermite_one HO c f Hf).
  - exact (inexact_nodes ext (Z.to_nat n) _ _ (sqrt PI) tau rho phi _ Hn' (fun i _ => Cz i) So Ex (hermite_new_inv ext n r Hr) hermite_L hermite_linear HO).
Qed.
(** ** Laguerre *)
Lemma laguerre_inexact : forall (ext : Linalg RA) n (al : Param RA) (r : GaussLaguerre RA) (G tau rho phi : R), (1 <= n)%Z -> -1 < param_get al -> sorts ext ->
  inexact_on ext (Z.to_nat n) (@laguerre_diag RA (param_get al)) (@laguerre_off_diag RA (param_get al)) tau rho phi ->
  laguerre_new ext n al = Ok r -> is_Gamma (param_get al + 1) G ->
  (forall c f, (forall x, f x = rsum (2 * Z.to_nat n) (fun j => c j * x ^ j)) -> exists v, laguerre_integral (param_get al) f v /\
    Rabs (laguerre_value r f - @gamma RA (param_get al + 1) / G * v) <=
      @gamma RA (param_get al + 1) * rsum (2 * Z.to_nat n) (fun j => Rabs (c j) * moment_error (Z.to_nat n) tau rho phi j)) /\
  (phi < 1 -> forall p, In p (laguerre_pairs r) -> exists x, monic (@laguerre_diag RA (param_get al)) (@laguerre_off_diag RA (param_get al)) (Z.to_nat n) x = 0 /\
    Rabs (fst p - x) <= rho * sqrt (INR (Z.to_nat n) / (1 - phi))).
Proof.
  intros ext n al r G tau rho phi Hn Hal So Ex Hr HG. destruct (laguerre_coeffs (param_get al) Hal) as (Ca & Cb & Cz). assert (Hn' : (1 <= Z.to_nat n)%nat) by lia.
  assert (EG := gamma_mass (param_get al) G Hal HG).
  assert (Gp : 0 < G) by (rewrite EG; apply laguerre_one_pos, Hal).
  assert (g0 : 0 < @gamma RA (param_get al + 1)) by (apply (GammaProof.gamma_pos (param_get al + 1)); lra).
  set (s := @gamma RA (param_get al + 1)) in *. set (L := fun f => s / G * laguerre_L (param_get al) f).
  assert (HL : linear_on_polynomials L) by (apply scaled_linear, laguerre_linear, Hal).
  assert (H1 : L (fun _ => 1) = s) by (unfold L; rewrite <- EG; field; lra).
  assert (HO : orthogonal_up_to (Z.to_nat n) L (monic (@laguerre_diag RA (param_get al)) (@laguerre_off_diag RA (param_get al)))).
  { intros i k Hik _. unfold L. rewrite laguerre_orth; [ring|exact Hal|exact Ca|exact Cb|lia]. }
  split.
  - intros c f Hf. exists (laguerre_L (param_get al) f). split.
    + apply (laguerre_gen (param_get al) Hal (2 * Z.to_nat n - 1)). exists c. intros x. replace (S (2 * Z.to_nat n - 1)) with (2 * Z.to_nat n)%nat by lia. apply Hf.
    + unfold laguerre_value. rewrite laguerre_R. rewrite <- (Rabs_right s) at 2 by lra.
      exact (inexact_values ext (Z.to_nat n) _ _ s tau rho phi _ Hn' (fun i _ => Cz i) So Ex (laguerre_new_inv ext n al r Hr) L HL H1 HO c f Hf).
  - exact (inexact_nodes ext (Z.to_nat n) _ _ s tau rho phi _ Hn' (fun i _ => Cz i) So Ex (laguerre_new_inv ext n al r Hr) L HL HO).
Qed.
(** ** Jacobi *)
Lemma jacobi_inexact : forall t (ext : Linalg RA) n (pa pb : Param RA) (r : GaussJacobi RA) (M tau rho phi : R), (2 <= n)%Z ->
  -1 < param_get pa -> -1 < param_get pb -> param_get pa + param_get pb <> -1 ->
  ~ delegated (param_get pa) (param_get pb) -> sorts ext ->
  inexact_on ext (Z.to_nat n) (@jacobi_diag RA (param_get pa) (param_get pb)) (@jacobi_off_diag RA (param_get pa) (param_get pb)) tau rho phi ->
  jacobi_new t ext n pa pb = Ok r -> (n mod 2 = 0)%Z -> jacobi_integral (param_get pa) (param_get pb) (fun _ => 1) M ->
  (forall c f, (forall x, f x = rsum (2 * Z.to_nat n) (fun j => c j * x ^ j)) -> exists v, jacobi_integral (param_get pa) (param_get pb) f v /\
    Rabs (jacobi_value r (-1) 1 f - jacobi_mass (param_get pa) (param_get pb) / M * v) <=
      jacobi_mass (param_get pa) (param_get pb) * rsum (2 * Z.to_nat n) (fun j => Rabs (c j) * moment_error (Z.to_nat n) tau rho phi j)) /\
  (phi < 1 -> forall p, In p (jacobi_pairs r) -> exists x, monic (@jacobi_diag RA (param_get pa) (param_get pb)) (@jacobi_off_diag RA (param_get pa) (param_get pb)) (Z.to_nat n) x = 0 /\
    Rabs (fst p - x) <= rho * sqrt (INR (Z.to_nat n) / (1 - phi))).
Proof.
  intros t ext n pa pb r M tau rho phi Hn Hal Hbe Hab Nd So Ex Hr Ev HM.
  destruct (jacobi_coeffs (param_get pa) (param_get pb) Hal Hbe Hab) as (Ca0 & CaS & Cb0 & CbS & Cz). assert (Hn' : (1 <= Z.to_nat n)%nat) by lia.
  assert (EM : jacobi_L (param_get pa) (param_get pb) (fun _ => 1) = M) by (apply is_RInt_gen_unique; exact HM).
  assert (Mp := jacobi_one_pos (param_get pa) (param_get pb) Hal Hbe). rewrite EM in Mp.
  assert (g0 := jacobi_mass_pos (param_get pa) (param_get pb) Hal Hbe Hab).
  set (s := jacobi_mass (param_get pa) (param_get pb)) in *. set (L := fun f => s / M * jacobi_L (param_get pa) (param_get pb) f).
  assert (HL : linear_on_polynomials L) by (apply scaled_linear, jacobi_linear; assumption).
  assert (H1 : L (fun _ => 1) = s) by (unfold L; rewrite EM; field; lra).
  assert (HO : orthogonal_up_to (Z.to_nat n) L (monic (@jacobi_diag RA (param_get pa) (param_get pb)) (@jacobi_off_diag RA (param_get pa) (param_get pb)))).
  { intros i k Hik _. unfold L. rewrite (jacobi_orth (param_get pa) (param_get pb) Hal Hbe _ _ Ca0 CaS Cb0 CbS); [ring|lia]. }
  destruct (jacobi_new_inv t ext n pa pb r Hn Nd Hr) as (ps & H2 & H3). rewrite jacobi_scale_R in H2. fold s in H2.
  rewrite Ev in H3. simpl in H3. injection H3; intros E3. rewrite E3 in H2.
  split.
  - intros c f Hf. exists (jacobi_L (param_get pa) (param_get pb) f). split.
    + apply (jacobi_gen (param_get pa) (param_get pb) Hal Hbe (2 * Z.to_nat n - 1)). exists c. intros x. replace (S (2 * Z.to_nat n - 1)) with (2 * Z.to_nat n)%nat by lia. apply Hf.
    + unfold jacobi_value. rewrite jacobi_R, gauss_on_unit. rewrite <- (Rabs_right s) at 2 by lra.
      exact (inexact_values ext (Z.to_nat n) _ _ s tau rho phi _ Hn' (fun i _ => Cz i) So Ex H2 L HL H1 HO c f Hf).
  - exact (inexact_nodes ext (Z.to_nat n) _ _ s tau rho phi _ Hn' (fun i _ => Cz i) So Ex H2 L HL HO).
Qed.
(** An exact solver is one without errors; so solvers as assumed exist. *)
Lemma exact_is_inexact : forall ext n a b, exact_on ext n a b -> exists tau, inexact_on ext n a b tau 0 0.
Proof.
  intros ext n a b Ex. destruct (le_lt_dec n 0) as [H0|H0].
  - exists 0. replace n with O by lia. split; [intros i Hi; lia|]. intros m Sq Hm. specialize (Ex m). replace n with O in Ex by lia.
    destruct (Ex Sq Hm) as (A & B & _). split; [exact A|]. split; [exact B|]. split; [intros; lia|]. split; [intros; lia|]. split; intros; lia.
  - destruct (@companion_ok RA n a b H0) as (m & _ & Sq & Hm).
    assert (Bd : forall (g : nat -> R) k, exists t, forall i, (i < k)%nat -> g i <= t).
    { intros g. induction k; [exists 0; intros; lia|]. destruct IHk as [t Ht]. exists (Rmax t (g k)). intros i Hi. destruct (Nat.eq_dec i k) as [->|]; [apply Rmax_r|].
      eapply Rle_trans; [apply Ht; lia|apply Rmax_l]. }
    destruct (Bd (fun i => rsum n (fun j => Rabs (@tridiagonal RA a b i j))) n) as [t1 T1].
    destruct (Bd (fun k => Rabs (nth k (fst (symmetric_eigen ext m)) 0)) n) as [t2 T2].
    exists (Rmax t1 t2). split; [intros i Hi; eapply Rle_trans; [apply T1, Hi|apply Rmax_l]|].
    intros m' Sq' Hm'. assert (m' = m) as -> by (apply (square_ext n); try assumption; intros; rewrite Hm, Hm' by assumption; reflexivity).
    destruct (Ex m Sq Hm) as (A & B & C & D & F). split; [exact A|]. split; [exact B|]. split.
    + intros k Hk. eapply Rle_trans; [apply (T2 k Hk)|apply Rmax_r].
    + split; [|split].
      * intros i k Hi Hk. cbv beta. rewrite C by assumption. rewrite Rminus_eq_0, Rabs_R0. lra.
      * intros i Hi. rewrite D by lia. rewrite Rminus_eq_0, Rabs_R0. lra.
      * intros k Hk. rewrite F by assumption. unfold kronecker. rewrite Nat.eqb_refl, Rminus_eq_0, Rabs_R0. lra.
Qed.
