(** Odd integrands over symmetric domains. *)
From Coq Require Import Reals Lra Lia List Arith ZArith FunctionalExtensionality.
From Coquelicot Require Import Coquelicot.
From Verif Require Import Arith RInst RInstProof Machine Param Rules RSum PolySpec PolyProof GolubWelsch GWSpec EigenSpec EigenProof Spectral
  Gamma Hermite Laguerre Legendre Chebyshev Jacobi RuleSpec NCSpec NCReal NCExact WeightSpec MassSpec GaussProof GWRoots GaussExact JacobiMore Mirror ConvRules ChebRule LegShape ParSpec.
Import ListNotations.
Local Open Scope R_scope.

Lemma hermite_symmetric : forall (ext : Linalg RA) n (r : GaussHermite RA), (1 <= n)%Z -> sorts ext ->
  exact_on ext (Z.to_nat n) (@hermite_diag RA) (@hermite_off_diag RA) -> hermite_new ext n = Ok r -> symmetric_rule (hermite_pairs r).
Proof.
  intros ext n r Hn So Ex Hr. destruct hermite_coeffs as (Ca & _ & Cz). assert (HG := hermite_new_inv ext n r Hr).
  assert (Z0 : (fun i => - @hermite_diag RA i) = @hermite_diag RA) by (extensionality i; rewrite (Ca i); apply Ropp_0).
  assert (M : hermite_pairs r = rev (map flip (hermite_pairs r))).
  { apply (reflect_pairs ext ext (Z.to_nat n) (@hermite_diag RA) (@hermite_off_diag RA) (sqrt PI)); try assumption; [lia|intros i _; apply Cz|rewrite Z0; exact Ex|rewrite Z0; exact HG]. }
  unfold symmetric_rule. change (map flip (hermite_pairs r) = rev (hermite_pairs r)). rewrite M at 2. rewrite rev_involutive. reflexivity.
Qed.
Lemma apply_neg : forall (l : list (R * R)) f, apply_rule l (fun x => - f x) = - apply_rule l f.
Proof. intros l f. unfold apply_rule. induction l as [|[x w] l IH]; cbn [map lsum]; [ring|]. rewrite IH. cbn [fst snd]. ring. Qed.
Lemma zero_of : forall v : R, v = - v -> v = 0. Proof. intros v H. lra. Qed.
Lemma hermite_parity : forall (ext : Linalg RA) n (r : GaussHermite RA), (1 <= n)%Z -> sorts ext ->
  exact_on ext (Z.to_nat n) (@hermite_diag RA) (@hermite_off_diag RA) -> hermite_new ext n = Ok r ->
  symmetric_rule (hermite_pairs r) /\ (forall f, hermite_value r (fun x => f (- x)) = hermite_value r f) /\ forall f, odd_about 0 f -> hermite_value r f = 0.
Proof.
  intros ext n r Hn So Ex Hr. assert (Sy := hermite_symmetric ext n r Hn So Ex Hr). split; [exact Sy|].
  assert (HV : forall f, hermite_value r f = apply_rule (hermite_pairs r) f) by (intros; unfold hermite_value; rewrite hermite_R; reflexivity).
  assert (Fl : forall f, hermite_value r (fun x => f (- x)) = hermite_value r f) by (intros f; rewrite !HV; apply symmetric_flip, Sy). split; [exact Fl|].
  intros f Of. apply zero_of. rewrite <- (Fl f) at 1. rewrite !HV. rewrite <- apply_neg. f_equal. extensionality x. specialize (Of x). replace (2 * 0 - x) with (- x) in Of by ring. exact Of.
Qed.
Lemma gauss_odd : forall l a b f, symmetric_rule l -> odd_about ((a + b) / 2) f -> gauss_on l a b f = 0.
Proof.
  intros l a b f Sy Of. assert (E : rev (map flip l) = l) by (change (map flip l) with (map (fun xw : R * R => (- fst xw, snd xw)) l); rewrite Sy; apply rev_involutive).
  assert (G := gauss_flip l a b f). rewrite E in G. apply zero_of. rewrite G at 1.
  replace (fun x => f (a + b - x)) with (fun x => -1 * f x) by (extensionality x; specialize (Of x); replace (2 * ((a + b) / 2) - x) with (a + b - x) in Of by field; rewrite Of; ring).
  unfold gauss_on. rewrite Ropp_mult_distr_r. f_equal. clear. induction l as [|[x w] l IH]; cbn [map lsum]; [ring|]. rewrite IH. cbn [fst snd]. ring.
Qed.
Lemma interval_parity : forall a b f, odd_about ((a + b) / 2) f ->
  (forall t n (r : GaussLegendre RA), (100 <= usize_max t)%Z -> (1 <= n)%Z -> (2 * n <= usize_max t)%Z -> legendre_new t n = Ok r -> (n <= 100)%Z \/ (n mod 2 = 0)%Z -> legendre_value r a b f = 0) /\
  (forall t n (r : GaussChebyshevFirstKind RA), (1 <= n < usize_max t)%Z -> chebyshev1_new t n = Ok r -> chebyshev1_value r a b f = 0) /\
  (forall t n (r : GaussChebyshevSecondKind RA), (1 <= n < usize_max t)%Z -> chebyshev2_new t n = Ok r -> chebyshev2_value r a b f = 0) /\
  (forall t (e : Linalg RA) n (pa pb : Param RA) (r : GaussJacobi RA), (1 <= n)%Z ->
    -1 < param_get pa -> param_get pa = param_get pb -> param_get pa + param_get pb <> -1 -> ~ delegated (param_get pa) (param_get pb) ->
    sorts e -> exact_on e (Z.to_nat n) (@jacobi_diag RA (param_get pa) (param_get pb)) (@jacobi_off_diag RA (param_get pa) (param_get pb)) ->
    jacobi_new t e n pa pb = Ok r -> jacobi_value r a b f = 0) /\
  (forall n, (1 <= n)%nat -> midpoint_value n a b f = 0 /\ trapezoid_value n a b f = 0 /\ simpson_value n a b f = 0).
Proof.
  intros a b f Of. split; [|split; [|split; [|split]]].
  - intros t n r Hu Hn H2 Hr Hs. unfold legendre_value. rewrite legendre_R. apply gauss_odd; [|exact Of]. exact (legendre_symmetric t n r Hu Hn H2 Hr Hs).
  - intros t n r Hn Hr. unfold chebyshev1_value. rewrite chebyshev1_R. apply gauss_odd; [|exact Of]. apply (cheb1_shape t n r Hn Hr).
  - intros t n r Hn Hr. unfold chebyshev2_value. rewrite chebyshev2_R. apply gauss_odd; [|exact Of]. apply (cheb2_shape t n r Hn Hr).
  - intros t e n pa pb r Hn Ha E Hab Nd Sr X Hr. unfold jacobi_value. rewrite jacobi_R. apply gauss_odd; [|exact Of]. exact (jacobi_symmetric t e n pa pb r Hn Ha E Hab Nd Sr X Hr).
  - intros n Hn. destruct (nc_affine n a b (-1) (a + b) f Hn) as (A1 & A2 & A3).
    replace (-1 * a + (a + b)) with b in A1, A2, A3 by ring. replace (-1 * b + (a + b)) with a in A1, A2, A3 by ring.
    replace (fun x => f (-1 * x + (a + b))) with (fun x => -1 * f x + 0 * f x) in A1, A2, A3
      by (extensionality x; specialize (Of x); replace (2 * ((a + b) / 2) - x) with (-1 * x + (a + b)) in Of by field; rewrite Of; ring).
    rewrite midpoint_antisym, midpoint_linear in A1 by exact Hn. rewrite trapezoid_antisym, trapezoid_linear in A2 by exact Hn. rewrite simpson_antisym, simpson_linear in A3 by exact Hn.
    split; [|split]; lra.
Qed.
