(** Accuracy of the Laguerre and Jacobi rules built with the library's gamma. *)
From Coq Require Import Reals List ZArith Lra Lia.
From Coquelicot Require Import Coquelicot.
From Verif Require Import Arith RInst Machine Param Rules PolySpec PolyProof GolubWelsch GWSpec EigenSpec WeightSpec MassSpec
  Gamma GammaProof Hermite Laguerre Jacobi RuleSpec Spectral GaussExact JacobiMore GammaTrue GamNum GamAll.
Import ListNotations.
Local Open Scope R_scope.

Lemma laguerre_accurate : forall (ext : Linalg RA) n (al : Param RA) (r : GaussLaguerre RA), (1 <= n)%Z ->
  -1 < param_get al -> sorts ext ->
  exact_on ext (Z.to_nat n) (@laguerre_diag RA (param_get al)) (@laguerre_off_diag RA (param_get al)) ->
  laguerre_new ext n al = Ok r ->
  forall f, polynomial (2 * Z.to_nat n - 1) f ->
  exists v, laguerre_integral (param_get al) f v /\ Rabs (laguerre_value r f - v) <= 12 / 10 ^ 14 * Rabs v.
Proof.
  intros ext n al r Hn Hal So Ex Hr f Hf.
  assert (HG := Gam_is (param_get al + 1) ltac:(lra)).
  destruct (laguerre_exact ext n al r (Gam (param_get al + 1)) Hn Hal So Ex Hr HG f Hf) as (v & Hv & E).
  exists v. split; [exact Hv|]. rewrite E. apply scale_acc; [apply Gam_pos; lra|].
  apply gamma_accurate; [lra|exact HG].
Qed.
Lemma jacobi_true_mass : forall al be, -1 < al -> -1 < be -> jacobi_integral al be (fun _ => 1) (jacobi_L al be (fun _ => 1)).
Proof. intros al be Hal Hbe. apply (jacobi_gen al be Hal Hbe 0). apply poly_const. Qed.
Lemma jacobi_even_accurate : forall t (ext : Linalg RA) n (pa pb : Param RA) (r : GaussJacobi RA), (2 <= n)%Z ->
  -1 < param_get pa -> -1 < param_get pb -> param_get pa + param_get pb <> -1 ->
  ~ delegated (param_get pa) (param_get pb) -> sorts ext ->
  exact_on ext (Z.to_nat n) (@jacobi_diag RA (param_get pa) (param_get pb)) (@jacobi_off_diag RA (param_get pa) (param_get pb)) ->
  jacobi_new t ext n pa pb = Ok r -> (n mod 2 = 0)%Z \/ param_get pa = param_get pb ->
  forall f, polynomial (2 * Z.to_nat n - 1) f ->
  exists v, jacobi_integral (param_get pa) (param_get pb) f v /\ Rabs (jacobi_value r (-1) 1 f - v) <= 36 / 10 ^ 14 * Rabs v.
Proof.
  intros t ext n pa pb r Hn Ha Hb Hs Nd So Ex Hr Par f Hf.
  assert (HM := jacobi_true_mass _ _ Ha Hb). set (M := jacobi_L (param_get pa) (param_get pb) (fun _ => 1)) in *.
  destruct (jacobi_mass_accurate _ _ M Ha Hb Hs HM) as [PM A].
  assert (E : exists v, jacobi_integral (param_get pa) (param_get pb) f v /\
    jacobi_value r (-1) 1 f = jacobi_mass (param_get pa) (param_get pb) / M * v).
  { destruct (Z.eq_dec (n mod 2) 0) as [Ev|Od].
    - exact (jacobi_even_exact t ext n pa pb r Hn Ha Hb Hs Nd So Ex Hr Ev M HM f Hf).
    - destruct Par as [|Eab]; [contradiction|]. assert (O := Z.mod_pos_bound n 2 ltac:(lia)).
      exact (jacobi_odd_symmetric_exact t ext n pa pb r Hn Ha Hb Hs Nd So Ex Hr ltac:(lia) Eab M HM f Hf). }
  destruct E as (v & Hv & E). exists v. split; [exact Hv|]. rewrite E. apply scale_acc; assumption.
Qed.
Lemma jacobi_one_accurate : forall t (ext : Linalg RA) (pa pb : Param RA) (r : GaussJacobi RA),
  -1 < param_get pa -> -1 < param_get pb -> ~ delegated (param_get pa) (param_get pb) ->
  jacobi_new t ext 1 pa pb = Ok r ->
  forall f, polynomial 1 f -> exists v, jacobi_integral (param_get pa) (param_get pb) f v /\
      Rabs (jacobi_value r (-1) 1 f - v) <= 36 / 10 ^ 14 * Rabs v.
Proof.
  intros t ext pa pb r Ha Hb Nd Hr f Hf.
  assert (HM := jacobi_true_mass _ _ Ha Hb). set (M := jacobi_L (param_get pa) (param_get pb) (fun _ => 1)) in *.
  destruct (jacobi_mass1_accurate _ _ M Ha Hb HM) as [PM A].
  destruct (jacobi_one_exact t ext pa pb r M Ha Hb Nd Hr HM) as (x & _ & _ & _ & _ & H). destruct (H f Hf) as (v & Hv & E).
  exists v. split; [exact Hv|]. rewrite E. apply scale_acc; assumption.
Qed.
Lemma gamma_fifty_wrong : exists x G, 0 < x /\ is_Gamma x G /\ 1 / 10 ^ 13 * G < Rabs (@gamma RA x - G).
Proof.
  exists 50, (Gam 50). assert (P := Gam_pos 50 ltac:(lra)). split; [lra|]. split; [apply Gam_is; lra|].
  assert (F := gamma_fifty). apply Rlt_le_trans with (Gam 50 - @gamma RA 50); [lra|].
  rewrite Rabs_minus_sym. apply Rle_abs.
Qed.
Lemma gamma_integer : forall x, 0 < x -> exists G, is_Gamma x G /\ 0 < G.
Proof. intros x Hx. exists (Gam x). split; [apply Gam_is, Hx|apply Gam_pos, Hx]. Qed.
Lemma gamma_five : is_Gamma 5 24.
Proof.
  replace 24 with (Gam 5); [apply Gam_is; lra|].
  replace 5 with (1 + 1 + 1 + 1 + 1) by ring. rewrite !Gam_S, Gam_1 by lra. ring.
Qed.
