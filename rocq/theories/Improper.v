(** Improper integrals through antiderivatives; weight functions with a Pearson
    equation. *)
From Coq Require Import Reals Lra Lia List FunctionalExtensionality.
From Coquelicot Require Import Coquelicot.
From Verif Require Import RSum PolySpec PolyProof.
Local Open Scope R_scope.

Lemma cont_mult : forall (f g : R -> R) x, continuous f x -> continuous g x -> continuous (fun y => f y * g y) x.
Proof. intros f g x Hf Hg. apply (continuous_mult (K := R_AbsRing) f g x Hf Hg). Qed.
Lemma cont_plus : forall (f g : R -> R) x, continuous f x -> continuous g x -> continuous (fun y => f y + g y) x.
Proof. intros f g x Hf Hg. apply (continuous_plus (V := R_NormedModule) f g x Hf Hg). Qed.
Lemma lim_mult : forall (F : (R -> Prop) -> Prop) {FF : Filter F} f g a b, filterlim f F (locally a) -> filterlim g F (locally b) ->
  filterlim (fun x => f x * g x) F (locally (a * b)).
Proof.
  intros F FF f g a b Hf Hg.
  apply (filterlim_comp_2 (G := locally a) (H := locally b) f g Rmult Hf Hg).
  apply (filterlim_mult (K := R_AbsRing) a b).
Qed.
Lemma lim_plus : forall (F : (R -> Prop) -> Prop) {FF : Filter F} f g a b, filterlim f F (locally a) -> filterlim g F (locally b) ->
  filterlim (fun x => f x + g x) F (locally (a + b)).
Proof.
  intros F FF f g a b Hf Hg.
  apply (filterlim_comp_2 (G := locally a) (H := locally b) f g Rplus Hf Hg).
  apply (filterlim_plus (V := R_NormedModule) a b).
Qed.
Lemma lim_const : forall (F : (R -> Prop) -> Prop) {FF : Filter F} (a : R), filterlim (fun _ : R => a) F (locally a).
Proof. intros F FF a. apply filterlim_const. Qed.
Lemma lim_scal : forall (F : (R -> Prop) -> Prop) {FF : Filter F} c f a, filterlim f F (locally a) ->
  filterlim (fun x => c * f x) F (locally (c * a)).
Proof. intros. apply lim_mult; [exact FF|apply lim_const; exact FF|assumption]. Qed.
Lemma lim_ext : forall (F : (R -> Prop) -> Prop) {FF : Filter F} (f g : R -> R) (a b : R),
  (forall x, f x = g x) -> a = b -> filterlim f F (locally a) -> filterlim g F (locally b).
Proof. intros F FF f g a b H <- Hf. apply (filterlim_ext f); assumption. Qed.
Lemma lim_ext_D : forall (F : (R -> Prop) -> Prop) {FF : Filter F} (D : R -> Prop) (f g : R -> R) a,
  F D -> (forall x, D x -> f x = g x) -> filterlim f F (locally a) -> filterlim g F (locally a).
Proof. intros F FF D f g a HD H Hf. apply (filterlim_ext_loc f); [|assumption]. eapply filter_imp; [|exact HD]. exact H. Qed.

(** polynomials are continuous and differentiable *)
Lemma poly_cont : forall d f x, polynomial d f -> continuous f x.
Proof.
  intros d f x [c Hc]. apply (continuous_ext (fun x => rsum (S d) (fun i => c i * x ^ i))); [intros; symmetry; apply Hc|].
  generalize (S d) as n. induction n; simpl; [apply continuous_const|]. apply cont_plus; [exact IHn|].
  apply cont_mult; [apply continuous_const|]. clear. induction n; simpl; [apply continuous_const|].
  apply cont_mult; [apply continuous_id|exact IHn].
Qed.
Lemma poly_derive : forall d f, polynomial d f -> exists f', polynomial d f' /\ forall x, is_derive f x (f' x).
Proof.
  intros d f [c Hc].
  exists (fun x => rsum (S d) (fun i => c i * INR i * x ^ (pred i))). split.
  - apply poly_sum. intros i Hi. apply poly_scal. apply (poly_weaken (pred i)); [lia|apply poly_pow].
  - intros x. apply (is_derive_ext (fun x => rsum (S d) (fun i => c i * x ^ i))); [intros; symmetry; apply Hc|].
    generalize (S d) as n. induction n; simpl; [apply (is_derive_const (K := R_AbsRing) (V := R_NormedModule) 0 x)|].
    apply (is_derive_plus (K := R_AbsRing) (V := R_NormedModule) (fun x => rsum n (fun i => c i * x ^ i)) (fun x => c n * x ^ n)); [exact IHn|].
    auto_derive; [trivial|]. ring.
Qed.

Section Domain.
(** An interval [D] with filters for its two ends. *)
Variables (D : R -> Prop) (Fa Fb : (R -> Prop) -> Prop).
Context {PA : ProperFilter' Fa} {PB : ProperFilter' Fb}.
Hypothesis convex : forall u v x, D u -> D v -> Rmin u v <= x <= Rmax u v -> D x.
Hypothesis DA : Fa D.
Hypothesis DB : Fb D.
Let FFA : Filter Fa := filter_filter'.
Let FFB : Filter Fb := filter_filter'.

Definition has_int (f : R -> R) (I : R) : Prop :=
  exists F la lb, (forall x, D x -> is_derive F x (f x)) /\
    filterlim F Fa (locally la) /\ filterlim F Fb (locally lb) /\ I = lb - la.

Lemma has_int_gen : forall f I, (forall x, D x -> continuous f x) -> has_int f I -> is_RInt_gen f Fa Fb I.
Proof.
  intros f I Hc (F & la & lb & HF & Ha & Hb & ->). intros P HP.
  assert (Hlim : filterlim (fun uv : R * R => F (snd uv) - F (fst uv)) (filter_prod Fa Fb) (locally (lb - la))).
  { apply (filterlim_comp_2 (G := locally lb) (H := locally (- la)) (fun uv : R * R => F (snd uv)) (fun uv : R * R => - F (fst uv)) Rplus).
    - apply (filterlim_comp (R * R) R R snd F (filter_prod Fa Fb) Fb (locally lb)); [apply filterlim_snd|exact Hb].
    - apply (filterlim_comp (R * R) R R (fun uv => F (fst uv)) Ropp (filter_prod Fa Fb) (locally la) (locally (- la))).
      + apply (filterlim_comp (R * R) R R fst F (filter_prod Fa Fb) Fa (locally la)); [apply filterlim_fst|exact Ha].
      + apply (filterlim_opp (V := R_NormedModule) la).
    - apply (filterlim_plus (V := R_NormedModule) lb (- la)). }
  specialize (Hlim P HP).
  assert (HD : filter_prod Fa Fb (fun uv => D (fst uv) /\ D (snd uv))).
  { exists D D; [exact DA|exact DB|]. intros; split; assumption. }
  unfold filtermap in Hlim. unfold filtermapi.
  assert (HA := filter_and _ _ HD Hlim). revert HA. apply filter_imp.
  intros [u v] [[Du Dv] Hp]. exists (F v - F u). split; [|exact Hp].
  apply (is_RInt_derive (V := R_CompleteNormedModule) F f u v).
  - intros x Hx. apply HF. apply (convex u v); assumption.
  - intros x Hx. apply Hc. apply (convex u v); assumption.
Qed.

Lemma has_int_ext : forall f g I, (forall x, D x -> f x = g x) -> has_int f I -> has_int g I.
Proof.
  intros f g I H (F & la & lb & HF & Ha & Hb & E). exists F, la, lb. split; [|auto].
  intros x Hx. rewrite <- H by exact Hx. apply HF, Hx.
Qed.
Lemma has_int_lin : forall c e f g I J, has_int f I -> has_int g J ->
  has_int (fun x => c * f x + e * g x) (c * I + e * J).
Proof.
  intros c e f g I J (F & la & lb & HF & Ha & Hb & ->) (G & ma & mb & HG & Ga & Gb & ->).
  exists (fun x => c * F x + e * G x), (c * la + e * ma), (c * lb + e * mb). split; [|split; [|split]].
  - intros x Hx. apply (is_derive_plus (K := R_AbsRing) (V := R_NormedModule) (fun x => c * F x) (fun x => e * G x)).
    + apply (is_derive_scal F x c (f x)). apply HF, Hx.
    + apply (is_derive_scal G x e (g x)). apply HG, Hx.
  - apply lim_plus; [exact FFA|apply lim_scal; assumption|apply lim_scal; assumption].
  - apply lim_plus; [exact FFB|apply lim_scal; assumption|apply lim_scal; assumption].
  - ring.
Qed.
Lemma has_int_derive : forall F f la lb, (forall x, D x -> is_derive F x (f x)) ->
  filterlim F Fa (locally la) -> filterlim F Fb (locally lb) -> has_int f (lb - la).
Proof. intros F f la lb H1 H2 H3. exists F, la, lb. auto. Qed.

(** ** A weight function with all moments *)
Variable w : R -> R.
Hypothesis w_cont : forall x, D x -> continuous w x.
Hypothesis moments : forall k, exists I, has_int (fun x => w x * x ^ k) I.

Lemma poly_int : forall d f, polynomial d f -> exists I, has_int (fun x => w x * f x) I.
Proof.
  intros d f [c Hc].
  enough (G : forall n, exists I, has_int (fun x => w x * rsum n (fun i => c i * x ^ i)) I).
  { destruct (G (S d)) as [I HI]. exists I. apply (has_int_ext (fun x => w x * rsum (S d) (fun i => c i * x ^ i))); [|exact HI].
    intros x _. rewrite <- Hc. reflexivity. }
  induction n as [|n [I HI]].
  - exists (0 - 0). apply (has_int_derive (fun _ => 0)).
    + intros x _. simpl. rewrite Rmult_0_r. apply (is_derive_const (V := R_NormedModule)).
    + apply lim_const. exact FFA.
    + apply lim_const. exact FFB.
  - destruct (moments n) as [J HJ]. exists (1 * I + c n * J).
    apply (has_int_ext (fun x => 1 * (w x * rsum n (fun i => c i * x ^ i)) + c n * (w x * x ^ n))).
    + intros x _. simpl. ring.
    + apply has_int_lin; assumption.
Qed.

(** the functional: integrate against the weight *)
Definition wint (f : R -> R) : R := RInt_gen (fun x => w x * f x) Fa Fb.

Lemma wint_val : forall d f I, polynomial d f -> has_int (fun x => w x * f x) I -> wint f = I.
Proof.
  intros d f I Hf HI. apply is_RInt_gen_unique. apply has_int_gen; [|exact HI].
  intros x Hx. apply cont_mult; [apply w_cont, Hx|apply (poly_cont d), Hf].
Qed.
Lemma wint_correct : forall d f, polynomial d f -> has_int (fun x => w x * f x) (wint f).
Proof.
  intros d f Hf. destruct (poly_int d f Hf) as [I HI]. rewrite (wint_val d f I Hf HI). exact HI.
Qed.
Lemma wint_gen : forall d f, polynomial d f -> is_RInt_gen (fun x => w x * f x) Fa Fb (wint f).
Proof.
  intros d f Hf. apply has_int_gen; [|apply (wint_correct d), Hf].
  intros x Hx. apply cont_mult; [apply w_cont, Hx|apply (poly_cont d), Hf].
Qed.
Lemma wint_linear : linear_on_polynomials wint.
Proof.
  intros d c e f g Hf Hg. apply (wint_val d); [apply poly_lin; assumption|].
  apply (has_int_ext (fun x => c * (w x * f x) + e * (w x * g x))); [intros; ring|].
  apply has_int_lin; apply (wint_correct d); assumption.
Qed.

(** ** Pearson's equation *)
Variables (sigma tau : R -> R).
Hypothesis sigma_poly : polynomial 2 sigma.
Hypothesis pearson : forall x, D x -> is_derive (fun y => sigma y * w y) x (tau x * w x).
Hypothesis bound_a : forall k, filterlim (fun x => sigma x * w x * x ^ k) Fa (locally 0).
Hypothesis bound_b : forall k, filterlim (fun x => sigma x * w x * x ^ k) Fb (locally 0).

Lemma bound_poly : forall (F : (R -> Prop) -> Prop) {FF : Filter F} d f, polynomial d f ->
  (forall k, filterlim (fun x => sigma x * w x * x ^ k) F (locally 0)) ->
  filterlim (fun x => sigma x * w x * f x) F (locally 0).
Proof.
  intros F FF d f [c Hc] H.
  apply (lim_ext F (fun x => sigma x * w x * rsum (S d) (fun i => c i * x ^ i)) _ 0 0); [intros; rewrite Hc; reflexivity|reflexivity|].
  generalize (S d) as n. induction n.
  - apply (lim_ext F (fun _ => 0) _ 0 0); [intros; simpl; ring|reflexivity|apply lim_const; exact FF].
  - apply (lim_ext F (fun x => sigma x * w x * rsum n (fun i => c i * x ^ i) + c n * (sigma x * w x * x ^ n)) _ (0 + c n * 0) 0).
    + intros; simpl; ring.
    + ring.
    + apply lim_plus; [exact FF|exact IHn|apply lim_scal; [exact FF|apply H]].
Qed.

Lemma pearson_int : forall d f f' e g, polynomial d f -> (forall x, is_derive f x (f' x)) ->
  polynomial e g -> (forall x, D x -> g x = sigma x * f' x + tau x * f x) -> wint g = 0.
Proof.
  intros d f f' e g Hf Hd Hg Eg. apply (wint_val e); [exact Hg|].
  - apply (has_int_ext (fun x => w x * (sigma x * f' x + tau x * f x))); [intros; rewrite Eg by assumption; reflexivity|].
    replace 0 with (0 - 0) by ring.
    apply (has_int_derive (fun x => sigma x * w x * f x)).
    + intros x Hx.
      replace (w x * (sigma x * f' x + tau x * f x)) with (tau x * w x * f x + sigma x * w x * f' x) by ring.
      apply (is_derive_mult (fun y => sigma y * w y) f x (tau x * w x) (f' x)); [apply pearson, Hx|apply Hd|].
      intros; apply Rmult_comm.
    + apply (bound_poly Fa d f Hf bound_a).
    + apply (bound_poly Fb d f Hf bound_b).
Qed.

(** ** Orthogonality of eigenfunctions *)
Variables (P P1 P2 : nat -> R -> R) (mu : nat -> R).
Hypothesis P_poly : forall k, polynomial k (P k).
Hypothesis P1_poly : forall k, polynomial k (P1 k).
Hypothesis P2_poly : forall k, polynomial k (P2 k).
Hypothesis P_der : forall k x, is_derive (P k) x (P1 k x).
Hypothesis P1_der : forall k x, is_derive (P1 k) x (P2 k x).
Hypothesis P_eq : forall k x, D x -> sigma x * P2 k x + tau x * P1 k x = mu k * P k x.

Lemma self_adjoint : forall i k, wint (fun x => sigma x * (P1 i x * P1 k x)) = - (mu i * wint (fun x => P i x * P k x)).
Proof.
  intros i k.
  assert (H : wint (fun x => sigma x * (P1 i x * P1 k x) + mu i * (P i x * P k x)) = 0).
  { apply (pearson_int (i + k) (fun x => P1 i x * P k x) (fun x => P2 i x * P k x + P1 i x * P1 k x) (2 + (i + k))).
    - apply poly_mul; auto.
    - intros x. apply (is_derive_mult (P1 i) (P k)); [apply P1_der|apply P_der|]. intros; apply Rmult_comm.
    - apply poly_add; [apply poly_mul; [exact sigma_poly|apply poly_mul; auto]|].
      apply poly_scal. apply (poly_weaken (i + k)); [lia|]. apply poly_mul; auto.
    - intros x Dx. replace (mu i * (P i x * P k x)) with ((mu i * P i x) * P k x) by ring. rewrite <- P_eq by exact Dx. ring. }
  rewrite (lin_add wint wint_linear (2 + (i + k))) in H.
  - rewrite (lin_scal wint wint_linear (i + k)) in H by (apply poly_mul; auto). lra.
  - apply poly_mul; [exact sigma_poly|]. apply poly_mul; auto.
  - apply poly_scal. apply (poly_weaken (i + k)); [lia|]. apply poly_mul; auto.
Qed.
Lemma eigen_orthogonal : forall i k, mu i <> mu k -> wint (fun x => P i x * P k x) = 0.
Proof.
  intros i k Hne. assert (E1 := self_adjoint i k). assert (E2 := self_adjoint k i).
  rewrite (functional_extensionality (fun x => sigma x * (P1 k x * P1 i x)) (fun x => sigma x * (P1 i x * P1 k x))) in E2 by (intros; ring).
  rewrite (functional_extensionality (fun x => P k x * P i x) (fun x => P i x * P k x)) in E2 by (intros; ring).
  rewrite E1 in E2. apply Ropp_eq_compat in E2. rewrite !Ropp_involutive in E2.
  apply Rmult_eq_reg_l with (mu i - mu k); [lra|lra].
Qed.
End Domain.
