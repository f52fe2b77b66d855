(** Polynomial functions. *)
From Coq Require Import Reals Lra Lia List FunctionalExtensionality.
From Verif Require Import RSum PolySpec.
Local Open Scope R_scope.

Lemma poly_ext : forall d f g, (forall x, f x = g x) -> polynomial d f -> polynomial d g.
Proof. intros d f g H [c Hc]. exists c. intros x. rewrite <- H. apply Hc. Qed.

Lemma poly_const : forall d k, polynomial d (fun _ => k).
Proof.
  intros d k. exists (fun i => if Nat.eqb i 0 then k else 0). intros x.
  rewrite rsum_first. simpl. rewrite rsum_eq0; [ring|]. intros; ring.
Qed.
Lemma poly_weaken : forall d e f, (d <= e)%nat -> polynomial d f -> polynomial e f.
Proof.
  intros d e f H [c Hc]. exists (fun i => if Nat.leb i d then c i else 0). intros x. rewrite Hc.
  replace (S e) with (S d + (e - d))%nat by lia. rewrite rsum_add.
  rewrite (rsum_eq0 (e - d)).
  - rewrite Rplus_0_r. apply rsum_ext. intros i Hi.
    replace (Nat.leb i d) with true by (symmetry; apply Nat.leb_le; lia). reflexivity.
  - intros i Hi. replace (Nat.leb (S d + i) d) with false by (symmetry; apply Nat.leb_gt; lia). ring.
Qed.
Lemma poly_lin : forall d a b f g, polynomial d f -> polynomial d g -> polynomial d (fun x => a * f x + b * g x).
Proof.
  intros d a b f g [c Hc] [e He]. exists (fun i => a * c i + b * e i). intros x. rewrite Hc, He.
  rewrite <- !rsum_scal, <- rsum_plus. apply rsum_ext. intros; ring.
Qed.
Lemma poly_add : forall d f g, polynomial d f -> polynomial d g -> polynomial d (fun x => f x + g x).
Proof. intros d f g Hf Hg. apply (poly_ext d (fun x => 1 * f x + 1 * g x)); [intros; ring|]. apply poly_lin; assumption. Qed.
Lemma poly_sub : forall d f g, polynomial d f -> polynomial d g -> polynomial d (fun x => f x - g x).
Proof. intros d f g Hf Hg. apply (poly_ext d (fun x => 1 * f x + -1 * g x)); [intros; ring|]. apply poly_lin; assumption. Qed.
Lemma poly_scal : forall d k f, polynomial d f -> polynomial d (fun x => k * f x).
Proof. intros d k f Hf. apply (poly_ext d (fun x => k * f x + 0 * f x)); [intros; ring|]. apply poly_lin; assumption. Qed.
Lemma poly_mulx : forall d f, polynomial d f -> polynomial (S d) (fun x => x * f x).
Proof.
  intros d f [c Hc]. exists (fun i => match i with O => 0 | S j => c j end). intros x. rewrite Hc.
  rewrite (rsum_first (S d)). rewrite <- rsum_scal. rewrite Rmult_0_l, Rplus_0_l.
  apply rsum_ext. intros i _. rewrite <- tech_pow_Rmult. ring.
Qed.
Lemma poly_pow : forall k, polynomial k (fun x => x ^ k).
Proof. induction k; [exact (poly_const 0 1)|]. exact (poly_mulx _ _ IHk). Qed.
Lemma poly_sum : forall d n (f : nat -> R -> R), (forall i, (i < n)%nat -> polynomial d (f i)) ->
  polynomial d (fun x => rsum n (fun i => f i x)).
Proof.
  intros d n f H. induction n; simpl; [exact (poly_const d 0)|].
  apply poly_add; [apply IHn; auto with arith | apply H; auto with arith].
Qed.
Lemma poly_mul : forall d e f g, polynomial d f -> polynomial e g -> polynomial (d + e) (fun x => f x * g x).
Proof.
  intros d e f g [c Hc] Hg.
  apply (poly_ext _ (fun x => rsum (S d) (fun i => c i * (x ^ i * g x)))).
  { intros x. rewrite Hc, <- rsum_scal_r. apply rsum_ext. intros; ring. }
  apply poly_sum. intros i Hi. apply poly_scal.
  apply (poly_weaken (i + e)); [lia|]. clear Hi. induction i.
  - apply (poly_ext _ g); [intros; ring|]. exact Hg.
  - apply (poly_ext _ (fun x => x * (x ^ i * g x))); [intros; simpl; ring|]. simpl. apply poly_mulx, IHi.
Qed.
Lemma poly_affine : forall d f a b, polynomial d f -> polynomial d (fun x => f (a * x + b)).
Proof.
  intros d f a b [c Hc]. apply (poly_ext _ (fun x => rsum (S d) (fun i => c i * (a * x + b) ^ i))).
  { intros x. rewrite Hc. reflexivity. }
  apply poly_sum. intros i Hi. apply poly_scal. apply (poly_weaken i); [lia|]. clear Hi.
  induction i; [exact (poly_const 0 1)|]. apply (poly_ext _ (fun x => (a * x + b) * (a * x + b) ^ i)); [reflexivity|].
  change (S i) with (1 + i)%nat. apply poly_mul; [|exact IHi].
  exists (fun i => match i with O => b | _ => a end). intros x. simpl. ring.
Qed.
Lemma poly_id : polynomial 1 (fun x => x).
Proof. apply (poly_ext _ (fun x => x ^ 1)); [intros; ring|]. apply poly_pow. Qed.

(** Expansion in a sequence of polynomials of exact degrees. *)
Definition exact_degrees (P : nat -> R -> R) : Prop :=
  (exists l, l <> 0 /\ forall x, P O x = l) /\
  forall k, exists l, l <> 0 /\ polynomial k (fun x => P (S k) x - l * x ^ S k).

Lemma exact_poly : forall P, exact_degrees P -> forall k, polynomial k (P k).
Proof.
  intros P [[l [Hl H0]] HS] k. destruct k.
  - apply (poly_ext _ (fun _ => l)); [intros; symmetry; apply H0|]. apply poly_const.
  - destruct (HS k) as (m & Hm & Hp).
    apply (poly_ext _ (fun x => 1 * (P (S k) x - m * x ^ S k) + m * x ^ S k)); [intros; ring|].
    apply poly_lin; [apply (poly_weaken k); [lia|exact Hp]|apply poly_pow].
Qed.

Lemma expand : forall P, exact_degrees P -> forall d f, polynomial d f ->
  exists c : nat -> R, forall x, f x = rsum (S d) (fun i => c i * P i x).
Proof.
  intros P HP d. induction d; intros f [c Hc].
  - destruct HP as [(l & Hl & H0) _]. exists (fun _ => c O / l). intros x. rewrite Hc. simpl. rewrite H0. field. exact Hl.
  - destruct HP as [HP0 HS]. destruct (HS d) as (l & Hl & Hp).
    destruct (IHd (fun x => rsum (S d) (fun i => c i * x ^ i) - c (S d) / l * (P (S d) x - l * x ^ S d))) as [e He].
    + apply poly_sub; [exists c; reflexivity|]. apply poly_scal. exact Hp.
    + exists (fun i => if Nat.eqb i (S d) then c (S d) / l else e i). intros x. rewrite Hc.
      rewrite (rsum_S (S d)), (rsum_S (S d) (fun i => _ * P i x)). rewrite Nat.eqb_refl.
      assert (E := He x).
      replace (rsum (S d) (fun i => (if Nat.eqb i (S d) then c (S d) / l else e i) * P i x))
        with (rsum (S d) (fun i => e i * P i x)).
      * rewrite <- E. field. exact Hl.
      * apply rsum_ext. intros i Hi. replace (Nat.eqb i (S d)) with false; [reflexivity|].
        symmetry. apply Nat.eqb_neq. lia.
Qed.

(** Linear functionals. *)
Lemma lin_scal : forall L, linear_on_polynomials L -> forall d c f, polynomial d f ->
  L (fun x => c * f x) = c * L f.
Proof.
  intros L HL d c f Hf. rewrite <- (Rplus_0_r (c * L f)), <- (Rmult_0_l (L f)).
  rewrite <- (HL d c 0 f f Hf Hf). f_equal. extensionality x. ring.
Qed.
Lemma lin_add : forall L, linear_on_polynomials L -> forall d f g, polynomial d f -> polynomial d g ->
  L (fun x => f x + g x) = L f + L g.
Proof.
  intros L HL d f g Hf Hg. rewrite <- (Rmult_1_l (L f)), <- (Rmult_1_l (L g)).
  rewrite <- (HL d 1 1 f g Hf Hg). f_equal. extensionality x. ring.
Qed.
Lemma lin_zero : forall L, linear_on_polynomials L -> L (fun _ => 0) = 0.
Proof.
  intros L HL. pose proof (lin_scal L HL 0 0 (fun _ => 0) (poly_const 0 0)) as H.
  rewrite Rmult_0_l in H. transitivity (L (fun _ => 0 * 0)); [|exact H].
  f_equal. extensionality x. ring.
Qed.
Lemma lin_sum : forall L, linear_on_polynomials L -> forall d n c (f : nat -> R -> R),
  (forall i, (i < n)%nat -> polynomial d (f i)) ->
  L (fun x => rsum n (fun i => c i * f i x)) = rsum n (fun i => c i * L (f i)).
Proof.
  intros L HL d n c f H. induction n; simpl; [apply lin_zero; exact HL|].
  rewrite (lin_add L HL d).
  - rewrite IHn by auto with arith. rewrite (lin_scal L HL d) by auto with arith. reflexivity.
  - apply poly_sum. intros. apply poly_scal. auto with arith.
  - apply poly_scal. auto with arith.
Qed.
Lemma apply_rule_linear : forall l, linear_on_polynomials (apply_rule l).
Proof.
  intros l d c e f g _ _. unfold apply_rule. induction l as [|[x w] l IH]; simpl; [ring|].
  rewrite IH. ring.
Qed.
(** two functionals that agree on products of basis polynomials *)
Lemma agree_products : forall L M P, linear_on_polynomials L -> linear_on_polynomials M -> exact_degrees P ->
  forall d e, (forall i j, (i <= d)%nat -> (j <= e)%nat -> L (fun x => P i x * P j x) = M (fun x => P i x * P j x)) ->
  forall f, polynomial (d + e) f -> L f = M f.
Proof.
  intros L M P HL HM HP d e H.
  assert (PP : forall i j, (i <= d)%nat -> (j <= e)%nat -> polynomial (d + e) (fun x => P i x * P j x)).
  { intros i j Hi Hj. apply (poly_weaken (i + j)); [lia|]. apply poly_mul; apply exact_poly; exact HP. }
  assert (FG : forall f g, polynomial d f -> polynomial e g -> L (fun x => f x * g x) = M (fun x => f x * g x)).
  { intros f g Hf Hg. destruct (expand P HP d f Hf) as [c Hc]. destruct (expand P HP e g Hg) as [k Hk].
    assert (E : (fun x => f x * g x) = (fun x => rsum (S d) (fun i => c i * rsum (S e) (fun j => k j * (P i x * P j x))))).
    { extensionality x. rewrite Hc, Hk, <- rsum_scal_r. apply rsum_ext. intros i Hi.
      rewrite <- !rsum_scal. apply rsum_ext. intros; ring. }
    rewrite E. rewrite (lin_sum L HL (d + e)), (lin_sum M HM (d + e)).
    - apply rsum_ext. intros i Hi. f_equal. rewrite (lin_sum L HL (d + e)), (lin_sum M HM (d + e)).
      + apply rsum_ext. intros j Hj. f_equal. apply H; lia.
      + intros j Hj. apply PP; lia.
      + intros j Hj. apply PP; lia.
    - intros i Hi. apply poly_sum. intros j Hj. apply poly_scal, PP; lia.
    - intros i Hi. apply poly_sum. intros j Hj. apply poly_scal, PP; lia. }
  intros f [c Hc].
  assert (E : f = (fun x => rsum (S (d + e)) (fun i => c i * x ^ i))) by (extensionality x; apply Hc).
  rewrite E. rewrite (lin_sum L HL (d + e)), (lin_sum M HM (d + e)).
  - apply rsum_ext. intros i Hi. f_equal.
    assert (Es : (fun x => x ^ i) = (fun x => x ^ (Nat.min i d) * x ^ (i - Nat.min i d))).
    { extensionality x. rewrite <- pow_add. f_equal. lia. }
    rewrite Es. apply FG; [apply (poly_weaken (Nat.min i d)); [lia|apply poly_pow]|].
    apply (poly_weaken (i - Nat.min i d)); [lia|apply poly_pow].
  - intros i Hi. apply (poly_weaken i); [lia|apply poly_pow].
  - intros i Hi. apply (poly_weaken i); [lia|apply poly_pow].
Qed.
