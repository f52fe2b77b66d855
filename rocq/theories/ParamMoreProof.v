(** Proofs about the error types and zerocopy (C58, C59). *)
From Coq Require Import String ZArith List Bool Lia Reals Lra.
From Flocq Require Import Core IEEE754.Binary IEEE754.Bits.
From Verif Require Import Arith F64 F64Spec Param ParamProof ParamMore.
Import ListNotations.

Section Errors.
Context {Str PFE : Type} (be : Backend) (parse : Str -> f64 + PFE) (show_pfe : PFE -> String.string).

Lemma parse_errors (s : Str) e : param_from_str (A := F64 be) parse s = inr e ->
  (exists e0, parse s = inr e0 /\ e = ParseError e0 /\
     parse_param_display show_pfe e = show_pfe e0 /\
     any_source (CrateParse e) = Some (StdParseFloat e0)) \/
  (exists v, parse s = inl v /\ ~ admissible v /\ e = InvalidValue MkInfNanNegOneOrLessError /\
     parse_param_display show_pfe e = invalid_display MkInfNanNegOneOrLessError /\
     any_source (CrateParse e) = Some (CrateInvalid MkInfNanNegOneOrLessError)).
Proof.
  unfold param_from_str. destruct (parse s) as [v|e0].
  - unfold param_try_from. destruct (param_new (A := F64 be) v) as [p|] eqn:E; [discriminate|].
    intros H; inversion H; subst. right. exists v. split; [reflexivity|]. split.
    + intros Ha. destruct (proj1 (new_spec be v) Ha) as (p & Hp & _).
      rewrite Hp in E. discriminate.
    + split; [reflexivity|]. split; reflexivity.
  - intros H; inversion H; subst. left. exists e0. split; [reflexivity|].
    split; [reflexivity|]. split; reflexivity.
Qed.

Lemma source_same_message (e : AnyError PFE) e' : any_source e = Some e' ->
  any_display show_pfe e' = any_display show_pfe e /\ any_source e' = None.
Proof.
  destruct e as [e|e|[e|e]]; simpl; intros H; inversion H; split; reflexivity.
Qed.
End Errors.

Lemma word_bytes_length z : length (word_bytes z) = 8%nat.
Proof. reflexivity. Qed.
Lemma word_bytes_range z : Forall (fun b => (0 <= b < 256)%Z) (word_bytes z).
Proof.
  unfold word_bytes. apply Forall_forall. intros b H. apply in_map_iff in H.
  destruct H as (i & <- & _). apply Z.mod_pos_bound. lia.
Qed.

(** Reading the bytes back. *)
Fixpoint from_bytes (l : list Z) : Z :=
  match l with [] => 0 | b :: r => b + 256 * from_bytes r end%Z.
Lemma digits_back (n : nat) : forall z, (0 <= z < 256 ^ Z.of_nat n)%Z ->
  from_bytes (map (fun i => (z / 2 ^ (8 * Z.of_nat i)) mod 256)%Z (seq 0 n)) = z.
Proof.
  induction n as [|n IH]; intros z Hz.
  - simpl in Hz. simpl. change (256 ^ 0)%Z with 1%Z in Hz. lia.
  - cbn [seq map from_bytes].
    rewrite <- seq_shift, map_map.
    assert (E : map (fun x => ((z / 2 ^ (8 * Z.of_nat (S x))) mod 256)%Z) (seq 0 n)
              = map (fun i => (((z / 256) / 2 ^ (8 * Z.of_nat i)) mod 256)%Z) (seq 0 n)).
    { apply map_ext. intros i. f_equal.
      rewrite Zdiv_Zdiv by (try lia; apply Z.pow_nonneg; lia). f_equal.
      replace (8 * Z.of_nat (S i))%Z with (8 + 8 * Z.of_nat i)%Z by lia.
      rewrite Z.pow_add_r by lia. reflexivity. }
    rewrite E, IH.
    + change (2 ^ (8 * Z.of_nat 0))%Z with 1%Z. rewrite Z.div_1_r.
      rewrite (Z.div_mod z 256) at 3 by lia. lia.
    + rewrite Nat2Z.inj_succ, Z.pow_succ_r in Hz by lia.
      split; [apply Z.div_pos; lia | apply Z.div_lt_upper_bound; lia].
Qed.
Lemma word_bytes_inj x y : (0 <= x < 2 ^ 64)%Z -> (0 <= y < 2 ^ 64)%Z ->
  word_bytes x = word_bytes y -> x = y.
Proof.
  intros Hx Hy H. unfold word_bytes in H.
  rewrite <- (digits_back 8 x), <- (digits_back 8 y) by assumption.
  rewrite H. reflexivity.
Qed.

Lemma f64_bytes_inj en x y : f64_bytes en x = f64_bytes en y -> x = y.
Proof.
  intros H.
  assert (E : word_bytes (bits_of_b64 x) = word_bytes (bits_of_b64 y)).
  { destruct en; unfold f64_bytes in H; [exact H|]. apply (f_equal (@rev Z)) in H.
    rewrite !rev_involutive in H. exact H. }
  apply word_bytes_inj in E.
  - rewrite <- (binary_float_of_bits_of_binary_float 52 11 eq_refl eq_refl eq_refl x).
    rewrite <- (binary_float_of_bits_of_binary_float 52 11 eq_refl eq_refl eq_refl y).
    unfold bits_of_b64 in E. rewrite E. reflexivity.
  - apply (bits_of_binary_float_range 52 11); reflexivity.
  - apply (bits_of_binary_float_range 52 11); reflexivity.
Qed.

Lemma zero_bits : b64_of_bits 0 = B754_zero 53 1024 false.
Proof. reflexivity. Qed.
Lemma zeroed_is_default (be : Backend) : @param_new_zeroed be = param_default.
Proof. unfold param_new_zeroed, param_default. rewrite zero_bits. reflexivity. Qed.

Lemma bytes_spec (be : Backend) (en : Endian) (p q : Param (F64 be)) :
  (length (param_as_bytes en p) = 8%nat /\
   Forall (fun b => (0 <= b < 256)%Z) (param_as_bytes en p)) /\
  (param_as_bytes en p = param_as_bytes en q -> p = q) /\
  (param_as_bytes en p = repeat 0%Z 8 <-> p = param_new_zeroed).
Proof.
  split; [|split].
  - unfold param_as_bytes, f64_bytes. destruct en.
    + split; [apply word_bytes_length | apply word_bytes_range].
    + split; [rewrite rev_length; apply word_bytes_length|].
      apply Forall_rev. apply word_bytes_range.
  - unfold param_as_bytes. intros H. apply f64_bytes_inj in H.
    destruct p, q. simpl in H. subst. reflexivity.
  - assert (Z0 : param_as_bytes en (@param_new_zeroed be) = repeat 0%Z 8).
    { unfold param_new_zeroed, param_as_bytes. cbn [pval]. rewrite zero_bits.
      destruct en; reflexivity. }
    split.
    + intros H. rewrite <- Z0 in H. unfold param_as_bytes in H. apply f64_bytes_inj in H.
      destruct p. unfold param_new_zeroed in H. simpl in H. subst. reflexivity.
    + intros ->. exact Z0.
Qed.
Lemma zeroed_admissible (be : Backend) :
  @param_new_zeroed be = param_default /\
  fval (param_get (@param_new_zeroed be)) = 0%R /\ admissible (param_get (@param_new_zeroed be)).
Proof.
  rewrite zeroed_is_default. split; [reflexivity|].
  unfold param_default, param_get. cbn [pval].
  assert (E : @lit0 (F64 be) = B754_zero 53 1024 false) by reflexivity.
  rewrite E. unfold fval, admissible, ffin, fval. simpl. split; [reflexivity|].
  split; [reflexivity | lra].
Qed.

Lemma errors_equal : forall (PFE : Type) (pfe_eqb : PFE -> PFE -> bool), (forall a b, pfe_eqb a b = true <-> a = b) ->
  forall x y : ParseParamError PFE, parse_param_error_eqb pfe_eqb x y = true <-> x = y.
Proof.
  intros PFE q H [a|a] [b|b]; cbn [parse_param_error_eqb].
  - rewrite H. split; [intros ->; reflexivity|intros E; injection E as ->; reflexivity].
  - split; discriminate.
  - split; discriminate.
  - destruct a, b. split; reflexivity.
Qed.
