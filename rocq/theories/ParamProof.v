(** Proofs about the parameter type. *)
From Coq Require Import Reals ZArith Lra Lia Bool.
From Flocq Require Import Core IEEE754.Binary.
From Verif Require Import Arith F64 F64Spec F64Proof Param ParamSpec.
Local Open Scope R_scope.

Section P.
Variable be : Backend.
Notation A := (F64 be).

Lemma neg1_exact : ffin (@lit_neg1 A) /\ fval (@lit_neg1 A) = -1.
Proof. apply (lit_int_exact (-1)). lia. Qed.

Lemma ngt_nan_l : forall x y : A, fnan x -> ngt x y = false.
Proof.
  intros x y H. destruct x; try discriminate H. destruct y; reflexivity.
Qed.

Lemma new_iff : forall v : A, (exists p, param_new v = Some p) <-> admissible v.
Proof.
  intros v. unfold param_new, admissible. destruct neg1_exact as [F1 V1].
  split.
  - intros [p H]. destruct (ngt v lit_neg1) eqn:G; [|discriminate H].
    destruct (nfinite v) eqn:Fi; [|discriminate H].
    split; [exact Fi|]. rewrite <- V1. apply (gt_finite be v lit_neg1); assumption.
  - intros [Hf Hv]. exists (MkParam v).
    replace (ngt v lit_neg1) with true.
    + unfold ffin in Hf. simpl. rewrite Hf. reflexivity.
    + symmetry. apply gt_finite; [exact Hf|exact F1|]. rewrite V1. exact Hv.
Qed.

Lemma new_get : forall (v : A) p, param_new v = Some p -> param_get p = v.
Proof.
  intros v p H. unfold param_new in H.
  destruct (ngt v lit_neg1 && nfinite v); [|discriminate H].
  injection H; intros; subst; reflexivity.
Qed.

Lemma new_admissible : forall (v : A) p, param_new v = Some p -> admissible (param_get p).
Proof.
  intros v p H. rewrite (new_get v p H). apply new_iff. exists p; exact H.
Qed.

Lemma new_complete : forall v : A, admissible v -> param_new v = Some (MkParam v).
Proof.
  intros v H. apply new_iff in H. destruct H as [p H]. rewrite H. f_equal.
  apply new_get in H. destruct p; simpl in *. subst; reflexivity.
Qed.

Lemma new_reject : forall v : A, ~ admissible v -> param_new v = None.
Proof.
  intros v H. destruct (param_new v) eqn:E; [|reflexivity].
  exfalso. apply H. apply new_iff. exists p; exact E.
Qed.

Lemma default_admissible : admissible (param_get (@param_default A)).
Proof.
  destruct (lit_int_exact 0) as [H1 H2]; [lia|].
  split; [exact H1|]. change (-1 < fval (f64_lit 0 0)). rewrite H2. lra.
Qed.

Lemma try_from_inl : forall (v : A) p, param_try_from v = inl p <-> param_new v = Some p.
Proof.
  intros v p. unfold param_try_from. destruct (param_new v); split; intros H; inversion H; reflexivity.
Qed.

Lemma try_from_inr : forall (v : A) e, param_try_from v = inr e <-> ~ admissible v.
Proof.
  intros v []. unfold param_try_from. destruct (param_new v) eqn:E; split; intros H.
  - discriminate H.
  - exfalso. apply H. apply new_iff. exists p; exact E.
  - intros C. apply new_iff in C. destruct C as [p C]. rewrite C in E. discriminate E.
  - reflexivity.
Qed.

Lemma reachable_admissible : forall (Str PFE : Type) (parse : Str -> f64 + PFE) p,
  Reachable be parse p -> admissible (param_get p).
Proof.
  intros Str PFE parse p H. induction H.
  - apply default_admissible.
  - eapply new_admissible; eassumption.
  - apply try_from_inl in H. eapply new_admissible; eassumption.
  - unfold param_from_str in H. destruct (parse s) as [v|e]; [|discriminate H].
    destruct (param_try_from (A := F64 be) v) eqn:E; [|discriminate H].
    injection H; intros; subst. apply try_from_inl in E. eapply new_admissible; eassumption.
  - eapply new_admissible; eassumption.
  - eapply new_admissible; eassumption.
  - eapply new_admissible; eassumption.
  - eapply new_admissible; eassumption.
  - eapply new_admissible; eassumption.
Qed.

(** checked arithmetic *)
Lemma checked_add_sound : forall (p : Param A) y q, param_checked_add p y = Some q ->
  ffin y /\ no_overflow (fval (param_get p) + fval y) /\
  fval (param_get q) = rnd (fval (param_get p) + fval y) /\ admissible (param_get q).
Proof.
  intros p y q H. unfold param_checked_add in H.
  pose proof (new_admissible _ _ H) as Ha. pose proof (new_get _ _ H) as Hg.
  destruct Ha as [Hf Hv]. rewrite Hg in Hf.
  destruct (add_finite_inv be _ _ Hf) as (_ & H2 & H3 & H4).
  split; [exact H2|]. split; [exact H3|]. split.
  - rewrite Hg. exact H4.
  - split; [rewrite Hg; exact Hf|exact Hv].
Qed.

Lemma checked_add_complete : forall (p : Param A) y, ffin (param_get p) -> ffin y ->
  no_overflow (fval (param_get p) + fval y) -> -1 < rnd (fval (param_get p) + fval y) ->
  exists q, param_checked_add p y = Some q.
Proof.
  intros p y Hp Hy Ho Hr. apply new_iff.
  destruct (add_finite be _ _ Hp Hy Ho) as [H1 H2]. split; [exact H1|]. rewrite H2. exact Hr.
Qed.

Lemma checked_sub_sound : forall (p : Param A) y q, param_checked_sub p y = Some q ->
  ffin y /\ no_overflow (fval (param_get p) - fval y) /\
  fval (param_get q) = rnd (fval (param_get p) - fval y) /\ admissible (param_get q).
Proof.
  intros p y q H. unfold param_checked_sub in H.
  pose proof (new_admissible _ _ H) as Ha. pose proof (new_get _ _ H) as Hg.
  destruct Ha as [Hf Hv]. rewrite Hg in Hf.
  destruct (sub_finite_inv be _ _ Hf) as (_ & H2 & H3 & H4).
  split; [exact H2|]. split; [exact H3|]. split.
  - rewrite Hg. exact H4.
  - split; [rewrite Hg; exact Hf|exact Hv].
Qed.

Lemma checked_sub_complete : forall (p : Param A) y, ffin (param_get p) -> ffin y ->
  no_overflow (fval (param_get p) - fval y) -> -1 < rnd (fval (param_get p) - fval y) ->
  exists q, param_checked_sub p y = Some q.
Proof.
  intros p y Hp Hy Ho Hr. apply new_iff.
  destruct (sub_finite be _ _ Hp Hy Ho) as [H1 H2]. split; [exact H1|]. rewrite H2. exact Hr.
Qed.

Lemma checked_mul_sound : forall (p : Param A) y q, param_checked_mul p y = Some q ->
  ffin y /\ no_overflow (fval (param_get p) * fval y) /\
  fval (param_get q) = rnd (fval (param_get p) * fval y) /\ admissible (param_get q).
Proof.
  intros p y q H. unfold param_checked_mul in H.
  pose proof (new_admissible _ _ H) as Ha. pose proof (new_get _ _ H) as Hg.
  destruct Ha as [Hf Hv]. rewrite Hg in Hf.
  destruct (mul_finite_inv be _ _ Hf) as (_ & H2 & H3 & H4).
  split; [exact H2|]. split; [exact H3|]. split.
  - rewrite Hg. exact H4.
  - split; [rewrite Hg; exact Hf|exact Hv].
Qed.

Lemma checked_mul_complete : forall (p : Param A) y, ffin (param_get p) -> ffin y ->
  no_overflow (fval (param_get p) * fval y) -> -1 < rnd (fval (param_get p) * fval y) ->
  exists q, param_checked_mul p y = Some q.
Proof.
  intros p y Hp Hy Ho Hr. apply new_iff.
  destruct (mul_finite be _ _ Hp Hy Ho) as [H1 H2]. split; [exact H1|]. rewrite H2. exact Hr.
Qed.

Lemma checked_div_sound : forall (p : Param A) y q, param_checked_div p y = Some q ->
  ((ffin y /\ fval y <> 0 /\ no_overflow (fval (param_get p) / fval y) /\
    fval (param_get q) = rnd (fval (param_get p) / fval y))
   \/ (~ fnan y /\ ~ ffin y /\ fval (param_get q) = 0)) /\ admissible (param_get q).
Proof.
  intros p y q H. unfold param_checked_div in H.
  pose proof (new_admissible _ _ H) as Ha. pose proof (new_get _ _ H) as Hg.
  split; [|exact Ha]. destruct Ha as [Hf Hv]. rewrite Hg in Hf.
  destruct (div_finite_inv be _ _ Hf) as (_ & [(H2 & H3 & H4 & H5)|(H2 & H3 & H4)]).
  - left. rewrite Hg. repeat split; assumption.
  - right. rewrite Hg. split; [|split; assumption]. unfold fnan. rewrite H2. discriminate.
Qed.

Lemma checked_div_complete : forall (p : Param A) y, ffin (param_get p) -> fval y <> 0 ->
  no_overflow (fval (param_get p) / fval y) -> -1 < rnd (fval (param_get p) / fval y) ->
  exists q, param_checked_div p y = Some q.
Proof.
  intros p y Hp Hy Ho Hr. apply new_iff.
  destruct (div_finite be _ _ Hp Hy Ho) as [H1 H2]. split; [exact H1|]. rewrite H2. exact Hr.
Qed.

Lemma checked_div_inf : forall (p : Param A) y, ffin (param_get p) -> ~ fnan y -> ~ ffin y ->
  exists q, param_checked_div p y = Some q /\ fval (param_get q) = 0.
Proof.
  intros p y Hp Hn Hf.
  destruct y as [sy|sy|sy py Hpy|sy my ey Hy].
  - exfalso; apply Hf; reflexivity.
  - assert (V : fval (@ndiv A (param_get p) (B754_infinity 53 1024 sy)) = 0
               /\ ffin (@ndiv A (param_get p) (B754_infinity 53 1024 sy))).
    { destruct (param_get p) as [sx|sx|sx px Hpx|sx mx ex Hx]; try discriminate Hp; split; reflexivity. }
    destruct V as [V1 V2].
    assert (Ha : admissible (@ndiv A (param_get p) (B754_infinity 53 1024 sy))).
    { split; [exact V2|]. rewrite V1. lra. }
    exists (MkParam (@ndiv A (param_get p) (B754_infinity 53 1024 sy))). split.
    + unfold param_checked_div. apply new_complete. exact Ha.
    + exact V1.
  - exfalso; apply Hn; reflexivity.
  - exfalso; apply Hf; reflexivity.
Qed.

(** parsing *)
Lemma from_str_spec : forall (Str PFE : Type) (parse : Str -> f64 + PFE) s,
  match param_from_str (A := A) parse s with
  | inl p => parse s = inl (param_get p) /\ admissible (param_get p)
  | inr (ParseError e) => parse s = inr e
  | inr (InvalidValue _) => exists v, parse s = inl v /\ ~ admissible v
  end.
Proof.
  intros Str PFE parse s. unfold param_from_str.
  destruct (parse s) as [v|e] eqn:P; [|reflexivity].
  destruct (param_try_from (A := A) v) as [p|er] eqn:E.
  - apply try_from_inl in E. pose proof (new_get _ _ E) as G. split.
    + rewrite G. reflexivity.
    + eapply new_admissible; exact E.
  - exists v. split; [reflexivity|]. apply try_from_inr in E. exact E.
Qed.

Lemma fmt_round_trip : forall (Str PFE : Type) (fmt : f64 -> Str) (parse : Str -> f64 + PFE),
  (forall v, ffin v -> parse (fmt v) = inl v) ->
  forall p : Param A, admissible (param_get p) ->
  param_from_str (A := A) parse (param_fmt (A := A) fmt p) = inl p.
Proof.
  intros Str PFE fmt parse RT [v] Ha. unfold param_from_str, param_fmt. simpl in *.
  rewrite RT by apply Ha. unfold param_try_from.
  rewrite new_complete by exact Ha. reflexivity.
Qed.

Lemma serde_round_trip : forall (Doc Err : Type) (ser : f64 -> Doc) (de : Doc -> f64 + Err),
  (forall v, ffin v -> de (ser v) = inl v) ->
  forall p : Param A, admissible (param_get p) ->
  param_deserialize (A := A) de (param_serialize (A := A) ser p) = inl p.
Proof.
  intros Doc Err ser de RT [v] Ha. unfold param_deserialize, param_serialize. simpl in *.
  rewrite RT by apply Ha. reflexivity.
Qed.

End P.

(** A concrete backend, used in examples. *)
Definition be0 : Backend := {|
  nan_add := fun _ _ => quiet_nan; nan_sub := fun _ _ => quiet_nan;
  nan_mul := fun _ _ => quiet_nan; nan_div := fun _ _ => quiet_nan;
  nan_sqrt := fun _ => quiet_nan;
  be_sin := fun x => x; be_cos := fun x => x; be_pow := fun x _ => x |}.

Lemma deserialize_refuted : exists (de : f64 -> f64 + unit) (doc : f64) p,
  (forall v, de v = inl v) /\
  param_deserialize (A := F64 be0) de doc = inl p /\ ~ admissible (param_get p).
Proof.
  exists (fun v => inl v), (f64_lit (-2) 0), (MkParam (A := F64 be0) (f64_lit (-2) 0)).
  split; [reflexivity|]. split; [reflexivity|].
  intros [_ H]. change (-1 < fval (f64_lit (-2) 0)) in H.
  destruct (lit_int_exact (-2)) as [_ E]; [lia|]. rewrite E in H. lra.
Qed.

(** ** Property-shaped summaries *)
Section Summaries.
Variable be : Backend.
Notation A := (F64 be).

Lemma new_spec : forall v : A,
  (admissible v -> exists p, param_new v = Some p /\ param_get p = v) /\
  (~ admissible v -> param_new v = None).
Proof.
  intros v. split; intros H.
  - exists (MkParam v). split; [apply new_complete; exact H|reflexivity].
  - apply new_reject; exact H.
Qed.

Lemma checked_add_spec : forall (p : Param A) y, ffin (param_get p) ->
  ((exists q, param_checked_add p y = Some q) <->
   (ffin y /\ no_overflow (fval (param_get p) + fval y) /\ -1 < rnd (fval (param_get p) + fval y))) /\
  (forall q, param_checked_add p y = Some q ->
     ffin (param_get q) /\ fval (param_get q) = rnd (fval (param_get p) + fval y)).
Proof.
  intros p y Hp. split; [split|].
  - intros [q H]. destruct (checked_add_sound be p y q H) as (H1 & H2 & H3 & H4).
    destruct H4 as [_ H4]. rewrite H3 in H4. auto.
  - intros (H1 & H2 & H3). apply checked_add_complete; assumption.
  - intros q H. destruct (checked_add_sound be p y q H) as (H1 & H2 & H3 & H4). split; [apply H4|exact H3].
Qed.
Lemma checked_sub_spec : forall (p : Param A) y, ffin (param_get p) ->
  ((exists q, param_checked_sub p y = Some q) <->
   (ffin y /\ no_overflow (fval (param_get p) - fval y) /\ -1 < rnd (fval (param_get p) - fval y))) /\
  (forall q, param_checked_sub p y = Some q ->
     ffin (param_get q) /\ fval (param_get q) = rnd (fval (param_get p) - fval y)).
Proof.
  intros p y Hp. split; [split|].
  - intros [q H]. destruct (checked_sub_sound be p y q H) as (H1 & H2 & H3 & H4).
    destruct H4 as [_ H4]. rewrite H3 in H4. auto.
  - intros (H1 & H2 & H3). apply checked_sub_complete; assumption.
  - intros q H. destruct (checked_sub_sound be p y q H) as (H1 & H2 & H3 & H4). split; [apply H4|exact H3].
Qed.
Lemma checked_mul_spec : forall (p : Param A) y, ffin (param_get p) ->
  ((exists q, param_checked_mul p y = Some q) <->
   (ffin y /\ no_overflow (fval (param_get p) * fval y) /\ -1 < rnd (fval (param_get p) * fval y))) /\
  (forall q, param_checked_mul p y = Some q ->
     ffin (param_get q) /\ fval (param_get q) = rnd (fval (param_get p) * fval y)).
Proof.
  intros p y Hp. split; [split|].
  - intros [q H]. destruct (checked_mul_sound be p y q H) as (H1 & H2 & H3 & H4).
    destruct H4 as [_ H4]. rewrite H3 in H4. auto.
  - intros (H1 & H2 & H3). apply checked_mul_complete; assumption.
  - intros q H. destruct (checked_mul_sound be p y q H) as (H1 & H2 & H3 & H4). split; [apply H4|exact H3].
Qed.
(** division: finite non-zero denominator, or an infinite one (quotient 0) *)
Lemma checked_div_spec : forall (p : Param A) y, ffin (param_get p) ->
  ((exists q, param_checked_div p y = Some q) <->
   ((ffin y /\ fval y <> 0 /\ no_overflow (fval (param_get p) / fval y)
     /\ -1 < rnd (fval (param_get p) / fval y))
    \/ (~ fnan y /\ ~ ffin y))) /\
  (forall q, param_checked_div p y = Some q -> ffin (param_get q) /\
     ((ffin y /\ fval (param_get q) = rnd (fval (param_get p) / fval y))
      \/ (~ ffin y /\ fval (param_get q) = 0))).
Proof.
  intros p y Hp. split; [split|].
  - intros [q H]. destruct (checked_div_sound be p y q H) as ([(H1 & H2 & H3 & H4)|(H1 & H2 & H3)] & H5 & H6).
    + left. rewrite H4 in H6. auto.
    + right. auto.
  - intros [(H1 & H2 & H3 & H4)|(H1 & H2)].
    + apply checked_div_complete; assumption.
    + destruct (checked_div_inf be p y Hp H1 H2) as (q & H & _). exists q; exact H.
  - intros q H. destruct (checked_div_sound be p y q H) as ([(H1 & H2 & H3 & H4)|(H1 & H2 & H3)] & H5 & H6).
    + split; [exact H5|]. left. auto.
    + split; [exact H5|]. right. auto.
Qed.

Lemma reachable_fmt_round_trip : forall (Str PFE : Type) (fmt : f64 -> Str) (parse : Str -> f64 + PFE),
  (forall v, ffin v -> parse (fmt v) = inl v) ->
  forall p : Param A, Reachable be parse p ->
  param_from_str (A := A) parse (param_fmt (A := A) fmt p) = inl p.
Proof.
  intros Str PFE fmt parse RT p H. apply fmt_round_trip; [exact RT|].
  eapply reachable_admissible. exact H.
Qed.
Lemma reachable_serde_round_trip : forall (Str PFE : Type) (parse : Str -> f64 + PFE)
    (Doc Err : Type) (ser : f64 -> Doc) (de : Doc -> f64 + Err),
  (forall v, ffin v -> de (ser v) = inl v) ->
  forall p : Param A, Reachable be parse p ->
  param_deserialize (A := A) de (param_serialize (A := A) ser p) = inl p.
Proof.
  intros Str PFE parse Doc Err ser de RT p H. apply serde_round_trip; [exact RT|].
  eapply reachable_admissible. exact H.
Qed.
Lemma try_from_spec : forall v : A,
  (forall p, param_try_from v = inl p <-> param_new v = Some p) /\
  (forall e, param_try_from v = inr e <-> ~ admissible v).
Proof. intros v. split; [apply try_from_inl|apply try_from_inr]. Qed.
Lemma into_f64_spec : forall p : Param A, f64_from_param p = param_get p /\
  forall (v : A) (q : Param A), param_new v = Some q -> f64_from_param q = v.
Proof. intros p. split; [reflexivity|]. intros v q H. exact (new_get be v q H). Qed.

(** a reachable value that is not a literal: 0 + 0.5, negated product, ... *)
Lemma reach_example : exists p : Param A,
  Reachable be (fun s : f64 => @inl f64 unit s) p /\ fval (param_get p) = / 2.
Proof.
  assert (H0 : Reachable be (fun s : f64 => @inl f64 unit s) (@param_default A)) by apply reach_default.
  destruct half_exact as [Hf Hv].
  destruct (default_admissible be) as [Hd _].
  assert (V0 : fval (param_get (@param_default A)) = 0) by reflexivity.
  destruct (checked_add_spec (@param_default A) (f64_lit 5 (-1)) Hd) as [E1 E2].
  assert (Hr : rnd (fval (param_get (@param_default A)) + fval (f64_lit 5 (-1))) = / 2).
  { rewrite V0, Rplus_0_l, rnd_fval. exact Hv. }
  assert (C : exists q, param_checked_add (@param_default A) (f64_lit 5 (-1)) = Some q).
  { apply E1. split; [exact Hf|]. unfold no_overflow. rewrite Hr. split; [|lra].
    rewrite Rabs_pos_eq by lra. apply Rlt_trans with (bpow radix2 1).
    - simpl. lra.
    - apply bpow_lt. lia. }
  destruct C as [q C]. exists q. split.
  - eapply reach_add; [exact H0|exact C].
  - destruct (E2 q C) as [_ E]. rewrite E. exact Hr.
Qed.
End Summaries.
