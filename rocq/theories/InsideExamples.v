(** Concrete cases for the theorems about evaluation points in double arithmetic. *)
From Coq Require Import ZArith List Reals Lra Lia.
From Flocq Require Import Core IEEE754.Binary IEEE754.Bits.
From Verif Require Import Arith F64 F64Spec F64Proof Machine Rules Legendre NCSpec InsideSpec SizeProof RoundNC InsideProof InsideGauss.
Import ListNotations.
Local Open Scope R_scope.
(** A cosine that is right to three digits at the two angles of the rule of degree 2. *)
Definition q2 (x y : f64) : nan64 := quiet_nan.
Definition coarse_cos (x : f64) : f64 := match Bcompare 53 1024 x (f64_lit 157 (-2)) with Some Lt => f64_lit 577 (-3) | _ => f64_lit (-577) (-3) end.
Definition coarse : Backend := {| nan_add := q2; nan_sub := q2; nan_mul := q2; nan_div := q2; nan_sqrt := fun _ => quiet_nan;
  be_sin := fun x => x; be_cos := coarse_cos; be_pow := fun x _ => x |}.
Definition target : Target := {| build_mode := Debug; usize_max := 4294967295 |}.
Definition pairs2 : list (f64 * f64) := match @legendre_new (F64 coarse) target 2 with Ok r => legendre_pairs r | _ => [] end.
Lemma legendre2 : exists r : GaussLegendre (F64 coarse), legendre_new target 2 = Ok r /\ legendre_pairs r = pairs2.
Proof.
  destruct (legendre_new_ok (A := F64 coarse) target 2) as (r & E & _); [vm_compute; discriminate|lia|vm_compute; discriminate|].
  exists r. split; [exact E|]. unfold pairs2. rewrite E. reflexivity.
Qed.
Definition within (lo hi x : f64) : bool :=
  is_finite 53 1024 x && match Bcompare 53 1024 lo x with Some Lt => true | _ => false end && match Bcompare 53 1024 x hi with Some Lt => true | _ => false end.
Lemma within_ok : forall lo hi x, ffin lo -> ffin hi -> within lo hi x = true -> ffin x /\ fval lo < fval x < fval hi.
Proof.
  intros lo hi x Hl Hh H. unfold within in H. apply andb_prop in H. destruct H as [H H3]. apply andb_prop in H. destruct H as [H1 H2].
  rewrite (Bcompare_correct 53 1024 lo x Hl H1) in H2. rewrite (Bcompare_correct 53 1024 x hi H1 Hh) in H3. split; [exact H1|].
  change (B2R 53 1024) with fval in *. destruct (Rcompare_spec (fval lo) (fval x)); try discriminate. destruct (Rcompare_spec (fval x) (fval hi)); try discriminate. lra.
Qed.
Lemma clear2 : clear_nodes (f64_of_Z 0) (f64_of_Z 1) pairs2.
Proof.
  destruct (ofZ_exact 0 ltac:(lia)) as [_ E0]. destruct (ofZ_exact 1 ltac:(lia)) as [F1 E1]. destruct neg_half_exact as [Fn En].
  assert (B : forallb (fun xw => within (f64_lit (-75) (-2)) (f64_lit 75 (-2)) (fst xw)) pairs2 = true) by (vm_compute; reflexivity).
  apply Forall_forall. intros xw Hi. apply (proj1 (forallb_forall _ _) B) in Hi.
  assert (G : fmt (3 * bpow radix2 (-2))) by (apply generic_format_FLT; exists (Float radix2 3 (-2)); simpl; [reflexivity|lia|lia]).
  assert (V : rnd (IZR 75 / IZR (10 ^ (- -2))) = 3 / 4 /\ rnd (IZR (-75) / IZR (10 ^ (- -2))) = - (3 / 4)).
  { replace (IZR 75 / IZR (10 ^ (- -2))) with (3 / 4) by (simpl; lra). replace (IZR (-75) / IZR (10 ^ (- -2))) with (- (3 / 4)) by (simpl; lra).
    rewrite rnd_opp. replace (3 / 4) with (3 * bpow radix2 (-2)) by (simpl; lra). rewrite RoundNC.rnd_fmt by exact G. split; reflexivity. }
  destruct V as [V1 V2]. assert (O : no_overflow (IZR 75 / IZR (10 ^ (- -2))) /\ no_overflow (IZR (-75) / IZR (10 ^ (- -2)))).
  { unfold no_overflow. rewrite V1, V2. rewrite Rabs_Ropp, Rabs_pos_eq by lra. assert (3 / 4 < bpow radix2 1024) by (apply Rlt_trans with (bpow radix2 0); [simpl; lra|apply bpow_lt; lia]). split; assumption. }
  destruct (lit_neg_correct 75 (-2) ltac:(lia) (proj1 O)) as [L1 L2]. destruct (lit_neg_correct (-75) (-2) ltac:(lia) (proj2 O)) as [L3 L4].
  apply within_ok in Hi; [|exact L3|exact L1]. destruct Hi as [Fx Hx]. rewrite L2, L4, V1, V2 in Hx. split; [exact Fx|]. unfold clear.
  change (f64_of_Z 0) with (f64_of_Z 0) in *. rewrite E0, E1. replace (1 - 0) with 1 by ring. rewrite Rabs_R0, Rabs_R1.
  assert (Rabs (fval (fst xw)) <= 3 / 4) by (apply Rabs_le; lra). assert (bpow radix2 (-51) <= / 1000) by (simpl; lra).
  assert (bpow radix2 (-1075) <= bpow radix2 (-51)) by (apply bpow_le; lia). lra.
Qed.
Lemma low2 : exists xw, In xw pairs2 /\ ffin (fst xw) /\ -1 <= fval (fst xw) < - / 2.
Proof.
  destruct (ofZ_exact (-1) ltac:(lia)) as [Fm Em]. destruct neg_half_exact as [Fn En].
  assert (B : existsb (fun xw => within (f64_of_Z (-1)) (f64_lit (-5) (-1)) (fst xw)) pairs2 = true) by (vm_compute; reflexivity).
  apply existsb_exists in B. destruct B as (xw & Hi & B). exists xw. split; [exact Hi|]. apply within_ok in B; [|exact Fm|exact Fn]. rewrite Em, En in B. split; [apply B|]. lra.
Qed.
Lemma unit_wide : ffin (f64_of_Z 0) /\ ffin (f64_of_Z 1) /\ no_overflow (fval (f64_of_Z 1) - fval (f64_of_Z 0)) /\ wide 1000 (fval (f64_of_Z 0)) (fval (f64_of_Z 1)) /\
  Rabs (fval (f64_of_Z 0)) <= bpow radix2 1022 /\ Rabs (fval (f64_of_Z 1)) <= bpow radix2 1022 /\ Rabs (fval (f64_of_Z 1) - fval (f64_of_Z 0)) <= bpow radix2 1022.
Proof.
  destruct (ofZ_exact 0 ltac:(lia)) as [F0 E0]. destruct (ofZ_exact 1 ltac:(lia)) as [F1 E1]. rewrite E0, E1. replace (1 - 0) with 1 by ring.
  assert (P : 1 <= bpow radix2 1022) by (change 1 with (bpow radix2 0); apply bpow_le; lia). pose proof (bpow_ge_0 radix2 1022). rewrite Rabs_R0, Rabs_R1.
  repeat split; try assumption; try lra.
  - apply no_overflow_small. rewrite Rabs_R1. apply Rle_trans with (1 := P). apply bpow_le. lia.
  - right. replace (1 - 0) with 1 by ring. rewrite Rabs_R1. apply Rle_trans with (bpow radix2 (-10)); [apply bpow_le; lia|]. simpl. lra.
Qed.
