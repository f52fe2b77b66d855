(** Instances for the examples. *)
From Coq Require Import Reals ZArith List Lra Lia.
From Flocq Require Import Core IEEE754.Binary.
From Verif Require Import Arith F64 F64Spec F64Proof RInst Machine Param Rules RSum PolySpec GolubWelsch GWSpec EigenSpec WeightSpec GaussSpec InexactSpec InexactF64Spec Gamma GammaTrue
  GaussExact GWProof GamFloatSpec GamFloatEx SmallRules Laguerre Jacobi TrigEx.
Import ListNotations.
Local Open Scope R_scope.

Lemma ex_five : ffin (f64_lit 5 0) /\ / 10 ^ 19 <= fval (f64_lit 5 0) <= 169 /\ is_Gamma (fval (f64_lit 5 0)) 24.
Proof.
  destruct (lit_int_exact 5 ltac:(lia)) as [F E]. split; [exact F|]. rewrite E. split; [lra|]. assert (G := Gam_fact 4). replace (IZR (Z.of_nat 4) + 1) with 5 in G by (simpl; lra). change (IZR (zfact 4)) with 24 in G. rewrite <- G. apply Gam_is. lra.
Qed.
Lemma ex_neg : ffin (f64_lit (-5) (-1)) /\ - (3 / 4) <= fval (f64_lit (-5) (-1)) <= - / 10 ^ 19 /\ exists G, is_Gamma (1 - fval (f64_lit (-5) (-1))) G.
Proof.
  destruct half_exact as [_ Eh]. assert (E : fval (f64_lit (-5) (-1)) = - / 2).
  { set (d := f64_lit (-5) (-1)). assert (X : B2SF 53 1024 d = SpecFloat.S754_finite true 4503599627370496 (-53)) by (vm_compute; reflexivity).
    unfold fval. destruct d; try discriminate X. injection X; intros -> -> ->. unfold B2R, F2R. simpl. lra. }
  split; [reflexivity|]. rewrite E. split; [lra|]. eexists. apply Gam_is. lra.
Qed.
Lemma ex_laguerre : let be := correct_library in ffin (param_get (zero_par be)) /\ / 10 ^ 18 <= fval (param_get (zero_par be)) + 1 <= 160 /\ sorts (unit_point be) /\
  4 * IZR 1 + 3 * Rabs (fval (param_get (zero_par be))) + 1 <= 5 /\ is_Gamma (fval (param_get (zero_par be)) + 1) 1 /\
  float_solver (unit_point be) 1 (laguerre_diag (param_get (zero_par be))) (laguerre_off_diag (param_get (zero_par be))) 5 0 0 /\
  exists r : GaussLaguerre (F64 be), laguerre_new (unit_point be) 1 (zero_par be) = Ok r.
Proof.
  intros be. destruct (unit_point_example be) as (F & E & So & Fl & r & Hr). rewrite E. split; [exact F|]. split; [lra|]. split; [exact So|]. split; [rewrite Rabs_R0; lra|].
  split; [|split; [exact Fl|exists r; exact Hr]]. replace (0 + 1) with 1 by lra. rewrite <- Gam_1 at 2. apply Gam_is. lra.
Qed.
Lemma ex_jacobi : let be := correct_library in let alpha := fval (param_get (one_par be)) in ffin (param_get (one_par be)) /\ alpha = 1 /\ is_Gamma (alpha + 1) 1 /\ Rpower 2 (alpha + alpha + 1) * 1 * 1 <= bpow radix2 990 /\
  ~ delegated alpha alpha /\ sorts (jac_solver be) /\ (exists M, jacobi_integral alpha alpha (fun _ => 1) M) /\
  float_solver (jac_solver be) 2 (jacobi_diag (param_get (one_par be)) (param_get (one_par be))) (jacobi_off_diag (param_get (one_par be)) (param_get (one_par be))) 1 0 (1 / 10 ^ 15) /\
  forall t, exists r : GaussJacobi (F64 be), jacobi_new t (jac_solver be) 2 (one_par be) (one_par be) = Ok r.
Proof.
  intros be alpha. destruct (jac_two_points be) as (F & E & Nd & So & Fl & Hr). unfold alpha. rewrite E. split; [exact F|]. split; [reflexivity|].
  split. { assert (G := Gam_fact 1). replace (IZR (Z.of_nat 1) + 1) with (1 + 1) in G by (simpl; lra). change (IZR (zfact 1)) with 1 in G. assert (X := Gam_is (1 + 1) ltac:(lra)). rewrite G in X. exact X. }
  split. { apply Rle_trans with (bpow radix2 3); [|apply bpow_le; lia]. replace (1 + 1 + 1) with (INR 3) by (simpl; lra). rewrite Rpower_pow by lra. simpl. lra. }
  split; [exact Nd|]. split; [exact So|]. split; [|split; [exact Fl|exact Hr]].
  eexists. apply (jacobi_gen 1 1 ltac:(lra) ltac:(lra) 1). exists (fun j => match j with O => 1 | _ => 0 end). intros x. unfold rsum. simpl. ring.
Qed.
Definition ones (be : Backend) : Linalg (F64 be) := Build_Linalg (F64 be) (fun m => (map (fun _ => lit0) m, map (map (fun _ => lit1)) m)) (sort_unstable_by (@toy_linalg (F64 be))).
Lemma ex_ones : forall be, shape_preserving (ones be) /\ sorts (ones be) /\
  (forall m row rest x, snd (symmetric_eigen (ones be) m) = row :: rest -> In x row -> ffin x /\ Rabs (fval x) <= 11 / 10).
Proof.
  intros be. split; [|split; [exact (@toy_sorts (F64 be))|]].
  - intros n m [H1 H2]. cbn [ones symmetric_eigen fst snd]. split; [rewrite map_length; exact H1|]. split; [rewrite map_length; exact H1|].
    apply Forall_forall. intros row Hr. apply in_map_iff in Hr. destruct Hr as (r & <- & Ir). rewrite map_length. rewrite Forall_forall in H2. apply H2, Ir.
  - intros [|r0 m] row rest x E I; [discriminate E|]. cbn [ones symmetric_eigen snd map] in E. injection E; intros _ <-. apply in_map_iff in I. destruct I as (y & <- & _).
    destruct (lit_int_exact 1 ltac:(lia)) as [F V]. change (f64_lit 1 0) with (@lit1 (F64 be)) in F, V. split; [exact F|]. change (Rabs (fval (@lit1 (F64 be))) <= 11 / 10). rewrite V, Rabs_pos_eq; lra.
Qed.
