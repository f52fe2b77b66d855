(** Newton-Cotes rules in double arithmetic: distance to the integral; an example. *)
From Coq Require Import Reals ZArith List Lra Lia Psatz.
From Coquelicot Require Import Coquelicot.
From Flocq Require Import Core IEEE754.Binary.
From Verif Require Import Arith F64 F64Spec F64Proof Machine Rules Par NewtonCotes IntegrateSpec NCSpec NCError NCBound RoundSpec RoundProof InsideSpec InsideProof NCFloatSpec NCFloat.
Import ListNotations.
Local Open Scope R_scope.

Section End.
Context {be : Backend}.
Notation A := (F64 be).
Variables (n : Z) (a b : A) (g : A -> A) (G : R -> R) (e L B : R).
Hypothesis HI : plain_interval n a b.
Hypothesis HG : computes g G a b e L B.
Lemma n_pos : (1 <= Z.to_nat n)%nat. Proof. destruct HI as [H _]. lia. Qed.
Lemma through : forall r v I x y : R, Rabs (r - v) <= x -> Rabs (v - I) <= y -> Rabs (r - I) <= y + x.
Proof. intros r v I x y H1 H2. replace (r - I) with ((r - v) + (v - I)) by ring. eapply Rle_trans; [apply Rabs_triang|]. lra. Qed.
Lemma midpoint_end : forall (G1 G2 : R -> R) M (result : A),
  (forall x, Rmin (fval a) (fval b) <= x <= Rmax (fval a) (fval b) -> continuous G x) ->
  (forall x, Rmin (fval a) (fval b) < x < Rmax (fval a) (fval b) -> is_derive G x (G1 x)) ->
  (forall x, Rmin (fval a) (fval b) < x < Rmax (fval a) (fval b) -> is_derive G1 x (G2 x)) ->
  (forall x, Rmin (fval a) (fval b) < x < Rmax (fval a) (fval b) -> Rabs (G2 x) <= M) ->
  (result = fst (midpoint_integrate (pure g) (midpoint_new n) a b tt) \/ exists t, result = midpoint_par_integrate g t (midpoint_new n) a b) -> ffin result ->
  Rabs (fval result - RInt G (fval a) (fval b)) <= M * Rabs (fval b - fval a) ^ 3 / (24 * IZR n ^ 2) + float_excess n (fval a) (fval b) e L B.
Proof.
  intros G1 G2 M result H1 H2 H3 H4 HR F. rewrite <- (n_INR be n a b HI). eapply through; [exact (midpoint_close be n a b g G e L B HI HG result HR F)|].
  exact (midpoint_bound G G1 G2 (fval a) (fval b) (Z.to_nat n) M n_pos H1 H2 H3 H4).
Qed.
Lemma trapezoid_end : forall (G1 G2 : R -> R) M (result : A),
  (forall x, Rmin (fval a) (fval b) <= x <= Rmax (fval a) (fval b) -> continuous G x) ->
  (forall x, Rmin (fval a) (fval b) < x < Rmax (fval a) (fval b) -> is_derive G x (G1 x)) ->
  (forall x, Rmin (fval a) (fval b) < x < Rmax (fval a) (fval b) -> is_derive G1 x (G2 x)) ->
  (forall x, Rmin (fval a) (fval b) < x < Rmax (fval a) (fval b) -> Rabs (G2 x) <= M) ->
  (result = fst (trapezoid_integrate (pure g) (trapezoid_new n) a b tt) \/ exists t, result = trapezoid_par_integrate g t (trapezoid_new n) a b) -> ffin result ->
  Rabs (fval result - RInt G (fval a) (fval b)) <= M * Rabs (fval b - fval a) ^ 3 / (12 * IZR n ^ 2) + float_excess n (fval a) (fval b) e L B.
Proof.
  intros G1 G2 M result H1 H2 H3 H4 HR F. rewrite <- (n_INR be n a b HI). eapply through; [exact (trapezoid_close be n a b g G e L B HI HG result HR F)|].
  exact (trapezoid_bound G G1 G2 (fval a) (fval b) (Z.to_nat n) M n_pos H1 H2 H3 H4).
Qed.
Lemma simpson_end : forall (G1 G2 G3 G4 : R -> R) M (result : A),
  (forall x, Rmin (fval a) (fval b) <= x <= Rmax (fval a) (fval b) -> continuous G x) ->
  (forall x, Rmin (fval a) (fval b) < x < Rmax (fval a) (fval b) -> is_derive G x (G1 x)) ->
  (forall x, Rmin (fval a) (fval b) < x < Rmax (fval a) (fval b) -> is_derive G1 x (G2 x)) ->
  (forall x, Rmin (fval a) (fval b) < x < Rmax (fval a) (fval b) -> is_derive G2 x (G3 x)) ->
  (forall x, Rmin (fval a) (fval b) < x < Rmax (fval a) (fval b) -> is_derive G3 x (G4 x)) ->
  (forall x, Rmin (fval a) (fval b) < x < Rmax (fval a) (fval b) -> Rabs (G4 x) <= M) ->
  (result = fst (simpson_integrate (pure g) (simpson_new n) a b tt) \/ exists t1 t2, result = simpson_par_integrate g t1 t2 (simpson_new n) a b) -> ffin result ->
  Rabs (fval result - RInt G (fval a) (fval b)) <= M * Rabs (fval b - fval a) ^ 5 / (2880 * IZR n ^ 4) + float_excess n (fval a) (fval b) e L B.
Proof.
  intros G1 G2 G3 G4 M result H1 H2 H3 H4 H5 H6 HR F. rewrite <- (n_INR be n a b HI). eapply through; [exact (simpson_close be n a b g G e L B HI HG result HR F)|].
  exact (simpson_bound G G1 G2 G3 G4 (fval a) (fval b) (Z.to_nat n) M n_pos H1 H2 H3 H4 H5 H6).
Qed.
End End.

Lemma ex_plain : forall be : Backend, plain_interval 1000 (@lit1 (F64 be)) (@lit2 (F64 be)) /\
  computes (fun x => @nmul (F64 be) x x) (fun x => x ^ 2) (@lit1 (F64 be)) (@lit2 (F64 be)) (bpow radix2 (-50)) 4 4 /\
  ffin (fst (simpson_integrate (A := F64 be) (pure (fun x => nmul x x)) (simpson_new 3) lit1 lit2 tt)).
Proof.
  intros be. destruct (lit_int_exact 1 ltac:(lia)) as [F1 E1]. destruct (lit_int_exact 2 ltac:(lia)) as [F2 E2].
  change (f64_lit 1 0) with (@lit1 (F64 be)) in *. change (f64_lit 2 0) with (@lit2 (F64 be)) in *.
  split; [|split].
  - unfold plain_interval, wide. rewrite E1, E2. split; [lia|]. split; [exact F1|]. split; [exact F2|]. replace (2 - 1) with 1 by lra. rewrite Rabs_R1. split.
    + apply (bpow_le radix2 0 1022). lia.
    + right. apply Rle_trans with (bpow radix2 (-10)); [apply bpow_le; lia|]. simpl. lra.
  - unfold computes. rewrite E1, E2. unfold inside, between. rewrite E1, E2. rewrite Rmin_left, Rmax_right by lra. split; [lra|]. split; [|split].
    + intros x [Fx Hx]. assert (O : no_overflow (fval x * fval x)). { apply no_overflow_small. apply Rle_trans with (bpow radix2 2); [|apply bpow_le; lia]. simpl. rewrite Rabs_pos_eq by nra. nra. }
      destruct (mul_finite be x x Fx Fx O) as [_ E]. rewrite E. pose proof (rnd_err (fval x * fval x)) as R. replace (fval x ^ 2) with (fval x * fval x) by ring.
      eapply Rle_trans; [exact R|]. rewrite Rabs_pos_eq by nra. apply Rle_trans with (bpow radix2 (-51) + bpow radix2 (-51)).
      * apply Rplus_le_compat; [|apply bpow_le; lia]. replace (bpow radix2 (-51)) with (uro * 4) by (unfold uro; change 4 with (bpow radix2 2); rewrite <- bpow_plus; reflexivity). apply Rmult_le_compat_l; [apply bpow_ge_0|nra].
      * right. replace (bpow radix2 (-50)) with (bpow radix2 (-51) * 2) by (change 2 with (bpow radix2 1); rewrite <- bpow_plus; reflexivity). ring.
    + intros x y Hx Hy. replace (x ^ 2 - y ^ 2) with ((x + y) * (x - y)) by ring. rewrite Rabs_mult, (Rabs_pos_eq (x + y)) by lra. apply Rmult_le_compat_r; [apply Rabs_pos|lra].
    + intros x Hx. rewrite Rabs_pos_eq by nra. nra.
  - vm_compute. reflexivity.
Qed.
