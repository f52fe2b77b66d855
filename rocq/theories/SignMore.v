(** Weights that are not negative: Legendre and Jacobi in double arithmetic. *)
From Coq Require Import Reals ZArith List Lra Lia Bool Permutation.
From Flocq Require Import Core IEEE754.Binary.
From Verif Require Import Arith RInst F64 F64Spec F64Proof Machine Iter Param Rules Par NewtonCotes Chebyshev GolubWelsch Gamma Hermite Laguerre Legendre Jacobi
  IntegrateSpec GWSpec SignSpec SignProof SignRules SignWeights TrigSpec SepSpec LegSym SepLeg SizeProof GamFloatSpec GamFloatScale.
Import ListNotations.
Local Open Scope R_scope.
Section M.
Variable be : Backend.
Notation A := (F64 be).
Lemma legendre_weights_pos : forall kappa, accurate_trig be kappa ->
  forall t (n : nat) (r : GaussLegendre A), (100 <= usize_max t)%Z -> (1 <= n)%nat -> (Z.of_nat n <= 2 ^ 40)%Z -> (2 * Z.of_nat n <= usize_max t)%Z -> legendre_new t (Z.of_nat n) = Ok r ->
  Forall (fun p => ffin (snd p) /\ 0 < fval (snd p)) (legendre_pairs r).
Proof.
  intros kappa HT t n r Hu Hn Hm H2 E. destruct (le_lt_dec n 100) as [L|G].
  - destruct (small_strict be kappa HT t n r Hu H2 E ltac:(lia)) as [[_ S] _]. revert S. apply Forall_impl. intros p [_ H]. exact H.
  - rewrite (legendre_list t (Z.of_nat n) r) by (assumption || lia). rewrite Nat2Z.id. apply List.Forall_forall. intros q Hq. apply in_rev in Hq.
    apply in_map_iff in Hq. destruct Hq as (i & <- & Hi). apply in_seq in Hi. unfold at_cos. cbn [snd].
    destruct (big_angle_close be kappa HT t n i Hu G Hm H2 ltac:(lia)) as [[_ [F _]] P]. split; assumption.
Qed.
Lemma legendre_weights_nn : forall kappa, accurate_trig be kappa ->
  forall t n (r : GaussLegendre A), (100 <= usize_max t)%Z -> (1 <= n <= 2 ^ 40)%Z -> (2 * n <= usize_max t)%Z -> legendre_new t n = Ok r ->
  weights_not_negative (legendre_pairs r).
Proof.
  intros kappa HT t n r Hu Hn H2 E. rewrite <- (Z2Nat.id n) in E, H2 by lia.
  assert (P := legendre_weights_pos kappa HT t (Z.to_nat n) r Hu ltac:(lia) ltac:(lia) H2 E).
  revert P. apply Forall_impl. intros p [F P]. apply nn_iff. apply (nn_val (snd p) F). apply Rlt_le. exact P.
Qed.
Lemma zero_node_weights : forall (ps qs : Pairs A) i, zero_node ps i = Ok qs -> weights_not_negative ps -> weights_not_negative qs.
Proof.
  intros ps qs i H W. destruct (lt_dec i (length ps)) as [L|N].
  - destruct (zero_node_ok ps i L) as (q & Hq & Lq & Nq). rewrite Hq in H. injection H; intros ->.
    unfold weights_not_negative in *. rewrite List.Forall_forall in W |- *. intros p Hp.
    destruct (In_nth qs p (lit0, lit0) Hp) as (j & Hj & <-). rewrite Nq. destruct (Nat.eqb_spec j i) as [->|_].
    + cbn [snd]. apply W, nth_In. lia.
    + apply W, nth_In. lia.
  - unfold zero_node in H. assert (O := proj2 (nth_error_None ps i) ltac:(lia)). rewrite O in H. discriminate.
Qed.
Lemma jacobi_weights_nn : forall kappa, accurate_trig be kappa ->
  forall t (ext : Linalg A) n (pa pb : Param A) (r : GaussJacobi A), (100 <= usize_max t)%Z -> (1 <= n <= 2 ^ 40)%Z -> (2 * n <= usize_max t)%Z -> sorts ext ->
  not_negative (jacobi_scale (param_get pa) (param_get pb)) -> not_negative (jacobi_one_weight (param_get pa) (param_get pb)) ->
  jacobi_new t ext n pa pb = Ok r -> weights_not_negative (jacobi_pairs r).
Proof.
  intros kappa HT t ext n pa pb r Hu Hn H2 So Hs H1 E. unfold jacobi_new in E. cbv zeta in E.
  destruct (neqb (param_get pa) lit0 && neqb (param_get pb) lit0).
  { destruct (legendre_new t n) as [l|] eqn:L; [|discriminate]. injection E; intros <-. exact (legendre_weights_nn kappa HT t n l Hu Hn H2 L). }
  destruct (neqb (param_get pa) lit_neg_half && neqb (param_get pb) lit_neg_half).
  { destruct (chebyshev1_new t n) as [l|] eqn:L; [|discriminate]. injection E; intros <-. exact (chebyshev1_weights_nn be t n l ltac:(lia) L). }
  destruct (neqb (param_get pa) lit_half && neqb (param_get pb) lit_half).
  { destruct (chebyshev2_new t n) as [l|] eqn:L; [|discriminate]. injection E; intros <-. exact (chebyshev2_weights_nn be t n l ltac:(lia) L). }
  destruct (n =? 1)%Z.
  { injection E; intros <-. constructor; [exact H1|constructor]. }
  destruct (golub_welsch ext (Z.to_nat n) (jacobi_diag (param_get pa) (param_get pb)) (jacobi_off_diag (param_get pa) (param_get pb)) (jacobi_scale (param_get pa) (param_get pb))) as [ps|] eqn:G; [|discriminate].
  cbn [bind] in E. assert (W := gw_weights_nn be ext _ _ _ _ ps So (proj1 (nn_iff be _) Hs) G).
  destruct (n mod 2 =? 1)%Z.
  - destruct (zero_node ps (Z.to_nat (n / 2))) as [qs|] eqn:Z0; [|discriminate]. injection E; intros <-. exact (zero_node_weights ps qs _ Z0 W).
  - injection E; intros <-. exact W.
Qed.
Lemma laguerre_weights_math : forall kappa, accurate_math be kappa -> forall (ext : Linalg A) n (al : Param A) (r : GaussLaguerre A),
  ffin (param_get al) -> / 10 ^ 18 <= fval (param_get al) + 1 <= 1689 / 10 -> sorts ext -> laguerre_new ext n al = Ok r -> weights_not_negative (laguerre_pairs r).
Proof.
  intros kappa HM ext n al r F H So E. apply (laguerre_weights_nn be ext n al r So); [|exact E].
  destruct (laguerre_log be kappa HM (param_get al) F H) as (F2 & P & _). apply nn_iff. apply (nn_val _ F2). apply Rlt_le. exact P.
Qed.
End M.
