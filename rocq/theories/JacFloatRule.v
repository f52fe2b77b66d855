(** Gauss-Jacobi rules in double arithmetic. *)
From Coq Require Import Reals List Lia Lra Arith ZArith Bool.
From Coquelicot Require Import Coquelicot.
From Flocq Require Import Core IEEE754.Binary.
From Verif Require Import Arith F64 F64Spec F64Proof RInst RInstProof Machine Param Rules RSum PolySpec RoundSpec RoundProof GolubWelsch GWSpec EigenSpec WeightSpec RuleSpec InexactSpec InexactF64Spec
  EigenProof GWProof Inexact InexactF64 InexactF64Rules InexactNorm InexactEnd Jacobi EqProof RoundRules IntegrateSpec GaussSpec GaussExact JacobiMore AccF64 JacFloat.
Import ListNotations.
Local Open Scope R_scope.

Section Rule.
Variable be : Backend.
Notation A := (F64 be).
Variables (t : Target) (ext : Linalg A) (n : Z) (pa pb : Param A) (r : GaussJacobi A) (M dl tau rho phi : R).
Notation al := (param_get pa).
Notation bt := (param_get pb).
Notation av := (fval (param_get pa)).
Notation bv := (fval (param_get pb)).
Notation sf := (@jacobi_scale A (param_get pa) (param_get pb)).
Hypothesis Hn : (2 <= n <= 2 ^ 52)%Z.
Hypothesis Ev : (n mod 2 = 0)%Z.
Hypothesis Fa : ffin al.
Hypothesis Fb : ffin bt.
Hypothesis Hd : 1 / 10 ^ 10 <= dl <= 1.
Hypothesis Ha : dl <= 1 + av /\ av <= 10 ^ 15.
Hypothesis Hb : dl <= 1 + bv /\ bv <= 10 ^ 15.
Hypothesis Hab : dl <= Rabs (1 + av + bv).
Hypothesis Nd : ~ delegated av bv.
Hypothesis So : sorts ext.
Hypothesis Ht : 1 <= tau.
Hypothesis Fs : ffin sf.
Hypothesis Bs : Rabs (fval sf) <= bpow radix2 1000.
Hypothesis HM : jacobi_integral av bv (fun _ => 1) M.
Hypothesis Ex : float_solver ext (Z.to_nat n) (jacobi_diag al bt) (jacobi_off_diag al bt) tau rho phi.
Hypothesis Hphi : phi < 1.
Hypothesis Hr : jacobi_new t ext n pa pb = Ok r.
Let N := Z.to_nat n.
Let del := 18 * (uro / dl).

Lemma jf_run : golub_welsch ext N (jacobi_diag al bt) (jacobi_off_diag al bt) sf = Ok (jacobi_pairs r).
Proof.
  unfold jacobi_new in Hr. cbv zeta in Hr. destruct (tests be pa pb Fa Fb) as (T1 & T2 & T3).
  assert (Nd' := Nd). unfold delegated in Nd'.
  rewrite (bool_cases _ _ T1) in Hr by (unfold pair_is; intros [? ?]; apply Nd'; lra).
  rewrite (bool_cases _ _ T2) in Hr by (unfold pair_is; intros [? ?]; apply Nd'; lra).
  rewrite (bool_cases _ _ T3) in Hr by (unfold pair_is; intros [? ?]; apply Nd'; lra).
  replace (n =? 1)%Z with false in Hr by (symmetry; apply Z.eqb_neq; lia). fold N in Hr.
  destruct (golub_welsch ext N _ _ sf) as [ps|]; [|discriminate]. cbn [bind] in Hr.
  rewrite Ev in Hr. cbn [bind Z.eqb] in Hr. injection Hr; intros <-. reflexivity.
Qed.
Lemma jf_N : INR N = IZR n. Proof. unfold N. rewrite INR_IZR_INZ, Z2Nat.id by lia. reflexivity. Qed.
Lemma jf_Hn : (1 <= N)%nat. Proof. unfold N. lia. Qed.
Lemma jf_a : -1 < av. Proof. lra. Qed.
Lemma jf_b : -1 < bv. Proof. lra. Qed.
Lemma jf_ab : av + bv <> -1. Proof. intros E. replace (1 + av + bv) with 0 in Hab by lra. rewrite Rabs_R0 in Hab. lra. Qed.
Lemma jf_diag : forall i, (i < N)%nat -> Rabs (fval (@jacobi_diag A al bt i) - @jacobi_diag RA av bv i) <= del.
Proof.
  intros [|i] Hi.
  - apply (diag0_close be dl Hd al bt Fa Fb Ha Hb).
  - apply (diagS_close be dl Hd al bt Fa Fb Ha Hb Hab). unfold N in Hi. lia.
Qed.
Lemma off_bound : forall i, Rabs (@jacobi_off_diag RA av bv i) <= 1.
Proof.
  intros i. assert (A0 := jf_a). assert (B0 := jf_b). destruct (jacobi_coeffs av bv A0 B0 jf_ab) as (_ & _ & C0 & CS & _).
  set (x := @jacobi_off_diag RA av bv i) in *. assert (Sq : x * x <= 1).
  { destruct i as [|i]; unfold x.
    - rewrite C0. apply Rmult_le_reg_r with ((2 + av + bv) * (2 + av + bv) * (3 + av + bv)); [repeat apply Rmult_lt_0_compat; lra|].
      unfold Rdiv. rewrite Rmult_assoc, Rinv_l, Rmult_1_r by (apply Rgt_not_eq; repeat apply Rmult_lt_0_compat; lra).
      assert (Q : 4 * (1 + av) * (1 + bv) <= (2 + av + bv) * (2 + av + bv)) by (assert (Z := Rle_0_sqr (av - bv)); unfold Rsqr in Z; lra).
      assert (Q2 : (2 + av + bv) * (2 + av + bv) * 1 <= (2 + av + bv) * (2 + av + bv) * (3 + av + bv)) by (apply Rmult_le_compat_l; [apply Rle_0_sqr|lra]). lra.
    - rewrite CS. set (k := INR (S (S i))) in *. assert (K : 2 <= k) by (unfold k; rewrite !S_INR; assert (0 <= INR i) by apply pos_INR; lra). clearbody k.
      set (s := 2 * k + av + bv). assert (S2 : 2 < s) by (unfold s; lra).
      apply Rmult_le_reg_r with (s * s * (s + 1) * (s - 1)); [repeat apply Rmult_lt_0_compat; lra|].
      unfold Rdiv. rewrite (Rmult_assoc _ (/ _)), Rinv_l, Rmult_1_r by (apply Rgt_not_eq; repeat apply Rmult_lt_0_compat; lra).
      assert (Q1 : 4 * (k * (k + av + bv)) <= s * s) by (assert (Z := Rle_0_sqr (av + bv)); unfold Rsqr in Z; unfold s; lra).
      assert (Q2 : 4 * ((k + av) * (k + bv)) <= s * s) by (assert (Z := Rle_0_sqr (av - bv)); unfold Rsqr in Z; unfold s; lra).
      assert (Q3 : 4 * (k * (k + av + bv)) * (4 * ((k + av) * (k + bv))) <= s * s * (s * s)) by (apply Rmult_le_compat; try assumption; repeat apply Rmult_le_pos; lra).
      assert (S4 : 4 <= s * s) by (assert (2 * 2 <= s * s) by (apply Rmult_le_compat; lra); lra).
      assert (Q4 : s * s * 4 <= s * s * (s * s)) by (apply Rmult_le_compat_l; lra).
      replace (1 * (s * s * (s + 1) * (s - 1))) with (s * s * (s * s) - s * s) by ring.
      replace (4 * k * (k + av) * (k + bv) * (k + av + bv)) with (/ 4 * (4 * (k * (k + av + bv)) * (4 * ((k + av) * (k + bv))))) by field. lra. }
  rewrite <- (Rabs_pos_eq 1) by lra. apply Rsqr_le_abs_0. unfold Rsqr. lra.
Qed.
Lemma jf_off : forall i, (i < N - 1)%nat -> Rabs (fval (@jacobi_off_diag A al bt i) - @jacobi_off_diag RA av bv i) <= del.
Proof.
  intros i Hi. destruct (off_rel be dl Hd al bt Fa Fb Ha Hb Hab i) as [_ E]; [unfold N in Hi; lia|]. eapply Rle_trans; [exact E|]. fold del.
  rewrite <- (Rmult_1_r del) at 2. apply Rmult_le_compat_l; [|apply off_bound]. unfold del. assert (U := uro_num). apply Rmult_le_pos; [lra|]. apply Rmult_le_pos; [lra|]. left. apply Rinv_0_lt_compat. lra.
Qed.
Lemma jf_zeros : forall x, monic (@jacobi_diag RA av bv) (@jacobi_off_diag RA av bv) N x = 0 -> Rabs x <= tau.
Proof. intros x Hx. apply (jacobi_roots_inside av bv jf_a jf_b jf_ab) in Hx. apply Rabs_le. lra. Qed.
Lemma jf_phi : 0 <= phi.
Proof.
  destruct (float_pairs ext N _ _ _ tau rho phi _ jf_Hn So Ex Hphi Fs Bs jf_run) as (lam & V & w & _ & He & _).
  apply (phi_pos N _ lam V _ phi jf_Hn He).
Qed.
Lemma jf_del : 3 * del * sqrt (1 + phi) <= 9 / 10 ^ 15 / dl.
Proof.
  assert (P := jf_phi). assert (S2 : sqrt (1 + phi) <= 1415 / 1000) by (eapply Rle_trans; [apply sqrt_le_1_alt|apply sqrt_two]; lra).
  assert (U := uro_num). assert (I : 0 < / dl) by (apply Rinv_0_lt_compat; lra).
  unfold del, Rdiv. apply Rle_trans with (3 * (18 * (uro * / dl)) * (1415 / 1000)).
  - apply Rmult_le_compat_l; [|exact S2]. repeat apply Rmult_le_pos; lra.
  - replace (3 * (18 * (uro * / dl)) * (1415 / 1000)) with (3 * 18 * (1415 / 1000) * uro * / dl) by ring. apply Rmult_le_compat_r; lra.
Qed.

Let L := fun f => fval sf / M * jacobi_L av bv f.
Lemma jf_M : jacobi_L av bv (fun _ => 1) = M. Proof. apply is_RInt_gen_unique. exact HM. Qed.
Lemma jf_Mp : 0 < M. Proof. rewrite <- jf_M. apply jacobi_one_pos; [exact jf_a|exact jf_b]. Qed.
Lemma jf_lin : linear_on_polynomials L. Proof. apply scaled_linear, jacobi_linear; [exact jf_a|exact jf_b]. Qed.
Lemma jf_one : L (fun _ => 1) = fval sf.
Proof. unfold L. rewrite jf_M. assert (X := jf_Mp). field. lra. Qed.
Lemma jf_orth : orthogonal_up_to N L (monic (@jacobi_diag RA av bv) (@jacobi_off_diag RA av bv)).
Proof.
  destruct (jacobi_coeffs av bv jf_a jf_b jf_ab) as (Ca0 & CaS & Cb0 & CbS & _). intros i k Hik _. unfold L.
  rewrite (jacobi_orth av bv jf_a jf_b _ _ Ca0 CaS Cb0 CbS); [ring|lia].
Qed.
Lemma jf_tau : 0 <= tau. Proof. lra. Qed.
Lemma jf_off0 : forall i, (i < N - 1)%nat -> @jacobi_off_diag RA av bv i <> 0.
Proof. intros i _. apply (jacobi_coeffs av bv jf_a jf_b jf_ab). Qed.
Lemma jacobi_float_values : forall c f, (forall x, f x = rsum (2 * N) (fun j => c j * x ^ j)) -> exists v, jacobi_integral av bv f v /\
  Rabs (apply_rule (real_pairs (jacobi_pairs r)) f - fval sf / M * v) <=
    rsum (2 * N) (fun j => Rabs (c j) * (Rabs (fval sf) * (sqrt (IZR n) * moment_error N tau (rho + 9 / 10 ^ 15 / dl) phi j) +
      (1 / 10 ^ 15 * Rabs (fval sf) + 1 / 10 ^ 200) * tau ^ j)).
Proof.
  intros c f Hf. assert (Hn' := jf_Hn). exists (jacobi_L av bv f). split.
  { apply (jacobi_gen av bv jf_a jf_b (2 * N - 1)). exists c. intros x. replace (S (2 * N - 1)) with (2 * N)%nat by lia. apply Hf. }
  eapply Rle_trans; [exact (spectral_values be ext N _ _ _ tau rho phi _ Hn' So Ex Hphi Fs Bs jf_run _ _ del L jf_diag jf_off jf_tau jf_zeros jf_off0 jf_lin jf_orth c f Hf)|].
  rewrite jf_one, jf_N. apply rsum_le. intros j _. apply Rmult_le_compat_l; [apply Rabs_pos|].
  assert (T0 := jf_tau). assert (P0 := jf_phi). apply Rplus_le_compat.
  - apply Rmult_le_compat_l; [apply Rabs_pos|]. apply Rmult_le_compat_l; [apply sqrt_pos|]. apply moment_error_mono; [exact T0|exact P0|]. apply Rplus_le_compat_l, jf_del.
  - apply Rmult_le_compat_r; [apply pow_le, T0|]. rewrite Rminus_eq_0, Rabs_R0, Rplus_0_r. assert (U := uro_num). assert (E0 := eta_pos).
    set (S := Rabs (fval sf)). assert (S0 : 0 <= S) by apply Rabs_pos.
    assert (Y := tiny (INR N) ltac:(rewrite jf_N; apply IZR_le; lia)). assert (Z := tiny_small). assert (N0 : 0 <= INR N) by apply pos_INR.
    rewrite <- jf_N.
    replace (INR N * (((1 + uro) * S + 1) * eta)) with ((1 + uro) * (INR N * eta) * S + INR N * eta) by ring.
    set (w := INR N * eta) in *. assert (w0 : 0 <= w) by (apply Rmult_le_pos; lra).
    assert (W : (1 + uro) * w <= 2 * (1 / 10 ^ 30)) by (apply Rmult_le_compat; lra).
    assert (UU : uro * uro <= 1 / 10 ^ 20). { apply Rle_trans with (112 / 10 ^ 18 * (112 / 10 ^ 18)); [apply Rmult_le_compat; lra|lra]. }
    assert (UU0 : 0 <= uro * uro) by (apply Rmult_le_pos; lra).
    assert (T1 : (1 + phi) * (2 * uro + uro * uro) <= 2 * (225 / 10 ^ 18)) by (apply Rmult_le_compat; lra).
    rewrite <- Rmult_assoc, <- Rplus_assoc, <- Rmult_plus_distr_r. apply Rplus_le_compat; [|exact Y]. apply Rmult_le_compat_r; [exact S0|]. lra.
Qed.
Lemma jacobi_float_nodes : forall p, In p (jacobi_pairs r) -> ffin (fst p) /\ ffin (snd p) /\
  exists x, monic (@jacobi_diag RA av bv) (@jacobi_off_diag RA av bv) N x = 0 /\
    Rabs (fval (fst p) - x) <= (rho + 9 / 10 ^ 15 / dl) * sqrt (IZR n / (1 - phi)).
Proof.
  intros p Hp. assert (Hn' := jf_Hn).
  destruct (float_nodes ext N _ _ _ tau rho phi _ Hn' So Ex Hphi Fs Bs jf_run _ _ del L jf_diag jf_off jf_off0 jf_lin jf_orth p Hp) as (A1 & A2 & x & E & B).
  split; [exact A1|]. split; [exact A2|]. exists x. split; [exact E|]. eapply Rle_trans; [exact B|]. rewrite jf_N.
  apply Rmult_le_compat_r; [apply sqrt_pos|]. apply Rplus_le_compat_l, jf_del.
Qed.
Lemma jacobi_weights : abs_total (map snd (jacobi_pairs r)) <= 3 * Rabs (fval sf) + 1 / 10 ^ 200.
Proof.
  assert (P0 := jf_phi). eapply Rle_trans; [exact (float_weights ext N _ _ _ tau rho phi _ jf_Hn So Ex Hphi Fs Bs jf_run)|].
  assert (UV := uro_num). assert (E0 := eta_pos).
  set (S := Rabs (fval sf)) in *. assert (S0 : 0 <= S) by apply Rabs_pos.
  assert (Y := tiny (INR N) ltac:(rewrite jf_N; apply IZR_le; lia)). assert (Z := tiny_small). assert (N0 : 0 <= INR N) by apply pos_INR.
  replace (INR N * (((1 + uro) * S + 1) * eta)) with ((1 + uro) * (INR N * eta) * S + INR N * eta) by ring.
  set (w := INR N * eta) in *. assert (w0 : 0 <= w) by (apply Rmult_le_pos; lra).
  assert (W : (1 + uro) * w <= 2 * (1 / 10 ^ 30)) by (apply Rmult_le_compat; lra).
  assert (UU : uro * uro <= 112 / 10 ^ 18 * (112 / 10 ^ 18)) by (apply Rmult_le_compat; lra). assert (UU0 : 0 <= uro * uro) by (apply Rmult_le_pos; lra).
  assert (T1 : (1 + phi) * (1 + (2 * uro + uro * uro)) <= 2 * (1 + 1 / 100)) by (apply Rmult_le_compat; lra).
  rewrite <- Rmult_assoc, <- Rplus_assoc, <- Rmult_plus_distr_r. apply Rplus_le_compat; [|exact Y]. apply Rmult_le_compat_r; [exact S0|]. lra.
Qed.
Lemma jacobi_float_result : forall c f (g : A -> A) (a b : A) e (result : A), 0 <= e -> (forall x, f x = rsum (2 * N) (fun j => c j * x ^ j)) ->
  (forall x, In x (map fst (jacobi_pairs r)) -> Rabs (fval (g (to_interval a b x)) - f (fval x)) <= e) ->
  (result = fst (jacobi_integrate (pure g) r a b tt) \/ exists s, result = jacobi_par_integrate s g r a b) -> ffin result ->
  exists v, jacobi_integral av bv f v /\
    Rabs (fval result - fval (half_width a b) * (fval sf / M * v)) <=
      scaled_bound (length (jacobi_pairs r)) (fval (half_width a b)) (abs_sum (map g (map (to_interval a b) (map fst (jacobi_pairs r)))) (map snd (jacobi_pairs r))) +
      Rabs (fval (half_width a b)) * ((3 * Rabs (fval sf) + 1 / 10 ^ 200) * e +
      rsum (2 * N) (fun j => Rabs (c j) * (Rabs (fval sf) * (sqrt (IZR n) * moment_error N tau (rho + 9 / 10 ^ 15 / dl) phi j) +
        (1 / 10 ^ 15 * Rabs (fval sf) + 1 / 10 ^ 200) * tau ^ j))).
Proof.
  intros c f g a b e result He Hf Hg Hres Fr.
  destruct (jacobi_float_values c f Hf) as (v & Hv & B). exists v. split; [exact Hv|].
  assert (W := jacobi_weights). set (S := jacobi_scale al bt : A) in *.
  assert (Q := sum_values (jacobi_pairs r) (fun x => g (to_interval a b x)) f e (fun p Hp => Hg (fst p) (in_map fst _ p Hp))).
  rewrite <- (map_map (to_interval a b) g) in Q.
  assert (T : Rabs (fval result - fval (half_width a b) * exact_sum (map g (map (to_interval a b) (map fst (jacobi_pairs r)))) (map snd (jacobi_pairs r))) <=
    scaled_bound (length (jacobi_pairs r)) (fval (half_width a b)) (abs_sum (map g (map (to_interval a b) (map fst (jacobi_pairs r)))) (map snd (jacobi_pairs r)))).
  { destruct Hres as [->|[s ->]].
    - assert (X := jacobi_round be unit (pure g) r a b tt). cbv zeta in X. rewrite (RInstProof.call_all_pure A A g) in X. exact (X Fr).
    - exact (jacobi_par_round be s g r a b Fr). }
  assert (W' : e * abs_total (map snd (jacobi_pairs r)) <= (3 * Rabs (fval S) + 1 / 10 ^ 200) * e) by (rewrite (Rmult_comm (3 * Rabs (fval S) + _)); apply Rmult_le_compat_l; assumption).
  set (h := fval (half_width a b)) in *. set (ex := exact_sum (map g (map (to_interval a b) (map fst (jacobi_pairs r)))) (map snd (jacobi_pairs r))) in *.
  match goal with |- Rabs (?x - h * ?u) <= _ => replace (x - h * u) with ((x - h * ex) + h * ((ex - apply_rule (real_pairs (jacobi_pairs r)) f) + (apply_rule (real_pairs (jacobi_pairs r)) f - u))) by ring end.
  eapply Rle_trans; [apply Rabs_triang|]. apply Rplus_le_compat; [exact T|]. rewrite Rabs_mult. apply Rmult_le_compat_l; [apply Rabs_pos|].
  eapply Rle_trans; [apply Rabs_triang|]. apply Rplus_le_compat; [|exact B]. eapply Rle_trans; [exact Q|exact W'].
Qed.
End Rule.

Lemma jacobi_float_rule : forall (be : Backend) t (ext : Linalg (F64 be)) n (pa pb : Param (F64 be)) (r : GaussJacobi (F64 be)) (M dl tau rho phi : R),
  let alpha := fval (param_get pa) in let beta := fval (param_get pb) in let s := jacobi_scale (param_get pa) (param_get pb) in
  (2 <= n <= 2 ^ 52)%Z -> (n mod 2 = 0)%Z -> ffin (param_get pa) -> ffin (param_get pb) ->
  1 / 10 ^ 10 <= dl <= 1 -> dl <= 1 + alpha /\ alpha <= 10 ^ 15 -> dl <= 1 + beta /\ beta <= 10 ^ 15 -> dl <= Rabs (1 + alpha + beta) ->
  ~ delegated alpha beta -> sorts ext -> 1 <= tau -> ffin s -> Rabs (fval s) <= bpow radix2 1000 -> jacobi_integral alpha beta (fun _ => 1) M ->
  float_solver ext (Z.to_nat n) (jacobi_diag (param_get pa) (param_get pb)) (jacobi_off_diag (param_get pa) (param_get pb)) tau rho phi -> phi < 1 ->
  jacobi_new t ext n pa pb = Ok r ->
  (forall c f, (forall x, f x = rsum (2 * Z.to_nat n) (fun j => c j * x ^ j)) -> exists v, jacobi_integral alpha beta f v /\
    Rabs (apply_rule (real_pairs (jacobi_pairs r)) f - fval s / M * v) <=
      rsum (2 * Z.to_nat n) (fun j => Rabs (c j) * (Rabs (fval s) * (sqrt (IZR n) * moment_error (Z.to_nat n) tau (rho + 9 / 10 ^ 15 / dl) phi j) +
        (1 / 10 ^ 15 * Rabs (fval s) + 1 / 10 ^ 200) * tau ^ j))) /\
  (forall p, In p (jacobi_pairs r) -> ffin (fst p) /\ ffin (snd p) /\
    exists x, monic (@jacobi_diag RA alpha beta) (@jacobi_off_diag RA alpha beta) (Z.to_nat n) x = 0 /\
      Rabs (fval (fst p) - x) <= (rho + 9 / 10 ^ 15 / dl) * sqrt (IZR n / (1 - phi))).
Proof.
  intros be t ext n pa pb r M dl tau rho phi alpha beta s Hn Ev Fa Fb Hd Ha Hb Hab Nd So Ht Fs Bs HM Ex Hphi Hr. split.
  - eapply jacobi_float_values; eassumption.
  - eapply jacobi_float_nodes; eassumption.
Qed.
Lemma jacobi_float_end : forall (be : Backend) t (ext : Linalg (F64 be)) n (pa pb : Param (F64 be)) (r : GaussJacobi (F64 be)) (M dl tau rho phi : R),
  let alpha := fval (param_get pa) in let beta := fval (param_get pb) in let s := jacobi_scale (param_get pa) (param_get pb) in
  (2 <= n <= 2 ^ 52)%Z -> (n mod 2 = 0)%Z -> ffin (param_get pa) -> ffin (param_get pb) ->
  1 / 10 ^ 10 <= dl <= 1 -> dl <= 1 + alpha /\ alpha <= 10 ^ 15 -> dl <= 1 + beta /\ beta <= 10 ^ 15 -> dl <= Rabs (1 + alpha + beta) ->
  ~ delegated alpha beta -> sorts ext -> 1 <= tau -> ffin s -> Rabs (fval s) <= bpow radix2 1000 -> jacobi_integral alpha beta (fun _ => 1) M ->
  float_solver ext (Z.to_nat n) (jacobi_diag (param_get pa) (param_get pb)) (jacobi_off_diag (param_get pa) (param_get pb)) tau rho phi -> phi < 1 ->
  jacobi_new t ext n pa pb = Ok r ->
  forall c f (g : F64 be -> F64 be) (a b : F64 be) e (result : F64 be), 0 <= e -> (forall x, f x = rsum (2 * Z.to_nat n) (fun j => c j * x ^ j)) ->
  (forall x, In x (map fst (jacobi_pairs r)) -> Rabs (fval (g (to_interval a b x)) - f (fval x)) <= e) ->
  (result = fst (jacobi_integrate (pure g) r a b tt) \/ exists sch, result = jacobi_par_integrate sch g r a b) -> ffin result ->
  let h := fval (half_width a b) in
  exists v, jacobi_integral alpha beta f v /\
    Rabs (fval result - h * (fval s / M * v)) <=
      scaled_bound (length (jacobi_pairs r)) h (abs_sum (map g (map (to_interval a b) (map fst (jacobi_pairs r)))) (map snd (jacobi_pairs r))) +
      Rabs h * ((3 * Rabs (fval s) + 1 / 10 ^ 200) * e +
      rsum (2 * Z.to_nat n) (fun j => Rabs (c j) * (Rabs (fval s) * (sqrt (IZR n) * moment_error (Z.to_nat n) tau (rho + 9 / 10 ^ 15 / dl) phi j) +
        (1 / 10 ^ 15 * Rabs (fval s) + 1 / 10 ^ 200) * tau ^ j))).
Proof.
  intros be t ext n pa pb r M dl tau rho phi alpha beta s Hn Ev Fa Fb Hd Ha Hb Hab Nd So Ht Fs Bs HM Ex Hphi Hr c f g a b e result He Hf Hg Hres Fr h.
  eapply jacobi_float_result; eassumption.
Qed.
