(** Convergence of positive rules that become exact on the powers of a non-negative function y
    whose moments satisfy M(j+1) = (j+c) M(j). *)
From Coq Require Import Reals Lra Lia ZArith List FunctionalExtensionality.
From Coquelicot Require Import Coquelicot.
From Verif Require Import RSum PolySpec PolyProof ErrorSpec ErrConv TransferProof.
Local Open Scope R_scope.

(** ** Taylor remainder of exp(-z) *)
Lemma pow_fact_der : forall n s z, is_derive (fun x => (s * x) ^ S n / INR (fact (S n))) z (s * ((s * z) ^ n / INR (fact n))).
Proof.
  intros n s z. assert (E : INR (fact (S n)) = INR (S n) * INR (fact n)) by (rewrite fact_simpl, mult_INR; reflexivity).
  assert (P := INR_fact_neq_0 n). assert (P2 : INR (S n) <> 0) by (apply not_0_INR; lia).
  rewrite E. generalize dependent (INR (fact n)). intros q _ Hq. 
  apply (is_derive_ext (fun x => / (INR (S n) * q) * (s * x) ^ S n)); [intros; unfold Rdiv; apply Rmult_comm|].
  replace (s * ((s * z) ^ n / q)) with (/ (INR (S n) * q) * (INR (S n) * s * (s * z) ^ n)) by (field; split; assumption).
  apply is_derive_scal.
  apply (is_derive_pow (fun x => s * x) (S n) z s). auto_derive; [trivial|ring].
Qed.
Definition texp (n : nat) (z : R) : R := rsum n (fun i => (- z) ^ i / INR (fact i)).
Lemma texp_der : forall n z, is_derive (texp (S n)) z (- texp n z).
Proof.
  induction n; intros z.
  - apply (is_derive_ext (fun _ => 1)); [intros; unfold texp; simpl; field|].
    replace (- texp 0 z) with (@zero R_NormedModule) by (unfold texp; simpl; unfold zero; simpl; ring). apply (is_derive_const (K := R_AbsRing) (V := R_NormedModule) 1 z).
  - apply (is_derive_ext (fun z => texp (S n) z + (- z) ^ S n / INR (fact (S n)))); [intros; reflexivity|].
    replace (- texp (S n) z) with (plus (- texp n z) (- ((- z) ^ n / INR (fact n)))) by (unfold plus; simpl; unfold texp; simpl rsum; ring).
    apply (is_derive_plus (K := R_AbsRing) (V := R_NormedModule)); [apply IHn|].
    apply (is_derive_ext (fun z => (-1 * z) ^ S n / INR (fact (S n)))); [intros t; replace (-1 * t) with (- t) by ring; reflexivity|].
    replace (- ((- z) ^ n / INR (fact n))) with (-1 * ((-1 * z) ^ n / INR (fact n))) by (replace (-1 * z) with (- z) by ring; ring).
    apply pow_fact_der.
Qed.
Lemma rem_der : forall n z, is_derive (fun z => exp (- z) - texp (S n) z) z (- (exp (- z) - texp n z)).
Proof.
  intros n z. replace (- (exp (- z) - texp n z)) with (minus (- exp (- z)) (- texp n z)) by (unfold minus, plus, opp; simpl; ring).
  apply (is_derive_minus (K := R_AbsRing) (V := R_NormedModule)); [|apply texp_der]. auto_derive; [trivial|ring].
Qed.
Lemma texp_0 : forall n, texp (S n) 0 = 1.
Proof. induction n; unfold texp in *; [simpl; field|]. change (rsum (S (S n)) ?f) with (rsum (S n) f + f (S n)). rewrite IHn. replace (- 0) with 0 by ring. rewrite pow_i by lia. unfold Rdiv. ring. Qed.
Lemma texp_bound : forall n z, 0 <= z -> Rabs (exp (- z) - texp n z) <= z ^ n / INR (fact n).
Proof.
  induction n; intros z Hz.
  - unfold texp. simpl. rewrite Rminus_0_r, Rabs_pos_eq by (left; apply exp_pos). unfold Rdiv. rewrite Rinv_1, Rmult_1_r.
    rewrite <- exp_0. apply Raux.exp_le. lra.
  - destruct (Req_dec z 0) as [->|Nz].
    { rewrite texp_0, Ropp_0, exp_0, Rminus_diag_eq, Rabs_R0 by reflexivity. rewrite pow_i by lia. unfold Rdiv. lra. }
    assert (FP := INR_fact_lt_0 n). assert (SP : 0 < INR (S n)) by (apply lt_0_INR; lia).
    assert (Q : forall x, is_derive (fun x => x ^ S n / INR (fact (S n))) x (x ^ n / INR (fact n))).
    { intros x. apply (is_derive_ext (fun x => (1 * x) ^ S n / INR (fact (S n)))); [intros t; rewrite Rmult_1_l; reflexivity|].
      replace (x ^ n / INR (fact n)) with (1 * ((1 * x) ^ n / INR (fact n))) by (rewrite !Rmult_1_l; reflexivity). apply pow_fact_der. }
    assert (Dd : forall s x, is_derive (fun x => x ^ S n / INR (fact (S n)) - s * (exp (- x) - texp (S n) x)) x (x ^ n / INR (fact n) - s * (- (exp (- x) - texp n x)))).
    { intros s x. apply (is_derive_minus (K := R_AbsRing) (V := R_NormedModule) (fun x => x ^ S n / INR (fact (S n))) (fun x => s * (exp (- x) - texp (S n) x))); [apply Q|].
      apply (is_derive_scal (fun x => exp (- x) - texp (S n) x)). apply rem_der. }
    assert (G : forall s, s = 1 \/ s = -1 -> s * (exp (- z) - texp (S n) z) <= z ^ S n / INR (fact (S n))).
    { intros s Hs. destruct (MVT_gen (fun x => x ^ S n / INR (fact (S n)) - s * (exp (- x) - texp (S n) x)) 0 z
        (fun x => x ^ n / INR (fact n) - s * (- (exp (- x) - texp n x)))) as (x & Hx & E).
      - intros x _. apply Dd.
      - intros x _. apply continuity_pt_filterlim. 
        apply (ex_derive_continuous (V := R_NormedModule) (fun x => x ^ S n / INR (fact (S n)) - s * (exp (- x) - texp (S n) x)) x). eexists. apply Dd.
      - rewrite Rmin_left, Rmax_right in Hx by lra. rewrite texp_0, Ropp_0, exp_0, pow_i in E by lia.
        assert (B := IHn x ltac:(lra)). apply Rabs_le_between in B.
        assert (0 <= (x ^ n / INR (fact n) - s * - (exp (- x) - texp n x)) * (z - 0)).
        { apply Rmult_le_pos; [|lra]. destruct Hs; subst; lra. }
        unfold Rdiv in E at 2. lra. }
    apply Rabs_le. assert (G1 := G 1 ltac:(auto)). assert (G2 := G (-1) ltac:(auto)). lra.
Qed.

(** ** The convergence argument *)
Section Conv.
Variables (K : Type) (size : K -> nat) (D : R -> Prop) (Q : K -> (R -> R) -> R) (J : (R -> R) -> R -> Prop).
Hypothesis Q_lin : forall k a b f g, Q k (fun x => a * f x + b * g x) = a * Q k f + b * Q k g.
Hypothesis Q_le : forall k f g, (forall x, D x -> f x <= g x) -> Q k f <= Q k g.
Hypothesis J_lin : forall a b f g u v, J f u -> J g v -> J (fun x => a * f x + b * g x) (a * u + b * v).
Hypothesis J_le : forall f g u v, J f u -> J g v -> (forall x, D x -> f x <= g x) -> u <= v.

Definition conv (f : R -> R) (v : R) : Prop :=
  J f v /\ forall eps, 0 < eps -> exists N, forall k, (N <= size k)%nat -> Rabs (Q k f - v) <= eps.
Definition convs f := exists v, conv f v.

Lemma Q_ext : forall k f g, (forall x, D x -> f x = g x) -> Q k f = Q k g.
Proof. intros k f g H. apply Rle_antisym; apply Q_le; intros x Hx; rewrite (H x Hx); lra. Qed.
Lemma conv_lin : forall a b f g u v, conv f u -> conv g v -> conv (fun x => a * f x + b * g x) (a * u + b * v).
Proof.
  intros a b f g u v [Jf Cf] [Jg Cg]. split; [apply J_lin; assumption|]. intros eps He.
  assert (A := Rabs_pos a). assert (B := Rabs_pos b).
  assert (E' : 0 < eps / (Rabs a + Rabs b + 1)) by (apply Rdiv_lt_0_compat; lra).
  destruct (Cf _ E') as [N1 H1]. destruct (Cg _ E') as [N2 H2]. exists (max N1 N2). intros k Hk.
  specialize (H1 k ltac:(lia)). specialize (H2 k ltac:(lia)). rewrite Q_lin.
  replace (a * Q k f + b * Q k g - (a * u + b * v)) with (a * (Q k f - u) + b * (Q k g - v)) by ring.
  eapply Rle_trans; [apply Rabs_triang|]. rewrite !Rabs_mult.
  apply Rle_trans with (Rabs a * (eps / (Rabs a + Rabs b + 1)) + Rabs b * (eps / (Rabs a + Rabs b + 1))).
  - apply Rplus_le_compat; apply Rmult_le_compat_l; assumption.
  - apply Rle_trans with ((Rabs a + Rabs b + 1) * (eps / (Rabs a + Rabs b + 1))); [|right; field; lra]. nra.
Qed.
Lemma convs_lin : forall a b f g, convs f -> convs g -> convs (fun x => a * f x + b * g x).
Proof. intros a b f g [u Hu] [v Hv]. exists (a * u + b * v). apply conv_lin; assumption. Qed.
Lemma convs_eq : forall f g, (forall x, f x = g x) -> convs f -> convs g.
Proof. intros f g H Hf. rewrite <- (functional_extensionality f g H). exact Hf. Qed.
Lemma convs_sum : forall n c (F : nat -> R -> R), convs (fun _ => 0) -> (forall i, (i < n)%nat -> convs (F i)) -> convs (fun x => rsum n (fun i => c i * F i x)).
Proof.
  induction n; intros c F Z H; [exact Z|].
  apply (convs_eq (fun x => 1 * rsum n (fun i => c i * F i x) + c n * F n x)); [intros; simpl; ring|].
  apply convs_lin; [apply IHn; [exact Z|intros; apply H; lia]|apply H; lia].
Qed.

Lemma conv_limit : forall f v, J f v ->
  (forall eps, 0 < eps -> exists g h e, convs g /\ conv h e /\ e <= eps /\ forall x, D x -> Rabs (f x - g x) <= h x) -> conv f v.
Proof.
  intros f v Jf H. split; [exact Jf|]. intros eps He.
  destruct (H (eps / 4) ltac:(lra)) as (g & h & e & [u [Jg Cg]] & [Jh Ch] & Le & B).
  destruct (Cg (eps / 4) ltac:(lra)) as [N1 H1]. destruct (Ch (eps / 4) ltac:(lra)) as [N2 H2].
  exists (max N1 N2). intros k Hk. specialize (H1 k ltac:(lia)). specialize (H2 k ltac:(lia)).
  assert (B1 : forall x, D x -> f x <= 1 * g x + 1 * h x) by (intros x Hx; specialize (B x Hx); apply Rabs_le_between in B; lra).
  assert (B2 : forall x, D x -> 1 * g x + (-1) * h x <= f x) by (intros x Hx; specialize (B x Hx); apply Rabs_le_between in B; lra).
  assert (Q1 := Q_le k _ _ B1). assert (Q2 := Q_le k _ _ B2). rewrite Q_lin in Q1, Q2.
  assert (J1 := J_le _ _ _ _ Jf (J_lin 1 1 _ _ _ _ Jg Jh) B1). assert (J2 := J_le _ _ _ _ (J_lin 1 (-1) _ _ _ _ Jg Jh) Jf B2).
  apply Rabs_le_between in H1. apply Rabs_le_between in H2. apply Rabs_le. lra.
Qed.

Variables (y : R -> R) (M : nat -> R) (c : R).
Hypothesis y_pos : forall x, D x -> 0 <= y x.
Hypothesis c_pos : 0 < c.
Hypothesis M_conv : forall j, conv (fun x => y x ^ j) (M j).
Hypothesis M_rec : forall j, M (S j) = (INR j + c) * M j.
Hypothesis M_pos : 0 <= M 0.

Lemma M_nonneg : forall j, 0 <= M j.
Proof. induction j; [exact M_pos|]. rewrite M_rec. apply Rmult_le_pos; [assert (P := pos_INR j); lra|exact IHj]. Qed.
Lemma conv_zero : convs (fun _ => 0).
Proof. apply (convs_eq (fun x => 0 * y x ^ 0 + 0 * y x ^ 0)); [intros; ring|]. apply convs_lin; exists (M 0); apply M_conv. Qed.

Lemma small : forall j eps, 0 < eps -> exists n, M (j + n) * ((/ 2) ^ n / INR (fact n)) <= eps.
Proof.
  intros j eps He. set (u := fun n => M (j + n) * ((/ 2) ^ n / INR (fact n))).
  destruct (nfloor_ex (2 * (INR j + c))) as [n0 [_ Hn0]]; [assert (P := pos_INR j); lra|].
  assert (St : forall n, (n0 < n)%nat -> u (S n) <= 3 / 4 * u n).
  { intros n Hn. unfold u. rewrite Nat.add_succ_r, M_rec, plus_INR, fact_simpl, mult_INR.
    assert (F := INR_fact_lt_0 n). assert (S' : 0 < INR (S n)) by (apply lt_0_INR; lia).
    assert (L : INR (S n0) <= INR n) by (apply le_INR; lia). rewrite S_INR in L.
    replace ((INR j + INR n + c) * M (j + n) * ((/ 2) ^ S n / (INR (S n) * INR (fact n)))) with
      ((INR j + INR n + c) / (2 * INR (S n)) * (M (j + n) * ((/ 2) ^ n / INR (fact n)))) by (simpl pow; field; lra).
    apply Rmult_le_compat_r.
    - apply Rmult_le_pos; [apply M_nonneg|]. apply Rmult_le_pos; [apply pow_le; lra|left; apply Rinv_0_lt_compat, F].
    - apply (Rmult_le_reg_r (2 * INR (S n))); [lra|]. unfold Rdiv at 1. rewrite Rmult_assoc, Rinv_l by lra. rewrite S_INR. lra. }
  assert (B : forall i, u (S n0 + i)%nat <= (3 / 4) ^ i * u (S n0)).
  { induction i; [rewrite Nat.add_0_r; simpl; lra|]. rewrite Nat.add_succ_r. eapply Rle_trans; [apply St; lia|]. simpl pow. nra. }
  assert (U0 : 0 <= u (S n0)).
  { unfold u. apply Rmult_le_pos; [apply M_nonneg|]. apply Rmult_le_pos; [apply pow_le; lra|left; apply Rinv_0_lt_compat, INR_fact_lt_0]. }
  destruct (pow_lt_1_zero (3 / 4) ltac:(rewrite Rabs_pos_eq; lra) (eps / (u (S n0) + 1)) ltac:(apply Rdiv_lt_0_compat; lra)) as [i Hi].
  exists (S n0 + i)%nat. eapply Rle_trans; [apply (B i)|]. specialize (Hi i ltac:(lia)). apply Rabs_def2 in Hi. destruct Hi as [Hi _].
  apply Rle_trans with (eps / (u (S n0) + 1) * u (S n0)); [apply Rmult_le_compat_r; lra|].
  apply Rle_trans with (eps / (u (S n0) + 1) * (u (S n0) + 1)); [|right; field; lra].
  apply Rmult_le_compat_l; [left; apply Rdiv_lt_0_compat; lra|lra].
Qed.

Hypothesis J_exp : forall j n, exists v, J (fun x => y x ^ j * exp (- (y x / 2)) ^ n) v.

Lemma conv_exp : forall n j, convs (fun x => y x ^ j * exp (- (y x / 2)) ^ n).
Proof.
  induction n; intros j.
  - apply (convs_eq (fun x => y x ^ j)); [intros; simpl; ring|]. exists (M j). apply M_conv.
  - destruct (J_exp j (S n)) as [v Hv]. exists v. apply conv_limit; [exact Hv|]. intros eps He.
    destruct (small j eps He) as [m Hm].
    exists (fun x => rsum m (fun i => ((- / 2) ^ i / INR (fact i)) * (y x ^ (j + i) * exp (- (y x / 2)) ^ n))).
    exists (fun x => (/ 2) ^ m / INR (fact m) * y x ^ (j + m) + 0 * y x ^ 0), ((/ 2) ^ m / INR (fact m) * M (j + m) + 0 * M 0). split; [|split; [|split]].
    + apply convs_sum; [apply conv_zero|]. intros i _. apply IHn.
    + apply conv_lin; apply M_conv.
    + lra.
    + intros x Hx. assert (Y := y_pos x Hx). set (q := exp (- (y x / 2))). assert (q1 : 0 < q <= 1).
      { split; [apply exp_pos|]. unfold q. rewrite <- exp_0. apply Raux.exp_le. lra. }
      replace (rsum m (fun i => (- / 2) ^ i / INR (fact i) * (y x ^ (j + i) * q ^ n))) with (y x ^ j * q ^ n * texp m (y x / 2)).
      2:{ unfold texp. rewrite <- rsum_scal. apply rsum_ext. intros i _. unfold Rdiv. rewrite pow_add.
          replace (- (y x * / 2)) with (y x * - / 2) by ring. rewrite Rpow_mult_distr. ring. }
      replace (y x ^ j * q ^ S n - y x ^ j * q ^ n * texp m (y x / 2)) with (y x ^ j * q ^ n * (q - texp m (y x / 2))) by (simpl; ring).
      assert (Yj : 0 <= y x ^ j) by (apply pow_le, Y).
      assert (qn : 0 <= q ^ n <= 1). { split; [apply pow_le; lra|]. rewrite <- (pow1 n). apply pow_incr. lra. }
      rewrite Rabs_mult, (Rabs_pos_eq (y x ^ j * q ^ n)) by (apply Rmult_le_pos; lra).
      assert (T := texp_bound m (y x / 2) ltac:(lra)). fold q in T.
      apply Rle_trans with (y x ^ j * 1 * ((y x / 2) ^ m / INR (fact m))).
      * apply Rmult_le_compat; [apply Rmult_le_pos; lra|apply Rabs_pos| |exact T]. apply Rmult_le_compat_l; lra.
      * right. unfold Rdiv. rewrite Rpow_mult_distr, pow_add. ring.
Qed.
Lemma conv_poly : forall j d p, polynomial d p -> convs (fun x => (1 + y x ^ j) * p (exp (- (y x / 2)))).
Proof.
  intros j d p [a Ha].
  apply (convs_eq (fun x => rsum (S d) (fun i => a i * (1 * (y x ^ 0 * exp (- (y x / 2)) ^ i) + 1 * (y x ^ j * exp (- (y x / 2)) ^ i))))).
  - intros x. rewrite Ha, <- rsum_scal. apply rsum_ext. intros i _. simpl. ring.
  - apply convs_sum; [apply conv_zero|]. intros i _. apply convs_lin; apply conv_exp.
Qed.

(** ** continuous functions of y with polynomial growth *)
Variables (F : R -> R) (C : R) (d : nat).
Hypothesis F_cont : forall t, 0 <= t -> forall eps, 0 < eps -> exists delta, 0 < delta /\ forall s, 0 <= s -> Rabs (s - t) < delta -> Rabs (F s - F t) < eps.
Hypothesis F_grow : forall t, 0 <= t -> Rabs (F t) <= C * (1 + t ^ d).
Let g (t : R) : R := F t / (1 + t ^ S d).
Definition phi (z : R) : R := if Rle_dec z 0 then 0 else g (- (2 * ln z)).

Lemma den_pos : forall t n, 0 <= t -> 0 < 1 + t ^ n.
Proof. intros t n Ht. assert (P := pow_le t n Ht). lra. Qed.
Lemma C_nonneg : 0 <= C.
Proof. assert (H := F_grow 0 ltac:(lra)). assert (A := Rabs_pos (F 0)). assert (P := den_pos 0 d ltac:(lra)). nra. Qed.
Lemma g_decay : forall t, 1 <= t -> Rabs (g t) <= 2 * C / t.
Proof.
  intros t Ht. unfold g, Rdiv. assert (P := den_pos t (S d) ltac:(lra)). rewrite Rabs_mult, (Rabs_pos_eq (/ (1 + t ^ S d))) by (left; apply Rinv_0_lt_compat, P).
  assert (T : 1 <= t ^ d) by (apply pow_R1_Rle, Ht). assert (B := F_grow t ltac:(lra)). assert (C0 := C_nonneg).
  apply (Rmult_le_reg_r (1 + t ^ S d)); [exact P|]. rewrite Rmult_assoc, Rinv_l, Rmult_1_r by lra.
  apply (Rmult_le_reg_r t); [lra|]. replace (2 * C * / t * (1 + t ^ S d) * t) with (2 * C * (1 + t ^ S d)) by (field; lra).
  apply Rle_trans with (C * (1 + t ^ d) * t); [apply Rmult_le_compat_r; lra|]. simpl pow.
  replace (C * (1 + t ^ d) * t) with (C * ((1 + t ^ d) * t)) by ring. replace (2 * C * (1 + t * t ^ d)) with (C * (2 * (1 + t * t ^ d))) by ring.
  apply Rmult_le_compat_l; [exact C0|]. nra.
Qed.
Lemma g_cont : forall t, 0 <= t -> forall eps, 0 < eps -> exists delta, 0 < delta /\ forall s, 0 <= s -> Rabs (s - t) < delta -> Rabs (g s - g t) < eps.
Proof.
  intros t Ht eps He. assert (P := den_pos t (S d) Ht). set (k := fun s => / (1 + s ^ S d)).
  assert (Kc : continuity_pt k t).
  { apply continuity_pt_filterlim. apply (ex_derive_continuous (V := R_NormedModule)). unfold k. auto_derive. apply Rgt_not_eq. apply P. }
  assert (K1 : forall s, 0 <= s -> 0 < k s <= 1).
  { intros s Hs. unfold k. assert (Ps := den_pos s (S d) Hs). split; [apply Rinv_0_lt_compat, Ps|]. rewrite <- Rinv_1. apply Rinv_le_contravar; [lra|].
    assert (A := pow_le s (S d) Hs). lra. }
  assert (A := Rabs_pos (F t)).
  destruct (Kc (eps / 2 / (Rabs (F t) + 1)) ltac:(apply Rdiv_lt_0_compat; lra)) as (d1 & Hd1 & H1).
  destruct (F_cont t Ht (eps / 2) ltac:(lra)) as (d2 & Hd2 & H2).
  exists (Rmin d1 d2). split; [apply Rmin_pos; lra|]. intros s Hs L.
  assert (L1 : Rabs (s - t) < d1) by (eapply Rlt_le_trans; [exact L|apply Rmin_l]).
  assert (L2 : Rabs (s - t) < d2) by (eapply Rlt_le_trans; [exact L|apply Rmin_r]).
  assert (X := H2 s Hs L2).
  assert (Y : Rabs (k s - k t) <= eps / 2 / (Rabs (F t) + 1)).
  { destruct (Req_dec t s) as [<-|N]. { rewrite Rminus_diag_eq, Rabs_R0 by reflexivity. left. apply Rdiv_lt_0_compat; lra. }
    left. apply (H1 s). split; [split; [exact I|exact N]|exact L1]. }
  unfold g, Rdiv. change (/ (1 + s ^ S d)) with (k s). change (/ (1 + t ^ S d)) with (k t).
  replace (F s * k s - F t * k t) with ((F s - F t) * k s + F t * (k s - k t)) by ring.
  eapply Rle_lt_trans; [apply Rabs_triang|]. rewrite !Rabs_mult. destruct (K1 s Hs) as [K1a K1b]. rewrite (Rabs_pos_eq (k s)) by lra.
  assert (Z : Rabs (F t) * Rabs (k s - k t) <= eps / 2).
  { apply Rle_trans with (Rabs (F t) * (eps / 2 / (Rabs (F t) + 1))); [apply Rmult_le_compat_l; lra|].
    apply Rle_trans with ((Rabs (F t) + 1) * (eps / 2 / (Rabs (F t) + 1))); [|right; field; lra].
    apply Rmult_le_compat_r; [left; apply Rdiv_lt_0_compat; lra|lra]. }
  assert (V : Rabs (F s - F t) * k s <= Rabs (F s - F t)) by (assert (W := Rabs_pos (F s - F t)); nra). lra.
Qed.
Lemma phi_cont : continuous_on 0 1 phi.
Proof.
  intros z Hz eps He. unfold closed_between in *. rewrite Rmin_left, Rmax_right in * by lra.
  assert (lnN : forall z, 0 < z <= 1 -> 0 <= - (2 * ln z)).
  { intros x [X1 X2]. assert (ln x <= ln 1) by (destruct X2 as [X2| ->]; [left; apply ln_increasing; lra|lra]). rewrite ln_1 in H. lra. }
  unfold phi at 2. destruct (Rle_dec z 0) as [Z0|Z0].
  - assert (z = 0) by lra. subst z. assert (C0 := C_nonneg).
    set (T := Rmax 1 (2 * C / eps + 1)). assert (T1 : 1 <= T) by apply Rmax_l. assert (T2 : 2 * C / eps + 1 <= T) by apply Rmax_r.
    exists (exp (- (T / 2))). split; [apply exp_pos|]. intros x Hx L. rewrite Rminus_0_r in *. unfold phi. destruct (Rle_dec x 0) as [X0|X0]; [rewrite Rabs_R0; exact He|].
    rewrite Rabs_pos_eq in L by lra. assert (B : T < - (2 * ln x)).
    { apply ln_increasing in L; [|lra]. rewrite ln_exp in L. lra. }
    eapply Rle_lt_trans; [apply g_decay; lra|]. apply (Rmult_lt_reg_r (- (2 * ln x))); [lra|]. unfold Rdiv. rewrite Rmult_assoc, Rinv_l by lra.
    apply Rle_lt_trans with (eps * (2 * C / eps)); [right; field; lra|]. apply Rmult_lt_compat_l; lra.
  - destruct (g_cont (- (2 * ln z)) (lnN z ltac:(lra)) eps He) as (d1 & Hd1 & H1).
    assert (Lc : continuity_pt ln z). { apply continuity_pt_filterlim. apply (ex_derive_continuous (V := R_NormedModule)). auto_derive. lra. }
    destruct (Lc (d1 / 2) ltac:(lra)) as (d2 & Hd2 & H2).
    exists (Rmin d2 z). split; [apply Rmin_pos; lra|]. intros x Hx L.
    assert (L1 : Rabs (x - z) < d2) by (eapply Rlt_le_trans; [exact L|apply Rmin_l]).
    assert (L2 : Rabs (x - z) < z) by (eapply Rlt_le_trans; [exact L|apply Rmin_r]). apply Rabs_def2 in L2.
    unfold phi. destruct (Rle_dec x 0); [lra|]. apply H1; [apply lnN; lra|].
    replace (- (2 * ln x) - - (2 * ln z)) with (- (2 * (ln x - ln z))) by ring. rewrite Rabs_Ropp, Rabs_mult, (Rabs_pos_eq 2) by lra.
    destruct (Req_dec z x) as [<-|N]; [rewrite Rminus_diag_eq, Rabs_R0 by reflexivity; lra|].
    assert (X := H2 x (conj (conj I N) L1)). simpl in X. unfold R_dist in X. lra.
Qed.
Lemma phi_approx : forall eps, 0 < eps -> exists n p, polynomial n p /\ forall z, 0 <= z <= 1 -> Rabs (phi z - p z) <= eps.
Proof.
  intros eps He. destruct (modulus_limit 0 1 phi 1 eps ltac:(lra) ltac:(lra) phi_cont He) as (de & om & N & Hde & Ho & HN & B).
  set (m := Z.to_nat N). specialize (B m ltac:(unfold m; lia)).
  destruct (interval_bernstein 0 1 phi de om (2 * m - 1) ltac:(lra) ltac:(unfold m; lia) Hde Ho) as (p & Hp & A).
  exists (2 * m - 1)%nat, (fun z => p (2 * z + -1)). split; [apply (poly_affine (2 * m - 1) p 2 (-1)), Hp|].
  intros z Hz. specialize (A (2 * z + -1) ltac:(lra)). unfold pulled in A. replace ((1 - 0) / 2 * (2 * z + -1) + (0 + 1) / 2) with z in A by field.
  lra.
Qed.
Lemma conv_cont : forall v, J (fun x => F (y x)) v -> conv (fun x => F (y x)) v.
Proof.
  intros v Hv. apply conv_limit; [exact Hv|]. intros eps He.
  assert (M0 := M_nonneg 0). assert (M1 := M_nonneg (S d)).
  set (e := eps / (M 0 + M (S d) + 1)). assert (E0 : 0 < e) by (apply Rdiv_lt_0_compat; lra).
  destruct (phi_approx e E0) as (n & p & Hp & A).
  exists (fun x => (1 + y x ^ S d) * p (exp (- (y x / 2)))), (fun x => e * y x ^ 0 + e * y x ^ S d), (e * M 0 + e * M (S d)). split; [|split; [|split]].
  - apply (conv_poly (S d) n), Hp.
  - apply conv_lin; apply M_conv.
  - apply Rle_trans with (e * (M 0 + M (S d) + 1)); [lra|]. unfold e. right. field. lra.
  - intros x Hx. assert (Y := y_pos x Hx). assert (P := den_pos (y x) (S d) Y). set (q := exp (- (y x / 2))). assert (q1 : 0 < q <= 1).
    { split; [apply exp_pos|]. unfold q. rewrite <- exp_0. apply Raux.exp_le. lra. }
    specialize (A q ltac:(lra)). assert (Eg : phi q = g (y x)).
    { unfold phi. destruct (Rle_dec q 0); [lra|]. unfold q. rewrite ln_exp. f_equal. field. }
    rewrite Eg in A. replace (F (y x)) with ((1 + y x ^ S d) * g (y x)) by (unfold g; field; lra).
    rewrite <- Rmult_minus_distr_l, Rabs_mult, Rabs_pos_eq by lra.
    replace (e * y x ^ 0 + e * y x ^ S d) with ((1 + y x ^ S d) * e) by (simpl; ring). apply Rmult_le_compat_l; lra.
Qed.
End Conv.
