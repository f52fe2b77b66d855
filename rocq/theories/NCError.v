(** Newton-Cotes rules in exact arithmetic: error bounds and convergence. *)
From Coq Require Import Reals ZArith Lra Lia List.
From Coquelicot Require Import Coquelicot.
From Verif Require Import RSum NCSpec NCReal NCExact.
Local Open Scope R_scope.

(** ** A ladder of derivative bounds *)
Lemma mono_bound : forall (g g' : R -> R) T, 0 <= T ->
  (forall t, 0 < t < T -> is_derive g t (g' t)) ->
  (forall t, 0 <= t <= T -> continuity_pt g t) ->
  (forall t, 0 < t < T -> g' t <= 0) -> g T <= g 0.
Proof.
  intros g g' T HT Hd Hc Hn.
  (* MVT_gen only locates the point in the closed interval, so use 0 at the ends *)
  set (df := fun t => if Rlt_dec 0 t then if Rlt_dec t T then g' t else 0 else 0).
  destruct (MVT_gen g 0 T df) as (c & _ & E).
  - rewrite Rmin_left, Rmax_right by lra. intros x Hx. unfold df.
    destruct (Rlt_dec 0 x); [|lra]. destruct (Rlt_dec x T); [|lra]. apply Hd. exact Hx.
  - rewrite Rmin_left, Rmax_right by lra. exact Hc.
  - assert (df c <= 0).
    { unfold df. destruct (Rlt_dec 0 c); [|lra]. destruct (Rlt_dec c T); [|lra]. apply Hn. lra. }
    nra.
Qed.

Lemma ladder : forall (g g' : R -> R) (c : R) (k : nat) T, 0 <= T ->
  (forall t, 0 < t < T -> is_derive g t (g' t)) ->
  (forall t, 0 <= t <= T -> continuity_pt g t) ->
  g 0 = 0 ->
  (forall t, 0 < t < T -> Rabs (g' t) <= c * t ^ k) ->
  Rabs (g T) <= c * T ^ (S k) / INR (S k).
Proof.
  intros g g' c k T HT Hd Hc H0 Hb.
  assert (K : INR (S k) <> 0) by (apply not_0_INR; lia).
  assert (P : forall t, is_derive (fun t => c * t ^ (S k) / INR (S k)) t (c * t ^ k)).
  { intros t. auto_derive; [exact I|]. field. exact K. }
  assert (PC : forall t, continuity_pt (fun t => c * t ^ (S k) / INR (S k)) t).
  { intros t. apply derivable_continuous_pt. exists (c * t ^ k). apply is_derive_Reals. apply P. }
  assert (Z : c * 0 ^ S k / INR (S k) = 0) by (rewrite pow_ne_zero by lia; field; exact K).
  apply Rabs_le. split.
  - pose proof (mono_bound (fun t => - g t - c * t ^ (S k) / INR (S k)) (fun t => - g' t - c * t ^ k) T HT) as M.
    cbv beta in M. rewrite H0, Z in M.
    enough (- g T - c * T ^ S k / INR (S k) <= -0 - 0) by lra. apply M.
    + intros t Ht. apply (is_derive_minus (fun t => - g t)); [|apply P].
      apply (is_derive_opp g). apply Hd. exact Ht.
    + intros t Ht. apply (continuity_pt_minus (fun t => - g t)); [|apply PC].
      apply (continuity_pt_opp g). apply Hc. exact Ht.
    + intros t Ht. specialize (Hb t Ht). apply Rabs_le_between in Hb. lra.
  - pose proof (mono_bound (fun t => g t - c * t ^ (S k) / INR (S k)) (fun t => g' t - c * t ^ k) T HT) as M.
    cbv beta in M. rewrite H0, Z in M.
    enough (g T - c * T ^ S k / INR (S k) <= 0 - 0) by lra. apply M.
    + intros t Ht. apply (is_derive_minus g); [|apply P]. apply Hd. exact Ht.
    + intros t Ht. apply (continuity_pt_minus g); [|apply PC]. apply Hc. exact Ht.
    + intros t Ht. specialize (Hb t Ht). apply Rabs_le_between in Hb. lra.
Qed.

Lemma is_derive_shift_p : forall (f : R -> R) m t l, is_derive f (m + t) l ->
  is_derive (fun t => f (m + t)) t l.
Proof.
  intros f m t l H. replace l with (scal 1 l) by (unfold scal; simpl; unfold mult; simpl; ring).
  apply (is_derive_comp f (fun t => m + t)); [exact H|].
  auto_derive; [exact I|ring].
Qed.
Lemma is_derive_shift_m : forall (f : R -> R) m t l, is_derive f (m - t) l ->
  is_derive (fun t => f (m - t)) t (- l).
Proof.
  intros f m t l H. replace (- l) with (scal (-1) l) by (unfold scal; simpl; unfold mult; simpl; ring).
  apply (is_derive_comp f (fun t => m - t)); [exact H|].
  auto_derive; [exact I|ring].
Qed.

Lemma deriv_cont : forall (f : R -> R) x l, is_derive f x l -> continuity_pt f x.
Proof. intros f x l H. apply derivable_continuous_pt. exists l. apply is_derive_Reals. exact H. Qed.

(** ** One panel [m-r, m+r] *)
Section Panel.
Variables (f F : R -> R) (m r : R).
Hypothesis Hr : 0 <= r.
Hypothesis HF : forall x, is_derive F x (f x).
Hypothesis Hc : forall x, continuity_pt f x.

Lemma cp : forall t, continuity_pt (fun t => f (m + t)) t.
Proof.
  intros t. apply (continuity_pt_comp (fun t => m + t) f); [|apply Hc].
  apply deriv_cont with (l := 1). auto_derive; [exact I|ring].
Qed.
Lemma cm : forall t, continuity_pt (fun t => f (m - t)) t.
Proof.
  intros t. apply (continuity_pt_comp (fun t => m - t) f); [|apply Hc].
  apply deriv_cont with (l := -1). auto_derive; [exact I|ring].
Qed.

(* sum/difference rules for the symmetric combinations *)
Lemma sym_sum : forall (u u' : R -> R) t, is_derive u (m + t) (u' (m + t)) ->
  is_derive u (m - t) (u' (m - t)) ->
  is_derive (fun t => u (m + t) + u (m - t)) t (u' (m + t) - u' (m - t)).
Proof.
  intros u u' t H1 H2. apply (is_derive_plus (fun t => u (m + t)) (fun t => u (m - t))).
  - apply is_derive_shift_p; exact H1.
  - apply is_derive_shift_m; exact H2.
Qed.
Lemma sym_diff : forall (u u' : R -> R) t, is_derive u (m + t) (u' (m + t)) ->
  is_derive u (m - t) (u' (m - t)) ->
  is_derive (fun t => u (m + t) - u (m - t)) t (u' (m + t) + u' (m - t)).
Proof.
  intros u u' t H1 H2. replace (u' (m + t) + u' (m - t)) with (u' (m + t) - - u' (m - t)) by ring.
  apply (is_derive_minus (fun t => u (m + t)) (fun t => u (m - t))).
  - apply is_derive_shift_p; exact H1.
  - apply is_derive_shift_m; exact H2.
Qed.

(* an odd difference with bounded second factor grows at most linearly *)
Lemma odd_bound : forall (u u' : R -> R) M,
  (forall x, m - r < x < m + r -> is_derive u x (u' x)) ->
  (forall x, m - r < x < m + r -> Rabs (u' x) <= M) ->
  forall t, 0 < t < r -> Rabs (u (m + t) - u (m - t)) <= 2 * M * t.
Proof.
  intros u u' M Hd Hb t Ht.
  pose proof (ladder (fun t => u (m + t) - u (m - t)) (fun t => u' (m + t) + u' (m - t)) (2 * M) 0 t) as L.
  replace (2 * M * t) with (2 * M * t ^ 1 / INR 1) by (simpl; field). apply L; clear L.
  - lra.
  - intros s Hs. apply sym_diff; apply Hd; lra.
  - intros s Hs. eapply deriv_cont. apply (sym_diff u u'); apply Hd; lra.
  - rewrite Rplus_0_r, Rminus_0_r. ring.
  - intros s Hs. simpl. rewrite Rmult_1_r. apply Rle_trans with (1 := Rabs_triang _ _).
    pose proof (Hb (m + s) ltac:(lra)). pose proof (Hb (m - s) ltac:(lra)). lra.
Qed.

Section Order2.
Variables (f1 f2 : R -> R) (M : R).
Hypothesis H1 : forall x, m - r < x < m + r -> is_derive f x (f1 x).
Hypothesis H2 : forall x, m - r < x < m + r -> is_derive f1 x (f2 x).
Hypothesis HM : forall x, m - r < x < m + r -> Rabs (f2 x) <= M.

Lemma midpoint_panel : Rabs (F (m + r) - F (m - r) - 2 * r * f m) <= M * r ^ 3 / 3.
Proof.
  assert (B2 := odd_bound f1 f2 M H2 HM).
  assert (B1 : forall t, 0 < t < r -> Rabs (f (m + t) + f (m - t) - 2 * f m) <= M * t ^ 2).
  { intros t Ht.
    pose proof (ladder (fun t => f (m + t) + f (m - t) - 2 * f m) (fun t => f1 (m + t) - f1 (m - t)) (2 * M) 1 t) as L.
    replace (M * t ^ 2) with (2 * M * t ^ 2 / INR 2) by (simpl; field). apply L; clear L.
    - lra.
    - intros s Hs. replace (f1 (m + s) - f1 (m - s)) with (f1 (m + s) - f1 (m - s) - 0) by ring.
      apply (is_derive_minus (fun t => f (m + t) + f (m - t)) (fun _ => 2 * f m)).
      + apply sym_sum; apply H1; lra.
      + apply (is_derive_const (2 * f m)).
    - intros s Hs. apply (continuity_pt_minus (fun t => f (m + t) + f (m - t)) (fun _ => 2 * f m)).
      + apply (continuity_pt_plus (fun t => f (m + t)) (fun t => f (m - t))); [apply cp|apply cm].
      + apply continuity_pt_const. intros u v; reflexivity.
    - rewrite Rplus_0_r, Rminus_0_r. ring.
    - intros s Hs. simpl. rewrite Rmult_1_r. apply B2. lra. }
  pose proof (ladder (fun t => F (m + t) - F (m - t) - 2 * t * f m)
                     (fun t => f (m + t) + f (m - t) - 2 * f m) M 2 r) as L.
  replace (M * r ^ 3 / 3) with (M * r ^ 3 / INR 3) by (simpl; field).
  assert (D : forall t, is_derive (fun t => F (m + t) - F (m - t) - 2 * t * f m) t
                           (f (m + t) + f (m - t) - 2 * f m)).
  { intros t. apply (is_derive_minus (fun t => F (m + t) - F (m - t)) (fun t => 2 * t * f m)).
    - apply sym_diff; apply HF.
    - auto_derive; [exact I|ring]. }
  apply L.
  - exact Hr.
  - intros t _. apply D.
  - intros t _. eapply deriv_cont. apply D.
  - rewrite Rplus_0_r, Rminus_0_r. ring.
  - exact B1.
Qed.

Lemma trapezoid_panel : Rabs (F (m + r) - F (m - r) - r * (f (m + r) + f (m - r))) <= 2 * M * r ^ 3 / 3.
Proof.
  assert (B2 := odd_bound f1 f2 M H2 HM).
  pose proof (ladder (fun t => F (m + t) - F (m - t) - t * (f (m + t) + f (m - t)))
                     (fun t => - t * (f1 (m + t) - f1 (m - t))) (2 * M) 2 r) as L.
  replace (2 * M * r ^ 3 / 3) with (2 * M * r ^ 3 / INR 3) by (simpl; field).
  apply L; clear L.
  - exact Hr.
  - intros t Ht.
    replace (- t * (f1 (m + t) - f1 (m - t))) with
      (f (m + t) + f (m - t) - (1 * (f (m + t) + f (m - t)) + t * (f1 (m + t) - f1 (m - t)))) by ring.
    apply (is_derive_minus (fun t => F (m + t) - F (m - t)) (fun t => t * (f (m + t) + f (m - t)))).
    + apply sym_diff; apply HF.
    + apply (is_derive_mult (fun t => t) (fun t => f (m + t) + f (m - t))).
      * apply (is_derive_id t).
      * apply sym_sum; apply H1; lra.
      * intros; apply Rmult_comm.
  - intros t _. apply (continuity_pt_minus (fun t => F (m + t) - F (m - t)) (fun t => t * (f (m + t) + f (m - t)))).
    + eapply deriv_cont. apply (sym_diff F f); apply HF.
    + apply (continuity_pt_mult (fun t => t) (fun t => f (m + t) + f (m - t))).
      * apply derivable_continuous_pt, derivable_pt_id.
      * apply (continuity_pt_plus (fun t => f (m + t)) (fun t => f (m - t))); [apply cp|apply cm].
  - rewrite Rplus_0_r, Rminus_0_r. ring.
  - intros t Ht. rewrite Rabs_mult, Rabs_Ropp, (Rabs_pos_eq t) by lra.
    replace (2 * M * t ^ 2) with (t * (2 * M * t)) by ring.
    apply Rmult_le_compat_l; [lra|]. apply B2. exact Ht.
Qed.
End Order2.

Section Order4.
Variables (f1 f2 f3 f4 : R -> R) (M : R).
Hypothesis H1 : forall x, m - r < x < m + r -> is_derive f x (f1 x).
Hypothesis H2 : forall x, m - r < x < m + r -> is_derive f1 x (f2 x).
Hypothesis H3 : forall x, m - r < x < m + r -> is_derive f2 x (f3 x).
Hypothesis H4 : forall x, m - r < x < m + r -> is_derive f3 x (f4 x).
Hypothesis HM : forall x, m - r < x < m + r -> Rabs (f4 x) <= M.

Lemma simpson_panel :
  Rabs (F (m + r) - F (m - r) - r / 3 * (f (m + r) + 4 * f m + f (m - r))) <= M * r ^ 5 / 90.
Proof.
  assert (B3 := odd_bound f3 f4 M H4 HM).
  set (E2 := fun t => / 3 * (f1 (m + t) - f1 (m - t)) - t / 3 * (f2 (m + t) + f2 (m - t))).
  set (E1 := fun t => 2 / 3 * (f (m + t) + f (m - t)) - 4 / 3 * f m - t / 3 * (f1 (m + t) - f1 (m - t))).
  set (E0 := fun t => F (m + t) - F (m - t) - t / 3 * (f (m + t) + f (m - t) + 4 * f m)).
  assert (D2 : forall t, 0 <= t < r -> is_derive E2 t (- t / 3 * (f3 (m + t) - f3 (m - t)))).
  { intros t Ht. unfold E2.
    replace (- t / 3 * (f3 (m + t) - f3 (m - t))) with
      (/ 3 * (f2 (m + t) + f2 (m - t)) -
       (/ 3 * (f2 (m + t) + f2 (m - t)) + t / 3 * (f3 (m + t) - f3 (m - t)))) by field.
    apply (is_derive_minus (fun t => / 3 * (f1 (m + t) - f1 (m - t))) (fun t => t / 3 * (f2 (m + t) + f2 (m - t)))).
    - apply (is_derive_scal (fun t => f1 (m + t) - f1 (m - t))). apply sym_diff; apply H2; lra.
    - apply (is_derive_mult (fun t => t / 3) (fun t => f2 (m + t) + f2 (m - t))).
      + auto_derive; [exact I|field].
      + apply sym_sum; apply H3; lra.
      + intros; apply Rmult_comm. }
  assert (D1 : forall t, 0 <= t < r -> is_derive E1 t (E2 t)).
  { intros t Ht. unfold E1.
    replace (E2 t) with
      (2 / 3 * (f1 (m + t) - f1 (m - t)) - 0 -
       (/ 3 * (f1 (m + t) - f1 (m - t)) + t / 3 * (f2 (m + t) + f2 (m - t)))) by (unfold E2; field).
    apply (is_derive_minus (fun t => 2 / 3 * (f (m + t) + f (m - t)) - 4 / 3 * f m)
             (fun t => t / 3 * (f1 (m + t) - f1 (m - t)))).
    - apply (is_derive_minus (fun t => 2 / 3 * (f (m + t) + f (m - t))) (fun _ => 4 / 3 * f m)).
      + apply (is_derive_scal (fun t => f (m + t) + f (m - t))). apply sym_sum; apply H1; lra.
      + apply (is_derive_const (4 / 3 * f m)).
    - apply (is_derive_mult (fun t => t / 3) (fun t => f1 (m + t) - f1 (m - t))).
      + auto_derive; [exact I|field].
      + apply sym_diff; apply H2; lra.
      + intros; apply Rmult_comm. }
  assert (D0 : forall t, 0 <= t < r -> is_derive E0 t (E1 t)).
  { intros t Ht. unfold E0.
    replace (E1 t) with
      (f (m + t) + f (m - t) -
       (/ 3 * (f (m + t) + f (m - t) + 4 * f m) + t / 3 * (f1 (m + t) - f1 (m - t) + 0)))
      by (unfold E1; field).
    apply (is_derive_minus (fun t => F (m + t) - F (m - t)) (fun t => t / 3 * (f (m + t) + f (m - t) + 4 * f m))).
    - apply sym_diff; apply HF.
    - apply (is_derive_mult (fun t => t / 3) (fun t => f (m + t) + f (m - t) + 4 * f m)).
      + auto_derive; [exact I|field].
      + apply (is_derive_plus (fun t => f (m + t) + f (m - t)) (fun _ => 4 * f m)).
        * apply sym_sum; apply H1; lra.
        * apply (is_derive_const (4 * f m)).
      + intros; apply Rmult_comm. }
  assert (B2 : forall t, 0 < t < r -> Rabs (E2 t) <= 2 * M / 9 * t ^ 3).
  { intros t Ht. replace (2 * M / 9 * t ^ 3) with (2 * M / 3 * t ^ 3 / INR 3) by (simpl; field).
    apply (ladder E2 (fun t => - t / 3 * (f3 (m + t) - f3 (m - t)))).
    - lra.
    - intros s Hs. apply D2. lra.
    - intros s Hs. eapply deriv_cont. apply D2. lra.
    - unfold E2. rewrite Rplus_0_r, Rminus_0_r. field.
    - intros s Hs. rewrite Rabs_mult. replace (- s / 3) with (- (s / 3)) by field.
      rewrite Rabs_Ropp, (Rabs_pos_eq (s / 3)) by lra.
      replace (2 * M / 3 * s ^ 2) with (s / 3 * (2 * M * s)) by field.
      apply Rmult_le_compat_l; [lra|]. apply B3. lra. }
  assert (B1 : forall t, 0 < t < r -> Rabs (E1 t) <= M / 18 * t ^ 4).
  { intros t Ht. replace (M / 18 * t ^ 4) with (2 * M / 9 * t ^ 4 / INR 4) by (simpl; field).
    apply (ladder E1 E2).
    - lra.
    - intros s Hs. apply D1. lra.
    - intros s Hs. eapply deriv_cont. apply D1. lra.
    - unfold E1. rewrite Rplus_0_r, Rminus_0_r. field.
    - intros s Hs. apply B2. lra. }
  replace (F (m + r) - F (m - r) - r / 3 * (f (m + r) + 4 * f m + f (m - r))) with (E0 r) by (unfold E0; field).
  replace (M * r ^ 5 / 90) with (M / 18 * r ^ 5 / INR 5) by (simpl; field).
  apply (ladder E0 E1).
  - exact Hr.
  - intros s Hs. apply D0. lra.
  - intros t _. unfold E0.
    apply (continuity_pt_minus (fun t => F (m + t) - F (m - t)) (fun t => t / 3 * (f (m + t) + f (m - t) + 4 * f m))).
    + eapply deriv_cont. apply (sym_diff F f); apply HF.
    + apply (continuity_pt_mult (fun t => t / 3) (fun t => f (m + t) + f (m - t) + 4 * f m)).
      * apply deriv_cont with (l := / 3). auto_derive; [exact I|field].
      * apply (continuity_pt_plus (fun t => f (m + t) + f (m - t)) (fun _ => 4 * f m)).
        -- apply (continuity_pt_plus (fun t => f (m + t)) (fun t => f (m - t))); [apply cp|apply cm].
        -- apply continuity_pt_const. intros u v; reflexivity.
  - unfold E0. rewrite Rplus_0_r, Rminus_0_r. field.
  - intros s Hs. apply B1. lra.
Qed.
End Order4.
End Panel.
