(** Hermite interpolation and its error, by Rolle's theorem. *)
From Coq Require Import Reals Lra Lia List Arith Sorted Permutation.
From Coquelicot Require Import Coquelicot.
From Verif Require Import RSum PolySpec PolyProof Improper Gaussian Spectral ErrorSpec.
Import ListNotations.
Local Open Scope R_scope.

(** ** zeros of the derivative *)
Lemma insert_sorted : forall x l, StronglySorted Rlt l -> ~ In x l -> exists l', StronglySorted Rlt l' /\ Permutation (x :: l) l'.
Proof.
  intros x l. induction l as [|y l IH]; intros Hs Hn.
  - exists [x]. split; [repeat constructor|apply Permutation_refl].
  - inversion Hs as [|y' l' S F]; subst. destruct (Rlt_dec x y) as [L|N].
    + exists (x :: y :: l). split; [|apply Permutation_refl]. constructor; [exact Hs|]. constructor; [exact L|].
      apply (Forall_impl _ (P := fun z => y < z)); [intros z Hz; lra|exact F].
    + destruct IH as (l' & S' & P'); [exact S|intros I; apply Hn; right; exact I|].
      exists (y :: l'). split.
      * constructor; [exact S'|]. apply (Permutation_Forall P'). constructor; [|exact F].
        assert (x <> y) by (intros ->; apply Hn; left; reflexivity). lra.
      * eapply perm_trans; [apply perm_swap|apply perm_skip, P'].
Qed.
Lemma sort_exists : forall l, NoDup l -> exists l', StronglySorted Rlt l' /\ Permutation l l'.
Proof.
  induction l as [|x l IH]; intros H; [exists []; split; [constructor|apply Permutation_refl]|].
  inversion H as [|x' l' N D]; subst. destruct (IH D) as (m & S & P).
  destruct (insert_sorted x m S) as (k & Sk & Pk); [intros I; apply N; apply (Permutation_in x (Permutation_sym P)), I|].
  exists k. split; [exact Sk|]. eapply perm_trans; [apply perm_skip, P|exact Pk].
Qed.
Lemma sorted_nodup : forall l, StronglySorted Rlt l -> NoDup l.
Proof.
  induction l as [|x l IH]; intros H; [constructor|]. inversion H as [|x' l' S F]; subst. constructor; [|apply IH, S].
  intros I. rewrite Forall_forall in F. assert (x < x) by (apply F, I). lra.
Qed.

Section Rolle.
Variables (D : R -> Prop).
Hypothesis conv : forall u v x, D u -> D v -> u <= x <= v -> D x.
Variables (g g1 : R -> R).
Hypothesis der : forall x, D x -> is_derive g x (g1 x).

Lemma rolle_one : forall u v, D u -> D v -> u < v -> g u = 0 -> g v = 0 -> exists z, u < z < v /\ g1 z = 0.
Proof.
  intros u v Du Dv L Zu Zv.
  destruct (MVT_cor2 g g1 u v L) as (z & E & Hz).
  - intros c Hc. apply is_derive_Reals. apply der. apply (conv u v); assumption.
  - exists z. split; [exact Hz|]. rewrite Zu, Zv in E. assert (g1 z * (v - u) = 0) by lra.
    apply Rmult_integral in H. destruct H; lra.
Qed.
Lemma rolle_sorted : forall l a, StronglySorted Rlt (a :: l) -> List.Forall (fun x => D x /\ g x = 0) (a :: l) ->
  exists m, length m = length l /\ StronglySorted Rlt m /\ List.Forall (fun x => a < x /\ D x /\ g1 x = 0 /\ ~ In x (a :: l)) m.
Proof.
  induction l as [|b l IH]; intros a Hs HF.
  - exists []. repeat split; constructor.
  - inversion Hs as [|a' l' S F]; subst. inversion HF as [|a' l' [Da Za] HF']; subst.
    destruct (IH b S HF') as (m & Lm & Sm & Fm). inversion HF' as [|b' l' [Db Zb] HF'']; subst.
    inversion F as [|b' l' Lab F']; subst.
    destruct (rolle_one a b Da Db Lab Za Zb) as (z & Hz & Ez).
    exists (z :: m). split; [simpl; f_equal; exact Lm|]. split; [|].
    + constructor; [exact Sm|]. rewrite Forall_forall in Fm |- *. intros y Hy. destruct (Fm y Hy) as (H & _). lra.
    + constructor.
      * split; [lra|]. split; [apply (conv a b); auto; lra|]. split; [exact Ez|].
        inversion S as [|b' l' Sl Fl]; subst. rewrite Forall_forall in Fl.
        intros [I|[I|I]]; [lra|lra|]. assert (b < z) by (apply Fl, I). lra.
      * rewrite Forall_forall in Fm |- *. intros y Hy. destruct (Fm y Hy) as (H1 & H2 & H3 & H4).
        split; [lra|]. split; [exact H2|]. split; [exact H3|]. intros [I|I]; [lra|]. apply H4, I.
Qed.
Lemma rolle_list : forall l k, NoDup l -> length l = S k -> List.Forall (fun x => D x /\ g x = 0) l ->
  exists m, length m = k /\ NoDup m /\ List.Forall (fun x => D x /\ g1 x = 0 /\ ~ In x l) m.
Proof.
  intros l k N Lk F. destruct (sort_exists l N) as (s & Ss & P).
  assert (Ls := Permutation_length P). destruct s as [|a s]; [simpl in Ls; lia|].
  destruct (rolle_sorted s a Ss (Permutation_Forall P F)) as (m & Lm & Sm & Fm).
  exists m. split; [simpl in Ls; lia|]. split; [apply sorted_nodup, Sm|].
  rewrite Forall_forall in Fm |- *. intros y Hy. destruct (Fm y Hy) as (_ & H2 & H3 & H4).
  split; [exact H2|]. split; [exact H3|]. intros I. apply H4, (Permutation_in y P), I.
Qed.
End Rolle.

(** a function with m+1 zeros: the m-th derivative has a zero *)
Lemma rolle_many : forall (D : R -> Prop), (forall u v x, D u -> D v -> u <= x <= v -> D x) ->
  forall m G l, has_derivatives D m G -> NoDup l -> length l = S m -> List.Forall (fun x => D x /\ G O x = 0) l ->
  exists z, D z /\ G m z = 0.
Proof.
  intros D conv m. induction m; intros G l HG N Ll F.
  - destruct l as [|a l]; [discriminate|]. inversion F; subst. exists a. assumption.
  - destruct (rolle_list D conv (G O) (G 1%nat) (fun x Hx => HG O x ltac:(lia) Hx) l (S m) N Ll F) as (k & Lk & Nk & Fk).
    apply (IHm (fun i => G (S i)) k).
    + intros i x Hi Hx. apply HG; [lia|exact Hx].
    + exact Nk.
    + exact Lk.
    + apply (Forall_impl _ (P := fun x => D x /\ G 1%nat x = 0 /\ ~ In x l)); [tauto|exact Fk].
Qed.
(** zeros of the function and, at all but one of them, of the derivative *)
Lemma rolle_double : forall (D : R -> Prop), (forall u v x, D u -> D v -> u <= x <= v -> D x) ->
  forall G l t, has_derivatives D (2 * length l) G -> NoDup (t :: l) -> D t -> G O t = 0 -> (1 <= length l)%nat ->
  List.Forall (fun x => D x /\ G O x = 0 /\ G 1%nat x = 0) l -> exists z, D z /\ G (2 * length l)%nat z = 0.
Proof.
  intros D conv G l t HG N Dt Zt Hl F.
  destruct (rolle_list D conv (G O) (G 1%nat) (fun x Hx => HG O x ltac:(lia) Hx) (t :: l) (length l) N eq_refl) as (m & Lm & Nm & Fm).
  { constructor; [auto|]. apply (Forall_impl _ (P := fun x => D x /\ G O x = 0 /\ G 1%nat x = 0)); [tauto|exact F]. }
  destruct (rolle_many D conv (2 * length l - 1) (fun i => G (S i)) (l ++ m)) as (z & Dz & Ez).
  - intros i x Hi Hx. apply HG; [lia|exact Hx].
  - inversion N; subst. rewrite Forall_forall in Fm.
    assert (Gen : forall l1, (forall x, In x l1 -> In x l) -> NoDup l1 -> NoDup (l1 ++ m)).
    { induction l1 as [|y l1 IH]; intros Hin N1; [exact Nm|]. inversion N1; subst. simpl. constructor.
      - intros I. apply in_app_or in I. destruct I as [I|I]; [contradiction|]. destruct (Fm y I) as (_ & _ & Q). apply Q. right. apply Hin. left. reflexivity.
      - apply IH; [intros x Hx; apply Hin; right; exact Hx|assumption]. }
    apply Gen; [auto|assumption].
  - rewrite app_length. lia.
  - apply Forall_app. split; [apply (Forall_impl _ (P := fun x => D x /\ G O x = 0 /\ G 1%nat x = 0)); [tauto|exact F]|].
    apply (Forall_impl _ (P := fun x => D x /\ G 1%nat x = 0 /\ ~ In x (t :: l))); [tauto|exact Fm].
  - exists z. split; [exact Dz|]. replace (2 * length l)%nat with (S (2 * length l - 1)) by lia. exact Ez.
Qed.

(** ** derivatives of polynomials *)
Lemma poly_derive_pred : forall d f, polynomial d f -> exists f', polynomial (pred d) f' /\ forall x, is_derive f x (f' x).
Proof.
  induction d; intros f [c Hc].
  - exists (fun _ => 0). split; [apply poly_const|]. intros x. apply (is_derive_ext (fun _ => c O)).
    + intros t. rewrite Hc. simpl. ring.
    + apply (is_derive_const (V := R_NormedModule)).
  - destruct (IHd (fun x => rsum (S d) (fun i => c i * x ^ i))) as (h & Hh & Dh); [exists c; reflexivity|].
    exists (fun x => h x + c (S d) * INR (S d) * x ^ d). split.
    + apply poly_add; [apply (poly_weaken (pred d)); [simpl; lia|exact Hh]|]. apply poly_scal, poly_pow.
    + intros x. apply (is_derive_ext (fun x => rsum (S d) (fun i => c i * x ^ i) + c (S d) * x ^ S d)).
      { intros t. rewrite Hc. rewrite (rsum_S (S d)). reflexivity. }
      apply (is_derive_plus (K := R_AbsRing) (V := R_NormedModule)); [apply Dh|].
      apply (is_derive_val _ _ (c (S d) * (INR (S d) * 1 * x ^ pred (S d)))); [simpl pred; ring|].
      apply (is_derive_scal (fun y => y ^ S d)). apply (is_derive_pow (fun y => y) (S d) x 1). apply (is_derive_id (K := R_AbsRing)).
Qed.
Lemma poly_derivatives : forall d f, polynomial d f -> exists P : nat -> R -> R, (forall x, P O x = f x) /\
  (forall i x, is_derive (P i) x (P (S i) x)) /\ (forall i, polynomial (d - i) (P i)) /\ (forall i x, (d < i)%nat -> P i x = 0).
Proof.
  induction d; intros f Hf.
  - destruct Hf as [c Hc].
    exists (fun i => match i with O => f | S _ => fun _ => 0 end). split; [reflexivity|]. split; [|split].
    + intros [|i] x; [|apply (is_derive_const (V := R_NormedModule))]. apply (is_derive_ext (fun _ => c O)).
      * intros t. rewrite Hc. simpl. ring.
      * apply (is_derive_const (V := R_NormedModule)).
    + intros [|i]; [exists c; exact Hc|apply poly_const].
    + intros [|i] x Hi; [lia|reflexivity].
  - destruct (poly_derive_pred (S d) f Hf) as (f' & Hf' & Df). simpl in Hf'. destruct (IHd f' Hf') as (P & P0 & PD & PP & PZ).
    exists (fun i => match i with O => f | S j => P j end). split; [reflexivity|]. split; [|split].
    + intros [|i] x; [rewrite P0; apply Df|apply PD].
    + intros [|i]; [exact Hf|]. apply (PP i).
    + intros [|i] x Hi; [lia|apply PZ; lia].
Qed.

(** the N-th derivative of a monic polynomial of degree N is N! *)
Lemma pow_derivatives : forall n, exists P : nat -> R -> R, (forall x, P O x = x ^ n) /\ (forall i x, is_derive (P i) x (P (S i) x)) /\
  (forall x, P n x = INR (fact n)).
Proof.
  induction n.
  - exists (fun i => match i with O => fun _ => 1 | S _ => fun _ => 0 end). split; [reflexivity|]. split; [|reflexivity].
    intros [|i] x; apply (is_derive_const (V := R_NormedModule)).
  - destruct IHn as (P & P0 & PD & PN).
    exists (fun i => match i with O => fun x => x ^ S n | S j => fun x => INR (S n) * P j x end). split; [reflexivity|]. split.
    + intros [|i] x.
      * apply (is_derive_val _ _ (INR (S n) * 1 * x ^ pred (S n))); [rewrite P0; simpl pred; ring|].
        apply (is_derive_pow (fun y => y) (S n) x 1). apply (is_derive_id (K := R_AbsRing)).
      * apply (is_derive_scal (P i)). apply PD.
    + intros x. rewrite PN. change (fact (S n)) with (S n * fact n)%nat. rewrite mult_INR. reflexivity.
Qed.
Lemma monic_derivatives : forall n f, polynomial n (fun x => f x - x ^ S n) -> exists P : nat -> R -> R, (forall x, P O x = f x) /\
  (forall i x, is_derive (P i) x (P (S i) x)) /\ (forall x, P (S n) x = INR (fact (S n))).
Proof.
  intros n f Hf. destruct (poly_derivatives n _ Hf) as (P & P0 & PD & _ & PZ). destruct (pow_derivatives (S n)) as (Q & Q0 & QD & QN).
  exists (fun i x => P i x + Q i x). split; [|split].
  - intros x. rewrite P0, Q0. ring.
  - intros i x. apply (is_derive_plus (K := R_AbsRing) (V := R_NormedModule)); [apply PD|apply QD].
  - intros x. rewrite PZ, QN by lia. ring.
Qed.

(** ** the interpolant *)
Lemma is_derive_unique_R : forall (f : R -> R) x a b, is_derive f x a -> is_derive f x b -> a = b.
Proof. intros f x a b Ha Hb. rewrite <- (is_derive_unique f x a Ha). apply is_derive_unique, Hb. Qed.
Lemma is_derive_mult_R : forall (f g : R -> R) x a b, is_derive f x a -> is_derive g x b -> is_derive (fun y => f y * g y) x (a * g x + f x * b).
Proof. intros f g x a b Hf Hg. apply (is_derive_mult f g x a b Hf Hg). intros; apply Rmult_comm. Qed.
Lemma rprod_neq : forall n r x, (forall i, (i < n)%nat -> x <> r i) -> rprod n r x <> 0.
Proof.
  induction n; intros r x H; simpl; [lra|]. apply Rmult_integral_contrapositive_currified; [apply IHn; intros; apply H; lia|].
  assert (K := H n ltac:(lia)). lra.
Qed.
Lemma rprod_poly : forall n r, polynomial n (rprod n r).
Proof.
  induction n; intros r; [apply (poly_ext 0 (fun _ => 1)); [reflexivity|apply poly_const]|].
  apply (poly_ext (S n) (fun x => x * rprod n r x + (- r n) * rprod n r x)); [intros; simpl; ring|].
  apply poly_add; [apply poly_mulx, IHn|]. apply poly_scal. apply (poly_weaken n); [lia|apply IHn].
Qed.
Lemma hermite_interpolant : forall n (r y y1 : nat -> R), (forall i j, (i < n)%nat -> (j < n)%nat -> i <> j -> r i <> r j) ->
  exists p p1 : R -> R, polynomial (2 * n - 1) p /\ (forall x, is_derive p x (p1 x)) /\
  (forall i, (i < n)%nat -> p (r i) = y i /\ p1 (r i) = y1 i).
Proof.
  induction n; intros r y y1 Hr.
  - exists (fun _ => 0), (fun _ => 0). split; [apply poly_const|]. split; [intros; apply (is_derive_const (V := R_NormedModule))|intros; lia].
  - destruct (IHn r y y1) as (p & p1 & Hp & Dp & Ep); [intros; apply Hr; lia|].
    set (w := rprod n r). destruct (poly_derive_pred n w (rprod_poly n r)) as (w1 & Hw1 & Dw).
    set (s := r n). assert (Ws : w s <> 0) by (apply rprod_neq; intros i Hi; apply Hr; lia).
    assert (Wz : forall i, (i < n)%nat -> w (r i) = 0) by (intros; apply rprod_root; assumption).
    set (c := (y n - p s) / (w s * w s)).
    set (d := (y1 n - p1 s - c * (2 * w s * w1 s)) / (w s * w s)).
    exists (fun x => p x + (w x * w x) * (c + d * (x - s))), (fun x => p1 x + ((w1 x * w x + w x * w1 x) * (c + d * (x - s)) + (w x * w x) * d)).
    split; [|split].
    + apply (poly_ext (2 * S n - 1) (fun x => p x + ((w x * w x) * (d * x + (c - d * s))))); [intros; ring|].
      apply poly_add; [apply (poly_weaken (2 * n - 1)); [lia|exact Hp]|].
      apply (poly_weaken ((n + n) + 1)); [lia|]. apply poly_mul; [apply poly_mul; apply rprod_poly|].
      apply poly_add; [|apply (poly_weaken 0); [lia|apply poly_const]]. apply poly_scal.
      apply (poly_ext 1 (fun x => x ^ 1)); [intros; ring|apply poly_pow].
    + intros x. apply (is_derive_plus (K := R_AbsRing) (V := R_NormedModule)); [apply Dp|].
      apply (is_derive_mult_R (fun x => w x * w x) (fun x => c + d * (x - s))); [apply is_derive_mult_R; apply Dw|].
      apply (is_derive_val _ _ (0 + d * (1 - 0))); [ring|].
      apply (is_derive_plus (K := R_AbsRing) (V := R_NormedModule)); [apply (is_derive_const (V := R_NormedModule))|].
      apply (is_derive_scal (fun x => x - s)).
      apply (is_derive_minus (K := R_AbsRing) (V := R_NormedModule)); [apply (is_derive_id (K := R_AbsRing))|apply (is_derive_const (V := R_NormedModule))].
    + intros i Hi. destruct (Nat.eq_dec i n) as [->|Ni].
      * fold s. unfold d, c. split; field; exact Ws.
      * rewrite !Wz by lia. destruct (Ep i ltac:(lia)) as [E1 E2]. rewrite E1, E2. split; ring.
Qed.

(** ** the error of the interpolant *)
Section Err.
Variables (D : R -> Prop).
Hypothesis conv : forall u v x, D u -> D v -> u <= x <= v -> D x.
Variables (n : nat) (r : nat -> R) (F : nat -> R -> R) (M : R).
Hypothesis Hn : (1 <= n)%nat.
Hypothesis Hr : forall i j, (i < n)%nat -> (j < n)%nat -> i <> j -> r i <> r j.
Hypothesis HD : forall i, (i < n)%nat -> D (r i).
Hypothesis HF : has_derivatives D (2 * n) F.
Hypothesis HM : forall x, D x -> Rabs (F (2 * n)%nat x) <= M.

Lemma seq_nodup_map : NoDup (map r (seq 0 n)).
Proof.
  assert (G : forall k, (k <= n)%nat -> NoDup (map r (seq 0 k))).
  { induction k; intros Hk; [constructor|]. rewrite seq_S, map_app. simpl.
    apply (Permutation_NoDup (Permutation_cons_append _ _)). constructor; [|apply IHk; lia].
    intros I. apply in_map_iff in I. destruct I as (j & E & Ij). apply in_seq in Ij. apply (Hr j k); try lia. exact E. }
  apply G. lia.
Qed.
Lemma interp_error : exists p, polynomial (2 * n - 1) p /\ (forall i, (i < n)%nat -> p (r i) = F O (r i)) /\
  forall x, D x -> Rabs (F O x - p x) <= M / INR (fact (2 * n)) * (rprod n r x * rprod n r x).
Proof.
  destruct (hermite_interpolant n r (fun i => F O (r i)) (fun i => F 1%nat (r i)) Hr) as (p & p1 & Hp & Dp & Ep).
  exists p. split; [exact Hp|]. split; [intros i Hi; apply Ep, Hi|].
  intros x Dx.
  destruct (in_dec Req_EM_T x (map r (seq 0 n))) as [I|NI].
  - apply in_map_iff in I. destruct I as (i & <- & Ii). apply in_seq in Ii. destruct (Ep i ltac:(lia)) as [E _].
    rewrite E, rprod_root by lia. replace (F O (r i) - F O (r i)) with 0 by ring; rewrite Rabs_R0. lra.
  - assert (Wx : rprod n r x <> 0) by (apply rprod_neq; intros i Hi E; apply NI; rewrite E; apply in_map, in_seq; lia).
    set (w := rprod n r) in *.
    set (K := (F O x - p x) / (w x * w x)).
    (* derivatives of everything *)
    destruct (poly_derivatives _ p Hp) as (P & P0 & PD & _ & PZ).
    assert (Lead : polynomial (2 * n - 1) (fun y => w y * w y - y ^ S (2 * n - 1))).
    { destruct n as [|m] eqn:En; [lia|]. assert (L := rprod_lead m r). fold w in L.
      apply (poly_ext (2 * S m - 1) (fun y => (w y - y ^ S m) * (w y - y ^ S m) + 2 * (y ^ S m * (w y - y ^ S m)))).
      - intros y. replace (S (2 * S m - 1)) with (S m + S m)%nat by lia. rewrite pow_add. ring.
      - apply poly_add; [apply (poly_weaken (m + m)); [lia|apply poly_mul; assumption]|].
        apply poly_scal. apply (poly_weaken (S m + m)); [lia|]. apply poly_mul; [apply poly_pow|exact L]. }
    destruct (monic_derivatives _ _ Lead) as (W & W0 & WD & WN).
    replace (S (2 * n - 1)) with (2 * n)%nat in WN by lia.
    destruct (poly_derive_pred n w (rprod_poly n r)) as (w1 & _ & Dw).
    assert (W1 : forall y, W 1%nat y = w1 y * w y + w y * w1 y).
    { intros y. apply (is_derive_unique_R (fun y => w y * w y) y).
      - apply (is_derive_ext (W O)); [intros; apply W0|apply WD].
      - apply is_derive_mult_R; apply Dw. }
    assert (P1 : forall y, P 1%nat y = p1 y).
    { intros y. apply (is_derive_unique_R p y); [apply (is_derive_ext (P O)); [intros; apply P0|apply PD]|apply Dp]. }
    set (G := fun i y => F i y - P i y - K * W i y).
    destruct (rolle_double D conv G (map r (seq 0 n)) x) as (z & Dz & Ez).
    + rewrite map_length, seq_length. intros i y Hi Dy. unfold G.
      apply (is_derive_minus (K := R_AbsRing) (V := R_NormedModule)).
      * apply (is_derive_minus (K := R_AbsRing) (V := R_NormedModule)); [apply HF; [exact Hi|exact Dy]|apply PD].
      * apply (is_derive_scal (W i)). apply WD.
    + constructor; [exact NI|apply seq_nodup_map].
    + exact Dx.
    + unfold G, K. rewrite P0, W0. field. exact Wx.
    + rewrite map_length, seq_length. exact Hn.
    + apply Forall_forall. intros y Hy. apply in_map_iff in Hy. destruct Hy as (i & <- & Ii). apply in_seq in Ii.
      destruct (Ep i ltac:(lia)) as [E1 E2]. split; [apply HD; lia|]. unfold G. rewrite P0, W0, P1, W1, E1, E2.
      unfold w. rewrite rprod_root by lia. split; ring.
    + rewrite map_length, seq_length in Ez. unfold G in Ez. rewrite PZ, WN in Ez by lia.
      assert (Fp : 0 < INR (fact (2 * n))) by apply INR_fact_lt_0.
      assert (EK : K = F (2 * n)%nat z / INR (fact (2 * n))).
      { apply Rmult_eq_reg_r with (INR (fact (2 * n))); [|lra]. unfold Rdiv. rewrite Rmult_assoc, Rinv_l by lra. lra. }
      assert (AK : Rabs K <= M / INR (fact (2 * n))).
      { rewrite EK. unfold Rdiv. rewrite Rabs_mult. rewrite (Rabs_right (/ INR (fact (2 * n)))) by (left; apply Rinv_0_lt_compat, Fp).
        apply Rmult_le_compat_r; [left; apply Rinv_0_lt_compat, Fp|apply HM, Dz]. }
      assert (E : F O x - p x = K * (w x * w x)) by (unfold K; field; exact Wx).
      rewrite E, Rabs_mult. rewrite (Rabs_right (w x * w x)) by (apply Rle_ge, Rle_0_sqr).
      apply Rmult_le_compat_r; [apply Rle_0_sqr|exact AK].
Qed.
End Err.
