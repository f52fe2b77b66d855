(** Mirror symmetry of the Gauss-Legendre pairs, for every degree and in every arithmetic. *)
From Coq Require Import ZArith List Lia Bool.
From Verif Require Import Arith Machine Rules Par LegendreData Legendre SizeProof IterProof.
Import ListNotations.
Local Open Scope Z_scope.
Local Open Scope num_scope.

Section Sym.
Context {A : Arith}.
Variable t : Target.
Notation twp := (@theta_weight_pair A t).

Lemma tabulated_sym : forall n k, 100 <= usize_max t -> 1 <= n <= 100 -> 0 <= k -> 2 * k + 1 < n -> exists th w,
  @tabulated_pair A t n k = Ok (th, w) /\ @tabulated_pair A t n (n - 1 - k) = Ok (npi [-] th, w).
Proof.
  intros n k Hu Hn Hk H2k. unfold tabulated_pair.
  destruct even_theta_tri as [ET1 ET2], even_weight_tri as [EW1 EW2],
    odd_theta_tri as [OT1 OT2], odd_weight_tri as [OW1 OW2].
  assert (Hm : n = 2 * (n / 2) + n mod 2) by (apply Z.div_mod; lia).
  assert (Hb : 0 <= n mod 2 < 2) by (apply Z.mod_pos_bound; lia).
  destruct (Z.eqb_spec (n mod 2) 1) as [O|O].
  - rewrite usize_sub_ok by lia. cbn [bind].
    assert (H2 : (n - 1) / 2 = n / 2) by (symmetry; apply (Z.div_unique (n - 1) 2 (n / 2) 0); lia).
    rewrite H2. destruct (Z.compare_spec k (n / 2)) as [C|C|C]; [lia| |lia].
    destruct (Z.compare_spec (n - 1 - k) (n / 2)) as [D|D|D]; [lia|lia|].
    rewrite !usize_sub_ok by lia. cbn [bind]. rewrite !usize_sub_ok by lia. cbn [bind].
    replace (n - 1 - k - n / 2 - 1) with (n / 2 - k - 1) by lia.
    destruct (tab2_ok (A := A) ODD_THETA_ZEROS (n / 2 - 1) (n / 2 - k - 1) OT2) as [x ->]; [rewrite OT1; lia|lia|].
    destruct (tab2_ok (A := A) ODD_WEIGHTS (n / 2 - 1) (n / 2 - k - 1) OW2) as [y ->]; [rewrite OW1; lia|lia|].
    cbn [bind]. exists x, y. split; reflexivity.
  - destruct (Z.compare_spec k (n / 2)) as [C|C|C]; [lia| |lia].
    assert (E : forall X (a b : X), match (n - 1 - k ?= n / 2) with Lt => a | _ => b end = b)
      by (intros; destruct (Z.compare_spec (n - 1 - k) (n / 2)); [reflexivity|lia|reflexivity]).
    rewrite !usize_sub_ok by lia. cbn [bind]. rewrite !usize_sub_ok by lia. cbn [bind].
    replace (n - 1 - k - n / 2) with (n / 2 - k - 1) by lia.
    destruct (tab2_ok (A := A) EVEN_THETA_ZEROS (n / 2 - 1) (n / 2 - k - 1) ET2) as [x ->]; [rewrite ET1; lia|lia|].
    destruct (tab2_ok (A := A) EVEN_WEIGHTS (n / 2 - 1) (n / 2 - k - 1) EW2) as [y ->]; [rewrite EW1; lia|lia|].
    cbn [bind]. exists x, y. split; [reflexivity|].
    destruct (Z.compare_spec (n - 1 - k) (n / 2)); [reflexivity|lia|reflexivity].
Qed.

Lemma theta_sym : forall n k, 100 <= usize_max t -> 1 <= n -> 2 * n <= usize_max t -> 1 <= k -> 2 * k <= n -> exists th w,
  twp n k = Ok (th, w) /\ twp n (n + 1 - k) = Ok (npi [-] th, w).
Proof.
  intros n k Hu Hn H2n Hk H2k. unfold theta_weight_pair. destruct (Z.leb_spec n 100).
  - rewrite !usize_sub_ok by lia. cbn [bind].
    replace (n + 1 - k - 1) with (n - 1 - (k - 1)) by lia. apply tabulated_sym; lia.
  - rewrite !usize_mul_ok by lia. cbn [bind]. rewrite !usize_sub_ok by lia. cbn [bind].
    destruct (Z.ltb_spec n (2 * k - 1)); [lia|].
    destruct (Z.ltb_spec n (2 * (n + 1 - k) - 1)); [|lia].
    rewrite usize_add_ok by lia. cbn [bind].
    replace (n - (n + 1 - k) + 1) with k by lia.
    destruct (compute_ok (A := A) t n k Hu Hk) as [[th w] ->]. cbn [bind fst snd]. exists th, w. split; reflexivity.
Qed.

Lemma theta_middle : forall n, 100 <= usize_max t -> 1 <= n <= 100 -> n mod 2 = 1 -> exists w, twp n ((n + 1) / 2) = Ok (npi [/] lit2, w).
Proof.
  intros n Hu Hn O. unfold theta_weight_pair. destruct (Z.leb_spec n 100); [|lia].
  assert (Hm : n = 2 * (n / 2) + n mod 2) by (apply Z.div_mod; lia).
  assert (H1 : (n + 1) / 2 = n / 2 + 1) by (symmetry; apply (Z.div_unique (n + 1) 2 (n / 2 + 1) 0); lia).
  rewrite H1. rewrite usize_sub_ok by lia. cbn [bind]. unfold tabulated_pair. rewrite O. change (1 =? 1)%Z with true. cbn match.
  rewrite usize_sub_ok by lia. cbn [bind].
  assert (H2 : (n - 1) / 2 = n / 2) by (symmetry; apply (Z.div_unique (n - 1) 2 (n / 2) 0); lia).
  rewrite H2. replace (n / 2 + 1 - 1) with (n / 2) by lia. rewrite Z.compare_refl.
  destruct (tab_ok (A := A) CL n) as [c ->]; [rewrite cl_length; lia|]. cbn [bind]. eexists. reflexivity.
Qed.

Lemma theta_ok : forall n k, 100 <= usize_max t -> 1 <= n -> 2 * n <= usize_max t -> 1 <= k <= n -> exists p, twp n k = Ok p.
Proof.
  intros n k Hu Hn H2n Hk. destruct (@node_weight_ok A t n k Hu Hn H2n Hk) as [p E]. unfold node_weight_pair in E.
  destruct (twp n k) as [q|]; [exists q; reflexivity|discriminate].
Qed.

(** the (angle, weight) pair number [i], counted from 0 *)
Definition tw (n : Z) (i : nat) : A * A :=
  match twp n (1 + Z.of_nat i) with Ok p => p | Panic => (lit0, lit0) end.
Definition at_cos (p : A * A) : A * A := (ncos (fst p), snd p).

Lemma tw_ok : forall n i, 100 <= usize_max t -> 1 <= n -> 2 * n <= usize_max t -> (i < Z.to_nat n)%nat ->
  twp n (1 + Z.of_nat i) = Ok (tw n i).
Proof.
  intros n i Hu Hn H2n Hi. unfold tw. destruct (theta_ok n (1 + Z.of_nat i) Hu Hn H2n ltac:(lia)) as [p ->]. reflexivity.
Qed.

Lemma legendre_list : forall n (r : GaussLegendre A), 100 <= usize_max t -> 1 <= n -> 2 * n <= usize_max t -> legendre_new t n = Ok r ->
  legendre_pairs r = rev (map (fun i => at_cos (tw n i)) (seq 0 (Z.to_nat n))).
Proof.
  intros n r Hu Hn H2n E. unfold legendre_new in E. rewrite usize_add_ok in E by lia. cbn [bind] in E.
  assert (C : forall l, (forall k, In k l -> 1 <= k <= n) ->
    collect_res (fun k => @node_weight_pair A t n k) l = Ok (map (fun k => at_cos (tw n (Z.to_nat (k - 1)))) l)).
  { induction l as [|k l IH]; intros Hl; [reflexivity|]. cbn [collect_res map].
    assert (N : @node_weight_pair A t n k = Ok (at_cos (tw n (Z.to_nat (k - 1))))).
    { pose proof (Hl k (or_introl eq_refl)). unfold node_weight_pair.
      pose proof (tw_ok n (Z.to_nat (k - 1)) Hu Hn H2n ltac:(lia)) as T.
      replace (1 + Z.of_nat (Z.to_nat (k - 1))) with k in T by lia. rewrite T. reflexivity. }
    rewrite N. cbn [bind]. rewrite IH by (intros; apply Hl; right; assumption). reflexivity. }
  rewrite C in E.
  2:{ intros k Hk. apply in_rev in Hk. apply zrange_in in Hk. lia. }
  cbn [bind] in E. injection E as <-. cbn [legendre_pairs]. rewrite map_rev. f_equal. unfold zrange. rewrite map_map.
  replace (n + 1 - 1) with n by lia. apply map_ext. intros i. do 2 f_equal. lia.
Qed.

Lemma nth_map_seq : forall X (f : nat -> X) m i, (i < m)%nat -> nth_error (map f (seq 0 m)) i = Some (f i).
Proof.
  intros X f m i Hi. apply map_nth_error. rewrite (nth_error_nth' _ 0%nat) by (rewrite seq_length; lia). rewrite seq_nth by lia. reflexivity.
Qed.
Lemma rev_nth_error : forall X (l : list X) i, (i < length l)%nat -> nth_error (rev l) i = nth_error l (length l - 1 - i).
Proof.
  intros X l i Hi. destruct l as [|d l']; [simpl in Hi; lia|]. set (l := d :: l') in *.
  rewrite (nth_error_nth' (rev l) d) by (rewrite rev_length; exact Hi). rewrite (nth_error_nth' l d) by lia.
  f_equal. rewrite rev_nth by exact Hi. f_equal. lia.
Qed.
Lemma legendre_nth : forall n (r : GaussLegendre A) i, 100 <= usize_max t -> 1 <= n -> 2 * n <= usize_max t -> legendre_new t n = Ok r ->
  (i < Z.to_nat n)%nat -> nth_error (legendre_pairs r) i = Some (at_cos (tw n (Z.to_nat n - 1 - i))).
Proof.
  intros n r i Hu Hn H2n E Hi. rewrite (legendre_list n r Hu Hn H2n E). rewrite rev_nth_error; rewrite map_length, seq_length; [|exact Hi].
  apply nth_map_seq. lia.
Qed.
Lemma tw_sym : forall n i, 100 <= usize_max t -> 1 <= n -> 2 * n <= usize_max t -> (2 * i + 1 < Z.to_nat n)%nat ->
  tw n (Z.to_nat n - 1 - i) = (npi [-] fst (tw n i), snd (tw n i)).
Proof.
  intros n i Hu Hn H2n Hi. destruct (theta_sym n (1 + Z.of_nat i) Hu Hn H2n ltac:(lia) ltac:(lia)) as (th & w & E1 & E2).
  unfold tw. rewrite E1. replace (1 + Z.of_nat (Z.to_nat n - 1 - i)) with (n + 1 - (1 + Z.of_nat i)) by lia. rewrite E2. reflexivity.
Qed.
Theorem legendre_mirror : forall n (r : GaussLegendre A) i, 100 <= usize_max t -> 1 <= n -> 2 * n <= usize_max t -> legendre_new t n = Ok r ->
  (2 * i + 1 < Z.to_nat n)%nat -> exists theta w,
  nth_error (legendre_pairs r) i = Some (ncos (npi [-] theta), w) /\
  nth_error (legendre_pairs r) (Z.to_nat n - 1 - i) = Some (ncos theta, w).
Proof.
  intros n r i Hu Hn H2n E Hi. exists (fst (tw n i)), (snd (tw n i)).
  rewrite !(legendre_nth n r) by (try assumption; lia). rewrite tw_sym by (try assumption; lia). split; [reflexivity|].
  replace (Z.to_nat n - 1 - (Z.to_nat n - 1 - i))%nat with i by lia. reflexivity.
Qed.
Lemma weights_palindrome : forall n (r : GaussLegendre A), 100 <= usize_max t -> 1 <= n -> 2 * n <= usize_max t -> legendre_new t n = Ok r ->
  map snd (legendre_pairs r) = rev (map snd (legendre_pairs r)).
Proof.
  intros n r Hu Hn H2n E. rewrite (legendre_list n r Hu Hn H2n E). rewrite map_rev, rev_involutive, map_map.
  set (m := Z.to_nat n). set (l := map _ _).
  assert (EXT : forall X (a b : list X), (forall i, nth_error a i = nth_error b i) -> a = b).
  { intros X a. induction a as [|x a IH]; intros [|y b] H; [reflexivity|specialize (H 0%nat); discriminate|specialize (H 0%nat); discriminate|].
    f_equal; [specialize (H 0%nat); injection H; auto|apply IH; intros i; exact (H (S i))]. }
  apply EXT. intros i. unfold l.
  destruct (Nat.ltb_spec i m) as [Hi|Hi].
  2:{ rewrite !(proj2 (nth_error_None _ _)); [reflexivity|rewrite map_length, seq_length; lia|rewrite rev_length, map_length, seq_length; lia]. }
  rewrite rev_nth_error; rewrite map_length, seq_length; [|exact Hi].
  rewrite !nth_map_seq by lia. cbn [at_cos snd]. f_equal.
  destruct (Nat.ltb_spec (2 * i + 1) m) as [C|C].
  - unfold m. rewrite tw_sym by (try assumption; lia). reflexivity.
  - destruct (Nat.eq_dec (m - 1 - i) i) as [D|D]; [rewrite D; reflexivity|].
    pose proof (tw_sym n (m - 1 - i) Hu Hn H2n ltac:(fold m; lia)) as T. fold m in T.
    replace (m - 1 - (m - 1 - i))%nat with i in T by lia. rewrite T. reflexivity.
Qed.
Lemma legendre_middle : forall n (r : GaussLegendre A), 100 <= usize_max t -> 1 <= n <= 100 -> 2 * n <= usize_max t -> n mod 2 = 1 -> legendre_new t n = Ok r ->
  exists w, nth_error (legendre_pairs r) (Z.to_nat (n / 2)) = Some (ncos (npi [/] lit2), w).
Proof.
  intros n r Hu Hn H2n O E. destruct (theta_middle n Hu Hn O) as [w Ew].
  assert (Hm : n = 2 * (n / 2) + n mod 2) by (apply Z.div_mod; lia).
  assert (H1 : (n + 1) / 2 = n / 2 + 1) by (symmetry; apply (Z.div_unique (n + 1) 2 (n / 2 + 1) 0); lia).
  exists w. rewrite (legendre_nth n r) by (try assumption; lia). unfold tw.
  replace (1 + Z.of_nat (Z.to_nat n - 1 - Z.to_nat (n / 2))) with ((n + 1) / 2) by lia. rewrite Ew. reflexivity.
Qed.
End Sym.
