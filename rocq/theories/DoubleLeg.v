(** Nested Gauss-Legendre rules. *)
From Coq Require Import Reals Lra Lia ZArith List.
From Coquelicot Require Import Coquelicot.
From Verif Require Import Arith RInst Machine Rules RSum Legendre RuleSpec GaussProof GaussSpec GaussExact MassSpec LegShape ErrorSpec LegConv Mirror DoubleSpec DoubleInt.
Local Open Scope R_scope.

Lemma gauss_near : forall (l : list (R * R)) a b f g e, a < b -> List.Forall (fun xw : R * R => -1 < fst xw < 1 /\ 0 < snd xw) l ->
  (forall x, a <= x <= b -> Rabs (f x - g x) <= e) -> Rabs (gauss_on l a b f - gauss_on l a b g) <= (b - a) / 2 * (e * lsum (map snd l)).
Proof.
  intros l a b f g e Hab Hl He. unfold gauss_on. rewrite <- Rmult_minus_distr_l, Rabs_mult, (Rabs_pos_eq ((b - a) / 2)) by lra. apply Rmult_le_compat_l; [lra|].
  induction Hl as [|[x w] l [Hx Hw] Hl IH]; cbn [map lsum fst snd] in *; [rewrite Rminus_0_r, Rabs_R0; lra|].
  set (p := (b - a) / 2 * x + (a + b) / 2). assert (Hp : a <= p <= b) by (unfold p; split; nra).
  match goal with |- Rabs ((?u + ?s) - (?v + ?s')) <= _ => replace (u + s - (v + s')) with ((f p - g p) * w + (s - s')) by (unfold p; ring) end.
  eapply Rle_trans; [apply Rabs_triang|]. rewrite Rmult_plus_distr_l. apply Rplus_le_compat; [|exact IH]. rewrite Rabs_mult, (Rabs_pos_eq w) by lra. apply Rmult_le_compat_r; [lra|apply He, Hp].
Qed.
Section Region.
Variables (c d : R -> R) (g : R -> R -> R) (a b M L : R).
Hypothesis Hc : forall x, continuous c x.
Hypothesis Hd : forall x, continuous d x.
Hypothesis Hg : continuous2 g.
Hypothesis Hab : a < b.
Hypothesis HM : forall x y, a <= x <= b -> closed_between (c x) (d x) y -> Rabs (g x y) <= M.
Hypothesis HL : forall x, a <= x <= b -> Rabs (d x - c x) <= L.
Notation kk := (k c d g).
Lemma k_bound : forall x t, a <= x <= b -> 0 <= t <= 1 -> Rabs (kk x t) <= L * M.
Proof.
  intros x t Hx Ht. unfold k. rewrite Rabs_mult. apply Rmult_le_compat; try apply Rabs_pos; [apply HL, Hx|apply HM; [exact Hx|]].
  unfold closed_between, Rmin, Rmax. destruct (Rle_dec (c x) (d x)); split; nra.
Qed.
Lemma leg_affine : forall (r : GaussLegendre RA) x, legendre_value r (c x) (d x) (g x) = legendre_value r 0 1 (kk x).
Proof.
  intros r x. assert (A := legendre_affine r 0 1 (d x - c x) (c x) (g x)).
  replace ((d x - c x) * 0 + c x) with (c x) in A by ring. replace ((d x - c x) * 1 + c x) with (d x) in A by ring. rewrite A.
  unfold legendre_value. rewrite !legendre_R. unfold gauss_on, k. rewrite <- !Rmult_assoc, (Rmult_comm (d x - c x)), !Rmult_assoc. f_equal.
  induction (legendre_pairs r) as [|[y w] l IH]; cbn [map lsum fst snd]; [ring|]. rewrite Rmult_plus_distr_l, IH. cbv beta. ring.
Qed.
Theorem double_legendre : forall eps, 0 < eps -> exists N, forall (t : Target) (n m : nat) (r r2 : GaussLegendre RA), (N <= n)%nat -> (N <= m)%nat ->
  (100 <= usize_max t)%Z -> (2 * Z.of_nat n <= usize_max t)%Z -> (2 * Z.of_nat m <= usize_max t)%Z ->
  legendre_new t (Z.of_nat n) = Ok r -> legendre_new t (Z.of_nat m) = Ok r2 ->
  Rabs (legendre_value r a b (fun x => legendre_value r2 (c x) (d x) (g x)) - region_integral a b c d g) <= eps + 3 / 10 ^ 15 * (M * L) * (b - a).
Proof.
  intros eps He. set (G := fun x => RInt (g x) (c x) (d x)).
  assert (P0 : 0 <= L * M) by (pose proof (Rabs_pos (kk a 0)); pose proof (k_bound a 0 ltac:(lra) ltac:(lra)); lra).
  assert (GC : forall x, continuous G x) by (intros x; apply (continuous_ext (fun x => RInt (kk x) 0 1)); [intros; symmetry; apply k_RInt; assumption|apply inner_cont; assumption]).
  assert (GO : continuous_on a b G).
  { intros x _ e Pe. assert (Q := GC x). apply (proj1 (filterlim_locally _ _)) with (eps := mkposreal e Pe) in Q. destruct Q as [[dl Pd] Q]. exists dl. split; [exact Pd|]. intros y _ Hy. exact (Q y Hy). }
  assert (GB : forall x, closed_between a b x -> Rabs (G x) <= L * M).
  { intros x Hx. unfold closed_between in Hx. rewrite Rmin_left, Rmax_right in Hx by lra. unfold G. rewrite (k_RInt c d g Hg). replace (L * M) with ((1 - 0) * (L * M)) by ring.
    apply abs_RInt_le_const; [lra|apply (k_int c d g Hc Hd Hg)|]. intros t Ht. apply k_bound; lra. }
  destruct (big_converges a b G (L * M) ltac:(lra) GO GB (eps / 3) ltac:(lra)) as [N1 H1].
  assert (Ew : 0 < eps / (9 * (b - a))) by (apply Rdiv_lt_0_compat; lra). set (w := eps / (9 * (b - a))) in *.
  destruct (uniform_continuity_2d kk a b 0 1 (fun x y _ _ => k_2d c d g Hc Hd Hg x y) (mkposreal _ Ew)) as [dl Hdl]. simpl in Hdl. pose proof (cond_pos dl) as Pd.
  destruct (nfloor_ex (2 / dl)) as [N2 [_ HN2]]; [apply Rmult_le_pos; [lra|left; apply Rinv_0_lt_compat; exact Pd]|].
  destruct (nfloor_ex (7 * (L * M) / w)) as [N3 [_ HN3]]; [apply Rmult_le_pos; [lra|left; apply Rinv_0_lt_compat; exact Ew]|].
  exists (101 + N1 + N2 + N3)%nat. intros t n m r r2 Hn Hm Hu Hn2 Hm2 Hr Hr2.
  assert (Mp : 0 < INR m) by (apply lt_0_INR; lia).
  assert (In2 : forall x, a <= x <= b -> Rabs (legendre_value r2 (c x) (d x) (g x) - G x) <= 2 * w + 1 / 10 ^ 15 * (L * M)).
  { intros x Hx. rewrite leg_affine. unfold G. rewrite (k_RInt c d g Hg).
    assert (B := big_value t m r2 Hu ltac:(lia) Hm2 Hr2 0 1 (kk x) (L * M) w ltac:(lra) (k_int c d g Hc Hd Hg x 0 1)).
    rewrite !Rminus_0_r, Rabs_R1 in B. eapply Rle_trans; [apply B|].
    - intros s Hs. unfold closed_between in Hs. rewrite Rmin_left, Rmax_right in Hs by lra. apply k_bound; lra.
    - intros s u Hs Hu' Hsu. unfold closed_between in Hs, Hu'. rewrite Rmin_left, Rmax_right in Hs, Hu' by lra. left. apply (Hdl x u x s); try lra.
      + replace (x - x) with 0 by ring. rewrite Rabs_R0. exact Pd.
      + eapply Rle_lt_trans; [exact Hsu|]. apply Rlt_div_l; [exact Mp|]. assert (Q : INR N2 + 1 <= INR m) by (rewrite <- S_INR; apply le_INR; lia).
        apply Rlt_trans with (dl * (2 / dl)); [replace (dl * (2 / dl)) with 2 by (field; lra); lra|]. apply Rmult_lt_compat_l; lra.
    - assert (Q : INR N3 + 1 <= INR m) by (rewrite <- S_INR; apply le_INR; lia).
      assert (S7 : 7 / INR m * (L * M) <= w). { replace (7 / INR m * (L * M)) with (7 * (L * M) / INR m) by (field; lra). apply Rle_div_l; [exact Mp|].
        apply Rle_trans with (w * (7 * (L * M) / w)); [right; field; lra|]. apply Rmult_le_compat_l; lra. }
      rewrite Rmult_1_r, Rmult_plus_distr_r. lra. }
  assert (O1 := H1 t n r ltac:(lia) Hu Hn2 Hr). rewrite (Rabs_pos_eq (b - a)) in O1 by lra. change (RInt G a b) with (region_integral a b c d g) in O1.
  destruct (legendre_shape t (Z.of_nat n) r Hu ltac:(lia) Hn2 Hr) as [_ Sh].
  assert (Nr := gauss_near (legendre_pairs r) a b (fun x => legendre_value r2 (c x) (d x) (g x)) G _ Hab Sh In2).
  assert (LV : forall f, gauss_on (legendre_pairs r) a b f = legendre_value r a b f) by (intros f; unfold legendre_value; rewrite legendre_R; reflexivity). rewrite !LV in Nr.
  assert (T := big_total t n r Hu ltac:(lia) Hn2 Hr). assert (Np : 101 <= INR n) by (replace 101 with (INR 101) by (simpl; lra); apply le_INR; lia).
  assert (T13 : 13 / INR n <= 13 / 101) by (unfold Rdiv; apply Rmult_le_compat_l; [lra|]; apply Rinv_le_contravar; lra).
  apply Rabs_le_between in T. assert (T3 : lsum (map snd (legendre_pairs r)) <= 3) by lra.
  assert (K0 : 0 <= 2 * w + 1 / 10 ^ 15 * (L * M)) by (assert (0 <= 1 / 10 ^ 15) by lra; nra).
  assert (Nr2 : Rabs (legendre_value r a b (fun x => legendre_value r2 (c x) (d x) (g x)) - legendre_value r a b G) <= eps / 3 + 3 / 2 * (1 / 10 ^ 15 * (L * M)) * (b - a)).
  { eapply Rle_trans; [exact Nr|]. apply Rle_trans with ((b - a) / 2 * ((2 * w + 1 / 10 ^ 15 * (L * M)) * 3)).
    - apply Rmult_le_compat_l; [lra|]. apply Rmult_le_compat_l; [exact K0|exact T3].
    - right. unfold w. field. lra. }
  revert O1 Nr2. generalize (region_integral a b c d g) (legendre_value r a b G) (legendre_value r a b (fun x => legendre_value r2 (c x) (d x) (g x))). intros I u v O1 Nr2.
  apply Rabs_le_between in O1. apply Rabs_le_between in Nr2. assert (Z : 0 <= L * M * (b - a)) by (apply Rmult_le_pos; lra). apply Rabs_le_between. split; nra.
Qed.
End Region.
Lemma half_disc_bounds : (forall x y, -1 <= x <= 1 -> closed_between 0 (sqrt (1 - x * x)) y -> Rabs (x + y) <= 2) /\ (forall x, -1 <= x <= 1 -> Rabs (sqrt (1 - x * x) - 0) <= 1).
Proof.
  assert (S : forall x, -1 <= x <= 1 -> 0 <= sqrt (1 - x * x) <= 1).
  { intros x Hx. split; [apply sqrt_pos|]. rewrite <- sqrt_1 at 2. apply sqrt_le_1_alt. nra. }
  split; intros x.
  - intros y Hx Hy. destruct (S x Hx). unfold closed_between in Hy. rewrite Rmin_left, Rmax_right in Hy by lra. apply Rabs_le_between. lra.
  - intros Hx. destruct (S x Hx). rewrite Rminus_0_r, Rabs_pos_eq; lra.
Qed.
