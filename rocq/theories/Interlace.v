(** The nodes of the n-point and the (n+1)-point rule of a family interlace. *)
From Coq Require Import Reals Lra Lia List ZArith Bool Sorted Classical.
From Coquelicot Require Import Coquelicot.
From Verif Require Import Arith RInst RInstProof Machine Param Rules RSum PolySpec PolyProof GolubWelsch GWSpec EigenSpec EigenProof Spectral
  OrthoProof WeightSpec Gamma Hermite Laguerre Jacobi Chebyshev RuleSpec
  GaussProof SizeProof GWRoots MassSpec GaussExact JacobiMore ChebRule LegSym LegTable LegShape Legendre LegendreData StepPoly InterSpec.
Import ListNotations.
Local Open Scope R_scope.

(** ** neighbouring monic polynomials of a recurrence *)
Lemma wronskian : forall a b x k, (forall i, (i < k)%nat -> b i <> 0) ->
  0 < dmonic a b (S k) x * monic a b k x - dmonic a b k x * monic a b (S k) x.
Proof.
  intros a b x k. induction k as [|k IH]; intros Hb; [simpl; lra|].
  specialize (IH ltac:(intros i Hi; apply Hb; lia)). assert (B := Hb k ltac:(lia)).
  rewrite dmonic_SS, monic_SS. set (w := dmonic a b (S k) x * monic a b k x - dmonic a b k x * monic a b (S k) x) in *.
  replace ((monic a b (S k) x + (x - a (S k)) * dmonic a b (S k) x - b k * b k * dmonic a b k x) * monic a b (S k) x -
    dmonic a b (S k) x * ((x - a (S k)) * monic a b (S k) x - b k * b k * monic a b k x))
    with (monic a b (S k) x * monic a b (S k) x + b k * b k * w) by (unfold w; ring).
  assert (0 < b k * b k) by nra. assert (0 < b k * b k * w) by (apply Rmult_lt_0_compat; assumption). assert (Q := Rle_0_sqr (monic a b (S k) x)). unfold Rsqr in Q. lra.
Qed.

Lemma between_roots : forall a b k y z, (forall i, (i < k)%nat -> b i <> 0) -> y < z -> monic a b (S k) y = 0 -> monic a b (S k) z = 0 ->
  exists x, y < x < z /\ monic a b k x = 0.
Proof.
  intros a b k y z Hb Lt Zy Zz. apply NNPP. intros No.
  assert (Nz : forall x, y <= x <= z -> monic a b k x <> 0).
  { intros x Hx E. assert (W := wronskian a b x k Hb). rewrite E in W.
    destruct (Req_dec x y) as [->|N1]; [rewrite Zy in W; lra|]. destruct (Req_dec x z) as [->|N2]; [rewrite Zz in W; lra|].
    apply No. exists x. split; [lra|exact E]. }
  set (g := fun x => monic a b (S k) x / monic a b k x).
  set (dg := fun x => (dmonic a b (S k) x * monic a b k x - dmonic a b k x * monic a b (S k) x) / (monic a b k x ^ 2)).
  destruct (MVT_gen g y z dg) as (c & Hc & Ec).
  - intros x Hx. rewrite Rmin_left, Rmax_right in Hx by lra. unfold g, dg.
    replace ((dmonic a b (S k) x * monic a b k x - dmonic a b k x * monic a b (S k) x) / monic a b k x ^ 2)
      with ((dmonic a b (S k) x * monic a b k x - monic a b (S k) x * dmonic a b k x) / monic a b k x ^ 2) by (f_equal; ring).
    apply is_derive_div; [apply dmonic_der|apply dmonic_der|apply Nz; lra].
  - intros x Hx. rewrite Rmin_left, Rmax_right in Hx by lra. unfold g.
    apply continuity_pt_div; [| |apply Nz; lra]; apply derivable_continuous_pt; eexists; apply is_derive_Reals, dmonic_der.
  - rewrite Rmin_left, Rmax_right in Hc by lra. unfold g in Ec. rewrite Zy, Zz in Ec.
    assert (W := wronskian a b c k Hb). assert (N := Nz c Hc). 
    assert (D : 0 < dg c). { unfold dg. apply Rdiv_lt_0_compat; [exact W|]. simpl. rewrite Rmult_1_r. assert (Q := Rsqr_pos_lt _ N). exact Q. }
    assert (0 < dg c * (z - y)) by (apply Rmult_lt_0_compat; lra). unfold Rdiv in Ec. lra.
Qed.

(** ** strictly ascending lists: a point of the shorter one between any two neighbours of the longer one *)
Lemma choose_between : forall (Q : R -> Prop) (l : list R) y, StronglySorted Rlt (y :: l) ->
  (forall u v, In u (y :: l) -> In v (y :: l) -> u < v -> exists x, u < x < v /\ Q x) ->
  exists zs, length zs = length l /\ StronglySorted Rlt zs /\ List.Forall Q zs /\ List.Forall (fun z => y < z) zs /\
  forall i, (i < length l)%nat -> nth i (y :: l) 0 < nth i zs 0 < nth i l 0.
Proof.
  intros Q l. induction l as [|v l IH]; intros y So Bt.
  - exists []. repeat split; try constructor; simpl in *; lia.
  - inversion So as [|? ? So' Fl]; subst. inversion Fl as [|? ? Hv Fl']; subst.
    destruct (IH v So') as (zs & L & Sz & Qz & Gz & Nz). { intros u w Hu Hw. apply Bt; right; assumption. }
    destruct (Bt y v ltac:(left; reflexivity) ltac:(right; left; reflexivity) Hv) as (x & Hx & Qx).
    exists (x :: zs). split; [simpl; lia|]. split; [constructor; [exact Sz|eapply List.Forall_impl; [|exact Gz]; simpl; intros; lra]|].
    split; [constructor; assumption|]. split; [constructor; [lra|eapply List.Forall_impl; [|exact Gz]; simpl; intros; lra]|].
    intros [|i] Hi; [simpl; lra|]. simpl in Hi. exact (Nz i ltac:(lia)).
Qed.
Lemma sorted_nodup : forall l, StronglySorted Rlt l -> NoDup l.
Proof.
  intros l S. induction S as [|x l S IH F]; constructor; [|exact IH]. intros I. rewrite List.Forall_forall in F. assert (X := F x I). lra.
Qed.

(** two rules whose nodes are the roots of neighbouring polynomials *)
Lemma roots_interlaced : forall a b n (l m : list (R * R)), (forall i, b i <> 0) ->
  length l = n -> length m = S n -> strictly_ascending l -> strictly_ascending m ->
  (forall x, monic a b n x = 0 -> In x (map fst l)) -> (forall p, In p l -> monic a b n (fst p) = 0) ->
  (forall p, In p m -> monic a b (S n) (fst p) = 0) -> interlaced l m.
Proof.
  intros a b n l m Hb Ll Lm Sl Sm Al Rl Rm. split; [lia|]. apply fst_sorted in Sl. apply fst_sorted in Sm.
  assert (Lm' : length (map fst m) = S n) by (rewrite map_length; exact Lm).
  assert (Rm' : forall y, In y (map fst m) -> monic a b (S n) y = 0). { intros y I. apply in_map_iff in I. destruct I as (p & <- & I). apply Rm, I. }
  destruct (map fst m) as [|y t] eqn:Em; [discriminate|].
  destruct (choose_between (fun x => monic a b n x = 0) t y Sm) as (zs & Lz & Sz & Qz & _ & Nz).
  { intros u v Hu Hv Lt. apply (between_roots a b n u v); auto. }
  rewrite List.Forall_forall in Qz. simpl in Lm'.
  assert (E : map fst l = zs).
  { apply sorted_unique; [exact Sl|exact Sz|]. assert (I1 : incl zs (map fst l)) by (intros x I; apply Al, Qz, I).
    assert (I2 : incl (map fst l) zs). { apply NoDup_length_incl; [apply sorted_nodup, Sz| |exact I1]. rewrite map_length. lia. }
    intros x. split; [apply I2|apply I1]. }
  intros i Hi. assert (B := Nz i ltac:(lia)). rewrite <- E in B.
  assert (G1 : forall (k : nat) (q : list (R * R)), fst (nth k q (0, 0)) = nth k (map fst q) 0) by (intros; rewrite <- (map_nth fst); reflexivity).
  rewrite !G1, Em. exact B.
Qed.

Section GW.
Variables (ext ext' : Linalg RA) (n : nat) (a b : nat -> R) (s1 s2 : R) (l m : list (R * R)).
Hypothesis Hn : (1 <= n)%nat.
Hypothesis Hb : forall i, b i <> 0.
Hypothesis So : sorts ext.
Hypothesis So' : sorts ext'.
Hypothesis Ex1 : exact_on ext n a b.
Hypothesis Ex2 : exact_on ext' (S n) a b.
Hypothesis H1 : @golub_welsch RA ext n a b s1 = Ok l.
Hypothesis H2 : @golub_welsch RA ext' (S n) a b s2 = Ok m.
Lemma gwx_interlaced : interlaced l m.
Proof.
  assert (R1 := gwx_roots ext n a b s1 l Hn (fun i _ => Hb i) So Ex1 H1). assert (R2 := gwx_roots ext' (S n) a b s2 m ltac:(lia) (fun i _ => Hb i) So' Ex2 H2).
  rewrite List.Forall_forall in R1, R2.
  apply (roots_interlaced a b n l m Hb).
  - exact (gwx_length ext n a b s1 l Hn So Ex1 H1).
  - exact (gwx_length ext' (S n) a b s2 m ltac:(lia) So' Ex2 H2).
  - exact (gwx_ascending ext n a b s1 l Hn (fun i _ => Hb i) So Ex1 H1).
  - exact (gwx_ascending ext' (S n) a b s2 m ltac:(lia) (fun i _ => Hb i) So' Ex2 H2).
  - exact (gwx_all_roots ext n a b s1 l Hn (fun i _ => Hb i) So Ex1 H1).
  - intros p I. apply R1, I.
  - intros p I. apply R2, I.
Qed.
End GW.

(** ** Hermite, Laguerre, symmetric Jacobi *)
Lemma hermite_interlaced : forall (ext ext' : Linalg RA) n (r r' : GaussHermite RA), (1 <= n)%Z -> sorts ext -> sorts ext' ->
  exact_on ext (Z.to_nat n) (@hermite_diag RA) (@hermite_off_diag RA) -> exact_on ext' (Z.to_nat (n + 1)) (@hermite_diag RA) (@hermite_off_diag RA) ->
  hermite_new ext n = Ok r -> hermite_new ext' (n + 1) = Ok r' -> interlaced (hermite_pairs r) (hermite_pairs r').
Proof.
  intros ext ext' n r r' Hn So So' Ex Ex' Hr Hr'. assert (G := hermite_new_inv ext n r Hr). assert (G' := hermite_new_inv ext' (n + 1) r' Hr').
  destruct hermite_coeffs as (_ & _ & Cz). replace (Z.to_nat (n + 1)) with (S (Z.to_nat n)) in * by lia.
  exact (gwx_interlaced ext ext' (Z.to_nat n) _ _ _ _ _ _ ltac:(lia) Cz So So' Ex Ex' G G').
Qed.
Lemma laguerre_interlaced : forall (ext ext' : Linalg RA) n (al : Param RA) (r r' : GaussLaguerre RA), (1 <= n)%Z -> -1 < param_get al -> sorts ext -> sorts ext' ->
  exact_on ext (Z.to_nat n) (@laguerre_diag RA (param_get al)) (@laguerre_off_diag RA (param_get al)) ->
  exact_on ext' (Z.to_nat (n + 1)) (@laguerre_diag RA (param_get al)) (@laguerre_off_diag RA (param_get al)) ->
  laguerre_new ext n al = Ok r -> laguerre_new ext' (n + 1) al = Ok r' -> interlaced (laguerre_pairs r) (laguerre_pairs r').
Proof.
  intros ext ext' n al r r' Hn Hal So So' Ex Ex' Hr Hr'. assert (G := laguerre_new_inv ext n al r Hr). assert (G' := laguerre_new_inv ext' (n + 1) al r' Hr').
  destruct (laguerre_coeffs (param_get al) Hal) as (_ & _ & Cz). replace (Z.to_nat (n + 1)) with (S (Z.to_nat n)) in * by lia.
  exact (gwx_interlaced ext ext' (Z.to_nat n) _ _ _ _ _ _ ltac:(lia) Cz So So' Ex Ex' G G').
Qed.
Lemma jacobi_sym_gw : forall t (ext : Linalg RA) n (pa pb : Param RA) (r : GaussJacobi RA), (2 <= n)%Z ->
  -1 < param_get pa -> param_get pa = param_get pb -> ~ delegated (param_get pa) (param_get pb) -> sorts ext ->
  exact_on ext (Z.to_nat n) (@jacobi_diag RA (param_get pa) (param_get pb)) (@jacobi_off_diag RA (param_get pa) (param_get pb)) ->
  jacobi_new t ext n pa pb = Ok r ->
  @golub_welsch RA ext (Z.to_nat n) (@jacobi_diag RA (param_get pa) (param_get pb)) (@jacobi_off_diag RA (param_get pa) (param_get pb)) (jacobi_mass (param_get pa) (param_get pb)) = Ok (jacobi_pairs r).
Proof.
  intros t ext n pa pb r Hn Ha Eab Nd So Ex Hr.
  destruct (jacobi_inv t ext n pa pb r Hn Nd Hr) as (ps & H1 & H2).
  assert (Hab : param_get pa + param_get pb <> -1). { intros E. apply Nd. right. left. revert E Eab. generalize (param_get pa : R) (param_get pb : R). intros u v E Eab. lra. }
  set (al := param_get pa : R) in *. set (be := param_get pb : R) in *. assert (Hb : -1 < be) by (rewrite <- Eab; exact Ha).
  destruct (jacobi_coeffs al be Ha Hb Hab) as (Ca0 & CaS & _ & _ & Cz).
  assert (L := gwx_length ext (Z.to_nat n) _ _ _ ps ltac:(lia) So Ex H1).
  destruct (Z.eqb_spec (n mod 2) 1) as [Od|Ev]; [|rewrite <- H2; exact H1].
  replace (jacobi_pairs r) with ps; [exact H1|].
  assert (Hh := odd_half n Od ltac:(lia)). assert (Hk : (Z.to_nat (n / 2) < length ps)%nat) by (rewrite L; lia).
  destruct (zero_node_rule ps (jacobi_pairs r) (Z.to_nat (n / 2)) H2 Hk) as (Lq & N & _).
  assert (Mid := gwx_middle ext (Z.to_nat n) _ _ _ ps ltac:(lia) (fun i _ => Cz i)
    ltac:(intros [|i]; [rewrite Ca0|rewrite CaS]; rewrite Eab; unfold Rdiv; ring) So Ex H1 (Z.to_nat (n / 2)) Hh).
  apply (nth_ext ps (jacobi_pairs r) (0, 0) (0, 0)); [symmetry; exact Lq|]. intros j Hj. rewrite N.
  destruct (Nat.eqb_spec j (Z.to_nat (n / 2))) as [->|]; [|reflexivity].
  assert (Mid' : fst (nth (Z.to_nat (n / 2)) ps (0, 0)) = 0) by exact (eq_trans (eq_sym (map_nth fst ps (0, 0) (Z.to_nat (n / 2)))) Mid).
  destruct (nth (Z.to_nat (n / 2)) ps (0, 0)) as [x w]. simpl in *. rewrite Mid'. reflexivity.
Qed.
Lemma jacobi_interlaced : forall t (ext ext' : Linalg RA) n (pa pb : Param RA) (r r' : GaussJacobi RA), (2 <= n)%Z ->
  -1 < param_get pa -> param_get pa = param_get pb -> ~ delegated (param_get pa) (param_get pb) -> sorts ext -> sorts ext' ->
  exact_on ext (Z.to_nat n) (@jacobi_diag RA (param_get pa) (param_get pb)) (@jacobi_off_diag RA (param_get pa) (param_get pb)) ->
  exact_on ext' (Z.to_nat (n + 1)) (@jacobi_diag RA (param_get pa) (param_get pb)) (@jacobi_off_diag RA (param_get pa) (param_get pb)) ->
  jacobi_new t ext n pa pb = Ok r -> jacobi_new t ext' (n + 1) pa pb = Ok r' -> interlaced (jacobi_pairs r) (jacobi_pairs r').
Proof.
  intros t ext ext' n pa pb r r' Hn Ha Eab Nd So So' Ex Ex' Hr Hr'.
  assert (G := jacobi_sym_gw t ext n pa pb r Hn Ha Eab Nd So Ex Hr). assert (G' := jacobi_sym_gw t ext' (n + 1) pa pb r' ltac:(lia) Ha Eab Nd So' Ex' Hr').
  assert (Hab : param_get pa + param_get pb <> -1). { intros E. apply Nd. right. left. revert E Eab. generalize (param_get pa : R) (param_get pb : R). intros u v E Eab. lra. }
  set (al := param_get pa : R) in *. set (be := param_get pb : R) in *. assert (Hb : -1 < be) by (rewrite <- Eab; exact Ha).
  destruct (jacobi_coeffs al be Ha Hb Hab) as (_ & _ & _ & _ & Cz). replace (Z.to_nat (n + 1)) with (S (Z.to_nat n)) in * by lia.
  exact (gwx_interlaced ext ext' (Z.to_nat n) _ _ _ _ _ _ ltac:(lia) Cz So So' Ex Ex' G G').
Qed.

(** ** rules whose nodes are cosines of angles *)
Lemma rev_seq_nth : forall (f : nat -> R * R) m i, (i < m)%nat -> nth i (rev (map f (seq 0 m))) (0, 0) = f (m - 1 - i)%nat.
Proof.
  intros f m i Hi. rewrite rev_nth by (rewrite map_length, seq_length; exact Hi). rewrite map_length, seq_length.
  rewrite (nth_indep _ (0, 0) (f 0%nat)) by (rewrite map_length, seq_length; lia). rewrite map_nth, seq_nth by lia. f_equal. lia.
Qed.
Lemma angles_interlaced : forall n (f g : nat -> R * R) (th th' : nat -> R),
  (forall i, (i < n)%nat -> fst (f i) = cos (th i)) -> (forall i, (i < S n)%nat -> fst (g i) = cos (th' i)) ->
  (forall i, (i < n)%nat -> 0 <= th' i /\ th' i < th i /\ th i < th' (S i) /\ th' (S i) <= PI) ->
  interlaced (rev (map f (seq 0 n))) (rev (map g (seq 0 (S n)))).
Proof.
  intros n f g th th' Hf Hg Ha. split; [rewrite !rev_length, !map_length, !seq_length; reflexivity|].
  intros i Hi. rewrite rev_length, map_length, seq_length in Hi. rewrite !rev_seq_nth by lia.
  rewrite Hf, !Hg by lia. destruct (Ha (n - 1 - i)%nat ltac:(lia)) as (A1 & A2 & A3 & A4).
  replace (S (n - 1 - i)) with (S n - 1 - i)%nat in A3, A4 by lia. replace (S n - 1 - S i)%nat with (n - 1 - i)%nat by lia.
  split; apply cos_decreasing_1; lra.
Qed.
Lemma chebyshev1_interlaced : forall t n (r r' : GaussChebyshevFirstKind RA), (1 <= n)%Z -> (n + 1 < usize_max t)%Z ->
  chebyshev1_new t n = Ok r -> chebyshev1_new t (n + 1) = Ok r' -> interlaced (chebyshev1_pairs r) (chebyshev1_pairs r').
Proof.
  intros t n r r' Hn Hu Hr Hr'. rewrite (cheb1_pairs t n r ltac:(lia) Hr), (cheb1_pairs t (n + 1) r' ltac:(lia) Hr').
  replace (Z.to_nat (n + 1)) with (S (Z.to_nat n)) by lia. set (m := Z.to_nat n).
  apply (angles_interlaced m _ _ (fun i => PI * (2 * INR (S i) - 1) / (2 * INR m)) (fun i => PI * (2 * INR (S i) - 1) / (2 * INR (S m)))); try reflexivity.
  intros i Hi. assert (P := PI_RGT_0). assert (Q := pos_INR i). apply le_INR in Hi. rewrite !S_INR in *. set (x := INR i) in *. set (k := INR m) in *.
  assert (I1 : 0 < / (2 * k)) by (apply Rinv_0_lt_compat; lra). assert (I2 : 0 < / (2 * (k + 1))) by (apply Rinv_0_lt_compat; lra).
  assert (D : forall u, u / (2 * k) - u / (2 * (k + 1)) = u * (/ (2 * k) * / (2 * (k + 1)) * 2)) by (intros; field; lra).
  assert (I3 : 0 < / (2 * k) * / (2 * (k + 1)) * 2) by (apply Rmult_lt_0_compat; [apply Rmult_lt_0_compat; assumption|lra]).
  split; [|split; [|split]].
  - apply Rmult_le_pos; [apply Rmult_le_pos; lra|lra].
  - specialize (D (PI * (2 * (x + 1) - 1))). assert (0 < PI * (2 * (x + 1) - 1) * (/ (2 * k) * / (2 * (k + 1)) * 2)) by (apply Rmult_lt_0_compat; [apply Rmult_lt_0_compat; lra|exact I3]). lra.
  - apply Rminus_gt_0_lt. replace (PI * (2 * (x + 1 + 1) - 1) / (2 * (k + 1)) - PI * (2 * (x + 1) - 1) / (2 * k)) with (PI * (2 * (k - x) - 1) * (/ (2 * k) * / (2 * (k + 1)) * 2)) by (field; lra).
    apply Rmult_lt_0_compat; [apply Rmult_lt_0_compat; lra|exact I3].
  - apply Rge_le, Rminus_ge, Rle_ge. replace (PI - PI * (2 * (x + 1 + 1) - 1) / (2 * (k + 1))) with (PI * (2 * (k - x) - 1) * / (2 * (k + 1))) by (field; lra).
    apply Rmult_le_pos; [apply Rmult_le_pos; lra|lra].
Qed.
Lemma chebyshev2_interlaced : forall t n (r r' : GaussChebyshevSecondKind RA), (1 <= n)%Z -> (n + 1 < usize_max t)%Z ->
  chebyshev2_new t n = Ok r -> chebyshev2_new t (n + 1) = Ok r' -> interlaced (chebyshev2_pairs r) (chebyshev2_pairs r').
Proof.
  intros t n r r' Hn Hu Hr Hr'. rewrite (cheb2_pairs t n r ltac:(lia) Hr), (cheb2_pairs t (n + 1) r' ltac:(lia) Hr').
  replace (Z.to_nat (n + 1)) with (S (Z.to_nat n)) by lia. set (m := Z.to_nat n).
  apply (angles_interlaced m _ _ (fun i => PI * INR (S i) * (1 / (INR m + 1))) (fun i => PI * INR (S i) * (1 / (INR (S m) + 1)))); try reflexivity.
  intros i Hi. assert (P := PI_RGT_0). assert (Q := pos_INR i). apply le_INR in Hi. rewrite !S_INR in *. set (x := INR i) in *. set (k := INR m) in *.
  assert (I2 : 0 < / (k + 1 + 1)) by (apply Rinv_0_lt_compat; lra). assert (I1 : 0 < / (k + 1)) by (apply Rinv_0_lt_compat; lra).
  assert (I3 : 0 < / (k + 1) * / (k + 1 + 1)) by (apply Rmult_lt_0_compat; assumption).
  split; [|split; [|split]].
  - unfold Rdiv. rewrite Rmult_1_l. apply Rmult_le_pos; [apply Rmult_le_pos; lra|lra].
  - apply Rminus_gt_0_lt. replace (PI * (x + 1) * (1 / (k + 1)) - PI * (x + 1) * (1 / (k + 1 + 1))) with (PI * (x + 1) * (/ (k + 1) * / (k + 1 + 1))) by (field; lra).
    apply Rmult_lt_0_compat; [apply Rmult_lt_0_compat; lra|exact I3].
  - apply Rminus_gt_0_lt. replace (PI * (x + 1 + 1) * (1 / (k + 1 + 1)) - PI * (x + 1) * (1 / (k + 1))) with (PI * (k - x) * (/ (k + 1) * / (k + 1 + 1))) by (field; lra).
    apply Rmult_lt_0_compat; [apply Rmult_lt_0_compat; lra|exact I3].
  - apply Rge_le, Rminus_ge, Rle_ge. replace (PI - PI * (x + 1 + 1) * (1 / (k + 1 + 1))) with (PI * (k - x) * / (k + 1 + 1)) by (field; lra).
    apply Rmult_le_pos; [apply Rmult_le_pos; lra|lra].
Qed.

(** ** the Legendre tables *)
Definition row_interlaced (n : nat) : bool :=
  forallb (fun i => let t := fix30 (nth (n / 2 - 1 - i) (theta_row n) d0) in
    (fix30 (nth (S n / 2 - 1 - i) (theta_row (S n)) d0) <? t)%Z &&
    (if Nat.ltb (2 * i + 2) n then (t <? fix30 (nth (S n / 2 - 1 - S i) (theta_row (S n)) d0))%Z else true)) (seq 0 (n / 2)).
Lemma rows_interlaced : forallb row_interlaced (seq 1 99) = true.
Proof. vm_compute. reflexivity. Qed.
Section Leg.
Variables (t : Target) (n : nat).
Hypothesis Hu : (100 <= usize_max t)%Z.
Hypothesis Hn : (1 <= n)%nat.
Hypothesis H99 : (n <= 99)%nat.
Hypothesis H2n : (2 * Z.of_nat (S n) <= usize_max t)%Z.
Let th (i : nat) : R := fst (@tw RA t (Z.of_nat n) i).
Let th' (i : nat) : R := fst (@tw RA t (Z.of_nat (S n)) i).
Lemma half_bounds : forall k, (2 * (k / 2) <= k < 2 * (k / 2) + 2)%nat.
Proof. intros k. pose proof (Nat.div_mod k 2 ltac:(lia)). pose proof (Nat.mod_upper_bound k 2 ltac:(lia)). lia. Qed.
Lemma low_interlaced : forall i, (2 * i + 1 < n)%nat -> th' i < th i /\ ((2 * i + 2 < n)%nat -> th i < th' (S i)).
Proof.
  intros i Hi. assert (D1 := half_bounds n). assert (D2 := half_bounds (S n)).
  destruct (theta_facts n ltac:(lia)) as (A & _). destruct (theta_facts (S n) ltac:(lia)) as (B & _).
  assert (H := proj1 (forallb_forall _ _) rows_interlaced n ltac:(apply in_seq; lia)). unfold row_interlaced in H.
  assert (Hi' := proj1 (forallb_forall _ _) H i ltac:(apply in_seq; lia)). clear H. cbv beta zeta in Hi'.
  apply andb_prop in Hi'. destruct Hi' as [C1 C2]. apply Z.ltb_lt in C1.
  assert (T : / 10 ^ 30 > 0) by (apply Rinv_0_lt_compat, ten30).
  assert (M : forall d e, exp_ok d = true -> exp_ok e = true -> (fix30 d < fix30 e)%Z -> R_lit (fst d) (snd d) < R_lit (fst e) (snd e)).
  { intros d e Ed Ee Lt. rewrite (fix30_val d Ed), (fix30_val e Ee). apply Rmult_lt_compat_r; [exact T|apply IZR_lt, Lt]. }
  unfold th, th'. rewrite (tw_table t n i) by lia. rewrite (tw_table t (S n) i) by lia. cbn [fst]. split.
  - apply M; [apply B; lia|apply A; lia|exact C1].
  - intros Hi2. destruct (Nat.ltb_spec (2 * i + 2) n); [|lia]. apply Z.ltb_lt in C2. rewrite (tw_table t (S n) (S i)) by lia. cbn [fst].
    apply M; [apply A; lia|apply B; lia|exact C2].
Qed.
Lemma legendre_angles : forall i, (i < n)%nat -> 0 <= th' i /\ th' i < th i /\ th i < th' (S i) /\ th' (S i) <= PI.
Proof.
  assert (PL := LegAsym.PI_lo). destruct (angles t (S n) Hu ltac:(lia) H2n) as [A _]. fold th' in A.
  assert (Mi := mirror t n Hu Hn ltac:(lia)). assert (Mi' := mirror t (S n) Hu ltac:(lia) H2n). fold th in Mi. fold th' in Mi'.
  assert (Lo := small_low t n Hu Hn ltac:(lia)). assert (Lo' := small_low t (S n) Hu ltac:(lia) ltac:(lia)). fold th in Lo. fold th' in Lo'.
  assert (Md := small_mid t n Hu Hn ltac:(lia)). assert (Md' := small_mid t (S n) Hu ltac:(lia) ltac:(lia)). fold th in Md. fold th' in Md'.
  intros i Hi. destruct (A i ltac:(lia)) as [[A1 _] _]. destruct (A (S i) ltac:(lia)) as [[_ A2] _].
  change (0 < th' i) in A1. change (th' (S i) < PI) in A2. split; [exact (Rlt_le _ _ A1)|]. enough (X : th' i < th i /\ th i < th' (S i)) by exact (conj (proj1 X) (conj (proj2 X) (Rlt_le _ _ A2))).
  destruct (lt_eq_lt_dec (2 * i + 1) n) as [[C|C]|C].
  - destruct (low_interlaced i C) as [L1 L2]. split; [exact L1|]. destruct (lt_eq_lt_dec (2 * i + 2) n) as [[D|D]|D]; [exact (L2 D)| |lia].
    destruct (Md' (S i) ltac:(lia)) as [E _]. destruct (Lo i C) as [F _]. rewrite E. lra.
  - destruct (Md i C) as [E _]. destruct (Lo' i ltac:(lia)) as [F _]. rewrite E. split; [lra|].
    destruct (Mi' i ltac:(lia)) as [G _]. replace (S n - 1 - i)%nat with (S i) in G by lia. rewrite G. lra.
  - set (j := (n - 1 - i)%nat). assert (Hj : (2 * j + 1 < n)%nat) by (unfold j; lia).
    destruct (Mi j Hj) as [E _]. replace (n - 1 - j)%nat with i in E by (unfold j; lia).
    destruct (Mi' j ltac:(lia)) as [G _]. replace (S n - 1 - j)%nat with (S i) in G by (unfold j; lia).
    destruct (low_interlaced j Hj) as [L1 L2]. rewrite E, G. split; [|lra].
    destruct (lt_eq_lt_dec (2 * j + 2) n) as [[D|D]|D]; [| |lia].
    + destruct (Mi' (S j) ltac:(lia)) as [G2 _]. replace (S n - 1 - S j)%nat with i in G2 by (unfold j; lia). rewrite G2. specialize (L2 D). lra.
    + assert (Ei : i = S j) by (unfold j in *; lia). destruct (Md' i ltac:(lia)) as [G2 _]. rewrite G2. destruct (Lo j Hj) as [F _]. lra.
Qed.
End Leg.
Lemma legendre_interlaced : forall t n (r r' : GaussLegendre RA), (100 <= usize_max t)%Z -> (1 <= n <= 99)%Z -> (2 * (n + 1) <= usize_max t)%Z ->
  legendre_new t n = Ok r -> legendre_new t (n + 1) = Ok r' -> interlaced (legendre_pairs r) (legendre_pairs r').
Proof.
  intros t n r r' Hu Hn H2 Hr Hr'. rewrite (legendre_list t n r Hu ltac:(lia) ltac:(lia) Hr), (legendre_list t (n + 1) r' Hu ltac:(lia) ltac:(lia) Hr').
  set (m := Z.to_nat n). assert (E1 : n = Z.of_nat m) by (unfold m; lia). replace (Z.to_nat (n + 1)) with (S m) by lia. replace (n + 1)%Z with (Z.of_nat (S m)) by lia. rewrite E1.
  apply (angles_interlaced m _ _ (fun i => fst (@tw RA t (Z.of_nat m) i)) (fun i => fst (@tw RA t (Z.of_nat (S m)) i))); try reflexivity.
  apply legendre_angles; lia.
Qed.

(** ** what interlacing means for a user who raises the degree by one *)
Lemma interlaced_new_points : forall l m, strictly_ascending m -> interlaced l m -> forall p q, In p l -> In q m -> fst p <> fst q.
Proof.
  intros l m Sm [L I] p q Hp Hq E. apply (In_nth _ _ (0, 0)) in Hp. destruct Hp as (i & Hi & <-). apply (In_nth _ _ (0, 0)) in Hq. destruct Hq as (j & Hj & <-).
  assert (B := I i Hi). assert (Mo : forall u v, (u <= v)%nat -> (v < length m)%nat -> fst (nth u m (0, 0)) <= fst (nth v m (0, 0))).
  { clear - Sm. induction Sm as [|x m Sm IH F]; intros u v Huv Hv; [simpl in Hv; lia|]. destruct u as [|u], v as [|v]; simpl in *; try lra; try lia.
    - rewrite List.Forall_forall in F. left. apply F, nth_In. lia.
    - apply IH; lia. }
  destruct (le_lt_dec j i) as [C|C].
  - assert (X := Mo j i C ltac:(lia)). lra.
  - assert (X := Mo (S i) j C Hj). lra.
Qed.
