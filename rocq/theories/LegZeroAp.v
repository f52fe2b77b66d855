(** Legendre polynomials in fixed point: the rounding errors. *)
From Coq Require Import Reals ZArith List Lia Lra Bool Psatz.
From Coquelicot Require Import Rcomplements.
From Verif Require Import RInst LegendreData LegAsym LegTable Fix63 FixPoint LegCheck LegMom LegCheb PolySpec PolyProof EigenSpec EigenProof LegOde LegZero.
Import ListNotations.
Local Open Scope R_scope.

Lemma sq_nn : forall d, 0 <= d * d. Proof. intros d. exact (Rle_0_sqr d). Qed.
(** the Legendre polynomial with the value 1 at 1 *)
Definition lg (k : nat) (x : R) : R := monic la lb k x / monic la lb k 1.
Lemma lg_0 : forall x, lg 0 x = 1. Proof. intros x. unfold lg. simpl. field. Qed.
Lemma lg_1 : forall x, lg 1 x = x. Proof. intros x. unfold lg. simpl. unfold la. field. Qed.
Lemma lg_rec : forall k x, lg (S (S k)) x = x * lg (S k) x + (INR k + 1) / (INR k + 2) * (x * lg (S k) x - lg k x).
Proof.
  intros k x. destruct (leg_one k) as [P0 P1]. destruct (leg_one (S k)) as [Q0 Q1]. unfold lg. rewrite Q1.
  assert (E : monic la lb (S (S k)) x = x * monic la lb (S k) x - lb k * lb k * monic la lb k x).
  { change (monic la lb (S (S k)) x) with ((x - la (S k)) * monic la lb (S k) x - lb k * lb k * monic la lb k x). unfold la at 1. ring. }
  rewrite E, lb_sq, P1. rewrite !S_INR. pose proof (pos_INR k) as K.
  assert (K1 : INR k + 1 <> 0) by lra. assert (K2 : 2 * INR k + 1 <> 0) by lra. assert (K3 : 2 * (INR k + 1) + 1 <> 0) by lra. assert (K4 : INR k + 2 <> 0) by lra.
  assert (K5 : 4 * (INR k + 1) * (INR k + 1) - 1 <> 0) by nra.
  set (y := monic la lb k 1) in *. set (u := monic la lb (S k) x). set (v := monic la lb k x). clearbody y u v. set (z := INR k) in *. clearbody z.
  assert (y <> 0) by lra. field. repeat split; try lra; nra.
Qed.
Lemma lg_poly : forall k, polynomial k (lg k).
Proof. intros k. apply (poly_ext _ (fun x => / monic la lb k 1 * monic la lb k x)); [intros x; unfold lg, Rdiv; ring|]. apply poly_scal, monic_poly. Qed.
Lemma lg_form : forall x, -1 <= x <= 1 -> forall k, lg k x * lg k x - 2 * x * lg k x * lg (S k) x + lg (S k) x * lg (S k) x <= 1 - x * x.
Proof.
  intros x Hx. induction k as [|k IH]; [rewrite lg_0, lg_1; nra|]. rewrite (lg_rec k x).
  set (a := lg k x) in *. set (b := lg (S k) x) in *. set (s := (INR k + 1) / (INR k + 2)).
  assert (S0 : 0 <= s <= 1). { pose proof (pos_INR k). unfold s. split; [apply Rdiv_le_0_compat; lra|]. apply (Rmult_le_reg_r (INR k + 2)); [lra|]. unfold Rdiv. rewrite Rmult_assoc, Rinv_l by lra. lra. }
  clearbody a b s.
  replace (b * b - 2 * x * b * (x * b + s * (x * b - a)) + (x * b + s * (x * b - a)) * (x * b + s * (x * b - a))) with ((s * s) * ((x * b - a) * (x * b - a)) + (1 - x * x) * (b * b)) by ring.
  replace (a * a - 2 * x * a * b + b * b) with ((x * b - a) * (x * b - a) + (1 - x * x) * (b * b)) in IH by ring.
  assert (SS : s * s <= 1) by nra. pose proof (sq_nn (x * b - a)) as D0. assert (s * s * ((x * b - a) * (x * b - a)) <= 1 * ((x * b - a) * (x * b - a))) by (apply Rmult_le_compat_r; assumption). lra.
Qed.
Lemma lg_end : forall x, x * x = 1 -> forall k, lg k x = x ^ k /\ lg (S k) x = x ^ S k.
Proof.
  intros x Hx. induction k as [|k [A B]]; [rewrite lg_0, lg_1; split; simpl; ring|]. split; [exact B|]. rewrite lg_rec, A, B.
  replace (x * x ^ S k - x ^ k) with ((x * x - 1) * x ^ k) by (simpl; ring). rewrite Hx. simpl. ring.
Qed.
Lemma lg_bound : forall k x, -1 <= x <= 1 -> Rabs (lg k x) <= 1.
Proof.
  intros k x Hx. destruct (Req_dec (x * x) 1) as [E|E].
  - destruct (lg_end x E k) as [-> _]. rewrite <- RPow_abs. replace (Rabs x) with 1; [rewrite pow1; lra|].
    assert (D : x = 1 \/ x = -1) by nra. destruct D as [-> | ->]; [rewrite Rabs_R1; reflexivity|]. rewrite Rabs_left by lra. ring.
  - pose proof (lg_form x Hx k) as Q. set (a := lg k x) in *. set (b := lg (S k) x) in *. clearbody a b.
    replace (a * a - 2 * x * a * b + b * b) with ((x * a - b) * (x * a - b) + (1 - x * x) * (a * a)) in Q by ring.
    assert (X : 0 < 1 - x * x) by nra. pose proof (sq_nn (x * a - b)).
    apply sq_le_abs; [lra|]. apply (Rmult_le_reg_l (1 - x * x)); [exact X|]. lra.
Qed.

(** error propagation *)
Lemma leg_step_form : forall c a b s r B rr, -1 <= c <= 1 -> 0 <= s <= 1 -> 0 <= B -> Rabs r <= rr -> a * a - 2 * c * a * b + b * b <= B * B ->
  let b' := c * b + s * (c * b - a) + r in b * b - 2 * c * b * b' + b' * b' <= (B + rr) * (B + rr).
Proof.
  intros c a b s r B rr Hc Hs HB Hr Q b'.
  replace (a * a - 2 * c * a * b + b * b) with ((c * b - a) * (c * b - a) + (1 - c * c) * (b * b)) in Q by ring.
  assert (C : 0 <= 1 - c * c) by nra. pose proof (sq_nn b) as BB. assert (P0 : 0 <= (1 - c * c) * (b * b)) by (apply Rmult_le_pos; assumption).
  assert (E : b * b - 2 * c * b * b' + b' * b' = s * s * ((c * b - a) * (c * b - a)) + (1 - c * c) * (b * b) + 2 * (r * (s * (c * b - a))) + r * r) by (unfold b'; ring).
  set (d := c * b - a) in *. clearbody d. pose proof (sq_nn d) as D0. assert (Dd : Rabs d <= B) by (apply sq_le_abs; [exact HB|lra]).
  assert (S : Rabs (s * d) <= B). { rewrite Rabs_mult, (Rabs_pos_eq s) by lra. apply Rle_trans with (1 * Rabs d); [apply Rmult_le_compat_r; [apply Rabs_pos|lra]|lra]. }
  assert (P : r * (s * d) <= rr * B).
  { apply Rle_trans with (Rabs (r * (s * d))); [apply Rle_abs|]. rewrite Rabs_mult. apply Rmult_le_compat; try apply Rabs_pos; assumption. }
  assert (R2 : r * r <= rr * rr).
  { replace (r * r) with (Rabs r * Rabs r) by (rewrite <- Rabs_mult, Rabs_pos_eq; [reflexivity|apply sq_nn]). apply Rmult_le_compat; try apply Rabs_pos; assumption. }
  assert (SS : s * s * (d * d) <= 1 * (d * d)) by (apply Rmult_le_compat_r; nra).
  rewrite E. lra.
Qed.
Definition le (j : R) : R := 2000 * j + 4500 * j * (j - 1).
Lemma leg_step : forall (C X X0 R0 : Fix63.F) (c u v s J : R), 0 <= J <= 99 -> Rabs c <= 1 -> Rabs u <= 1 -> Rabs v <= 1 -> 0 <= s <= 1 ->
  ap (sz C) c 2000 -> ap (sz R0) s 1 ->
  let a := v * sc - IZR (sz X0) in let b := u * sc - IZR (sz X) in
  a * a - 2 * c * a * b + b * b <= (2000 + 9000 * J) * (2000 + 9000 * J) -> Rabs a <= le J ->
  let b' := (c * u + s * (c * u - v)) * sc - IZR (sz (fadd (fmul C X) (fmul R0 (fsub (fmul C X) X0)))) in
  b * b - 2 * c * b * b' + b' * b' <= (2000 + 9000 * (J + 1)) * (2000 + 9000 * (J + 1)) /\ Rabs b <= le (J + 1).
Proof.
  intros C X X0 R0 c u v s J HJ Hc' Hu' Hv' Hs HC HR0 a b Q L. cbv zeta. pose proof sc_pos as SP. pose proof sc_big as SH.
  assert (Hc : -1 <= c <= 1) by (split; [pose proof (abs_lower _ _ Hc'); lra|pose proof (abs_upper _ _ Hc'); lra]).
  pose proof (chebyshev_next c a b (2000 + 9000 * J) Hc ltac:(lra) Q) as B1.
  assert (B2 : Rabs b <= le (J + 1)) by (unfold le in *; lra).
  assert (JJ : 0 <= J * J <= 99 * 99) by (split; [apply Rmult_le_pos; lra|apply Rmult_le_compat; lra]).
  assert (B3 : Rabs b <= 10 ^ 8). { unfold le in B2. lra. }
  assert (A3 : Rabs a <= 10 ^ 8). { unfold le in L. lra. }
  assert (XB : Rabs (IZR (sz X)) <= 2 * sc).
  { replace (IZR (sz X)) with (u * sc - b) by (unfold b; ring). unfold Rminus. eapply Rle_trans; [apply Rabs_triang|]. rewrite Rabs_Ropp, Rabs_mult, (Rabs_pos_eq sc) by lra.
    assert (Rabs u * sc <= 1 * sc) by (apply Rmult_le_compat_r; [lra|exact Hu']). lra. }
  assert (HX : ap (sz X) u (10 ^ 8)) by exact B3. assert (HX0 : ap (sz X0) v (10 ^ 8)) by exact A3.
  assert (CU : Rabs (c * u) <= 1). { rewrite Rabs_mult. replace 1 with (1 * 1) by ring. apply Rmult_le_compat; try apply Rabs_pos; assumption. }
  assert (HM : ap (sz (fmul C X)) (c * u) (2 * 10 ^ 8)) by (apply (ap_fmul _ _ _ _ 2000 (10 ^ 8) 1 1); [exact HC|exact HX|exact Hc'|exact Hu'|lra|lra|lra|lra|lra]).
  pose proof (mul_residue C X (ap_size _ _ _ HC ltac:(lra) ltac:(lra)) (ap_size _ _ _ HX ltac:(lra) ltac:(lra))) as MR.
  generalize dependent (fmul C X). intros m HM MR.
  assert (CV : Rabs (c * u - v) <= 2) by (unfold Rminus; eapply Rle_trans; [apply Rabs_triang|rewrite Rabs_Ropp; lra]).
  pose proof (ap_fsub _ _ _ _ _ _ HM HX0 ltac:(lra) ltac:(lra)) as HD.
  assert (ED : sz (fsub m X0) = (sz m - sz X0)%Z).
  { apply sz_fsub. pose proof (ap_range _ _ _ (ap_sub _ _ _ _ _ _ HM HX0) ltac:(lra) ltac:(lra)). lia. }
  assert (Hs' : Rabs s <= 1) by (rewrite Rabs_pos_eq; lra).
  assert (HP : ap (sz (fmul R0 (fsub m X0))) (s * (c * u - v)) (10 ^ 9)) by (apply (ap_fmul _ _ _ _ 1 (2 * 10 ^ 8 + 10 ^ 8) 1 2); [exact HR0|exact HD|exact Hs'|exact CV|lra|lra|lra|lra|lra]).
  pose proof (mul_residue R0 (fsub m X0) (ap_size _ _ _ HR0 ltac:(lra) ltac:(lra)) (ap_size _ _ _ HD ltac:(lra) ltac:(lra))) as PR.
  rewrite ED in PR. assert (HDz : ap (sz m - sz X0) (c * u - v) (2 * 10 ^ 8 + 10 ^ 8)) by (rewrite <- ED; exact HD). clear HD ED.
  generalize dependent (fmul R0 (fsub m X0)). intros p HP PR.
  assert (SV : Rabs (s * (c * u - v)) <= 2). { rewrite Rabs_mult. apply Rle_trans with (1 * 2); [apply Rmult_le_compat; try apply Rabs_pos; assumption|lra]. }
  assert (E2 : sz (fadd m p) = (sz m + sz p)%Z).
  { apply sz_fadd. pose proof (ap_range _ _ _ (ap_add _ _ _ _ _ _ HM HP) ltac:(eapply Rle_trans; [apply Rabs_triang|lra]) ltac:(lra)). lia. }
  rewrite E2. clear E2 HM HP HX HX0.
  unfold a, b, ap in *. clear a b. generalize dependent (sz p). intros zp PR. generalize dependent (sz m). intros zm MR. generalize dependent (sz X). intros zX. generalize dependent (sz X0). intros zX0. generalize dependent (sz C). intros zC. generalize dependent (sz R0). intros zR. intros.
  set (a := v * sc - IZR zX0) in *. set (b := u * sc - IZR zX) in *.
  assert (R1 : Rabs (c * IZR zX - IZR zm) <= 4200).
  { replace (c * IZR zX - IZR zm) with (/ sc * (IZR zX * (c * sc - IZR zC)) + (IZR (zC * zX) / sc - IZR zm)) by (rewrite !mult_IZR; field; lra).
    eapply Rle_trans; [apply Rabs_triang|]. replace 4200 with (4000 + 200) by ring. apply Rplus_le_compat; [|lra].
    rewrite !Rabs_mult. rewrite Rabs_pos_eq by (left; apply Rinv_0_lt_compat; lra).
    apply Rle_trans with (/ sc * (2 * sc * 2000)); [|right; field; lra].
    apply Rmult_le_compat_l; [left; apply Rinv_0_lt_compat; lra|]. apply Rmult_le_compat; try apply Rabs_pos; assumption. }
  assert (DB : Rabs (IZR (zm - zX0)) <= 3 * sc).
  { replace (IZR (zm - zX0)) with ((c * u - v) * sc - ((c * u - v) * sc - IZR (zm - zX0))) by ring. unfold Rminus at 1. eapply Rle_trans; [apply Rabs_triang|]. rewrite Rabs_Ropp, Rabs_mult, (Rabs_pos_eq sc) by lra.
    assert (Rabs (c * u - v) * sc <= 2 * sc) by (apply Rmult_le_compat_r; [lra|exact CV]). lra. }
  assert (R2 : Rabs (s * IZR (zm - zX0) - IZR zp) <= 200).
  { replace (s * IZR (zm - zX0) - IZR zp) with (/ sc * (IZR (zm - zX0) * (s * sc - IZR zR)) + (IZR (zR * (zm - zX0)) / sc - IZR zp)) by (rewrite !mult_IZR; field; lra).
    eapply Rle_trans; [apply Rabs_triang|]. replace 200 with (3 + 197) by ring. apply Rplus_le_compat; [|lra].
    rewrite !Rabs_mult. rewrite Rabs_pos_eq by (left; apply Rinv_0_lt_compat; lra).
    apply Rle_trans with (/ sc * (3 * sc * 1)); [|right; field; lra].
    apply Rmult_le_compat_l; [left; apply Rinv_0_lt_compat; lra|]. apply Rmult_le_compat; try apply Rabs_pos; assumption. }
  set (r := (c * IZR zX - IZR zm) + s * (c * IZR zX - IZR zm) + (s * IZR (zm - zX0) - IZR zp)).
  assert (R : Rabs r <= 9000).
  { unfold r. eapply Rle_trans; [apply Rabs_triang|]. assert (Rabs (s * (c * IZR zX - IZR zm)) <= 4200).
    { rewrite Rabs_mult. apply Rle_trans with (1 * 4200); [apply Rmult_le_compat; try apply Rabs_pos; assumption|lra]. }
    pose proof (Rabs_triang (c * IZR zX - IZR zm) (s * (c * IZR zX - IZR zm))). lra. }
  pose proof (leg_step_form c a b s r (2000 + 9000 * J) 9000 Hc Hs ltac:(lra) R Q) as ST. cbv zeta in ST.
  replace ((c * u + s * (c * u - v)) * sc - IZR (zm + zp)) with (c * b + s * (c * b - a) + r).
  2:{ rewrite plus_IZR. unfold r, b, a. rewrite minus_IZR. ring. }
  split; [|exact B2]. replace (2000 + 9000 * (J + 1)) with (2000 + 9000 * J + 9000) by ring. exact ST.
Qed.
Lemma rho_ap : forall k, ap (sz (rho k)) ((INR k + 1) / (INR k + 2)) 1.
Proof.
  intros k. pose proof (pos_INR k) as K. unfold rho. apply ap_ofZ.
  - apply ap_floor; [lia|]. rewrite mult_IZR, !plus_IZR, <- INR_IZR_INZ. field. lra.
  - rewrite Rabs_pos_eq by (apply Rdiv_le_0_compat; lra). apply (Rmult_le_reg_r (INR k + 2)); [lra|]. unfold Rdiv. rewrite Rmult_assoc, Rinv_l by lra. lra.
  - lra.
Qed.
Lemma rhos_eq : rhos = map rho (seq 0 99). Proof. vm_compute. reflexivity. Qed.
Lemma firstn_seq : forall k s m, (k <= m)%nat -> firstn k (seq s m) = seq s k.
Proof. induction k as [|k IH]; intros s m H; [reflexivity|]. destruct m as [|m]; [lia|]. cbn [seq firstn]. rewrite IH by lia. reflexivity. Qed.
Definition inv (c : R) (j : nat) (p q : Fix63.F) : Prop :=
  let a := lg j c * sc - IZR (sz p) in let b := lg (S j) c * sc - IZR (sz q) in
  a * a - 2 * c * a * b + b * b <= (2000 + 9000 * INR j) * (2000 + 9000 * INR j) /\ Rabs a <= le (INR j).
Lemma legs_inv : forall c C, -1 <= c <= 1 -> ap (sz C) c 2000 -> forall m j p q, (j + m <= 99)%nat -> inv c j p q ->
  inv c (j + m) (fst (legs C (map rho (seq j m)) p q)) (snd (legs C (map rho (seq j m)) p q)).
Proof.
  intros c C Hc HC. induction m as [|m IH]; intros j p q Hj H; cbn [seq map legs]; [rewrite Nat.add_0_r; exact H|].
  cbv zeta. replace (j + S m)%nat with (S j + m)%nat by lia. apply IH; [lia|]. unfold inv in *. cbv zeta in *. destruct H as [Q L]. rewrite S_INR, lg_rec.
  assert (J : 0 <= INR j <= 99). { split; [apply pos_INR|]. replace 99 with (INR 99) by (rewrite INR_IZR_INZ; reflexivity). apply le_INR. lia. }
  pose proof (rho_ap j) as RA. assert (S0 : 0 <= (INR j + 1) / (INR j + 2) <= 1).
  { split; [apply Rdiv_le_0_compat; lra|]. apply (Rmult_le_reg_r (INR j + 2)); [lra|]. unfold Rdiv. rewrite Rmult_assoc, Rinv_l by lra. lra. }
  apply leg_step; try assumption; try (apply lg_bound; exact Hc). apply Rabs_le. lra.
Qed.
Lemma ev_ap : forall n c C, (1 <= n <= 100)%nat -> -1 <= c <= 1 -> ap (sz C) c 2000 ->
  ap (sz (fst (ev n C))) (lg (n - 1) c) (5 * 10 ^ 7) /\ ap (sz (snd (ev n C))) (lg n c) (5 * 10 ^ 7).
Proof.
  intros n c C Hn Hc HC. unfold ev. rewrite rhos_eq, firstn_map, firstn_seq by lia.
  assert (I0 : inv c 0 fone C).
  { unfold inv. cbv zeta. rewrite lg_0, lg_1, sz_fone. change (INR 0) with 0. replace (1 * sc - sc) with 0 by ring. rewrite Rabs_R0. unfold ap in HC. split; [|unfold le; lra].
    set (b := c * sc - IZR (sz C)) in *. assert (b * b <= 2000 * 2000).
    { replace (b * b) with (Rabs b * Rabs b) by (rewrite <- Rabs_mult, Rabs_pos_eq; [reflexivity|apply sq_nn]). apply Rmult_le_compat; try apply Rabs_pos; assumption. }
    nra. }
  pose proof (legs_inv c C Hc HC (n - 1) 0 fone C ltac:(lia) I0) as H. change (0 + (n - 1))%nat with (n - 1)%nat in H.
  generalize dependent (legs C (map rho (seq 0 (n - 1))) fone C). intros [p q] H. cbn [fst snd] in *. unfold inv in H. cbv zeta in H. replace (S (n - 1)) with n in H by lia.
  destruct H as [Q L]. assert (J : 0 <= INR (n - 1) <= 99). { split; [apply pos_INR|]. replace 99 with (INR 99) by (rewrite INR_IZR_INZ; reflexivity). apply le_INR. lia. }
  set (j := INR (n - 1)) in *. clearbody j. assert (JJ : 0 <= j * j <= 99 * 99) by (split; [apply Rmult_le_pos; lra|apply Rmult_le_compat; lra]).
  pose proof (chebyshev_next c _ _ (2000 + 9000 * j) Hc ltac:(lra) Q) as B1. unfold ap. unfold le in L. split; lra.
Qed.
