(** In double arithmetic: which points a Gauss rule calls the integrand at; examples of points
    outside of the interval. *)
From Coq Require Import Reals ZArith List Lra Lia Psatz.
From Flocq Require Import Core Mult_error Relative IEEE754.Binary IEEE754.Bits.
From Verif Require Import Arith F64 F64Spec F64Proof Machine Iter Rules NewtonCotes Chebyshev Legendre Jacobi
  IntegrateSpec IntegrateProof GaussSpec GaussProof NCSpec TraceProof RoundSpec RoundProof RoundRules RoundNC InsideSpec InsideProof.
Import ListNotations.
Local Open Scope R_scope.

Lemma abs_between : forall x y, Rabs x <= y <-> - y <= x <= y.
Proof. intros x y. split; [|apply Rabs_le]. intros H. pose proof (Rle_abs x). pose proof (Rle_abs (- x)). rewrite Rabs_Ropp in H1. lra. Qed.
(** Multiplication by a small power of 2 is exact for numbers of moderate size. *)
Lemma scale_fmt : forall k x, fmt x -> (-60 <= k)%Z -> / 2 <= Rabs x -> fmt (bpow radix2 k * x).
Proof.
  intros k x F Hk Hx. rewrite Rmult_comm. apply mult_bpow_exact_FLT; [exact F|].
  assert (H : (0 <= mag radix2 x)%Z); [|lia]. apply mag_ge_bpow. change (bpow radix2 (0 - 1)) with (/ 2). exact Hx.
Qed.
Section F.
Variable be : Backend.
Notation A := (F64 be).
Local Open Scope num_scope.
Lemma pow_double : (bpow radix2 1023 = 2 * bpow radix2 1022)%R.
Proof. change 2%R with (bpow radix2 1). rewrite <- bpow_plus. reflexivity. Qed.
Lemma between_double : forall a b x, (between (2 * a) (2 * b) x <-> between a b (/ 2 * x))%R.
Proof. intros a b x. unfold between, Rmin, Rmax. destruct (Rle_dec a b); destruct (Rle_dec (2 * a) (2 * b)); split; intros; lra. Qed.
Theorem node_inside : forall a b x : A, ffin a -> ffin b -> ffin x -> (Rabs (fval a) <= bpow radix2 1022)%R -> (Rabs (fval b) <= bpow radix2 1022)%R ->
  clear (fval a) (fval b) (fval x) -> inside a b (to_interval a b x).
Proof.
  intros a b x Ha Hb Hx Ba Bb M. unfold clear in M. pose proof pow_double as PD.
  pose proof (Rabs_pos (fval a)) as Pa. pose proof (Rabs_pos (fval b)) as Pb. pose proof (Rabs_pos (fval b - fval a)) as Pd. pose proof eta_pos as PE.
  fold eta in M. replace (bpow radix2 (-51)) with (4 * uro)%R in M by (unfold uro; change 4%R with (bpow radix2 2); rewrite <- bpow_plus; reflexivity).
  assert (U : (0 < uro <= / 9007199254740992)%R) by (rewrite uro_val; lra).
  assert (X1 : (Rabs (fval x) <= 1)%R) by nra.
  assert (D1 : (Rabs (fval b - fval a) <= Rabs (fval a) + Rabs (fval b))%R).
  { replace (fval b - fval a)%R with (fval b + - fval a)%R by ring. eapply Rle_trans; [apply Rabs_triang|]. rewrite Rabs_Ropp. lra. }
  pose proof (Rabs_triang (fval b) (fval a)) as S1.
  destruct (sub_finite be b a Hb Ha) as [Fd Ed]; [apply no_overflow_small; lra|].
  destruct (add_finite be b a Hb Ha) as [Fs Es]; [apply no_overflow_small; lra|].
  pose proof (rnd_add_err (fval b) (- fval a) (fval_format _) (generic_format_opp _ _ _ (fval_format _))) as Rd.
  change (fval b + - fval a)%R with (fval b - fval a)%R in Rd. rewrite <- Ed in Rd.
  pose proof (rnd_add_err (fval b) (fval a) (fval_format _) (fval_format _)) as Rs. rewrite <- Es in Rs.
  set (d := b [-] a) in *. set (s := b [+] a) in *. set (D := (fval b - fval a)%R) in *. set (S := (fval b + fval a)%R) in *.
  assert (Bd : (Rabs (fval d) <= bpow radix2 1023)%R).
  { rewrite Ed. rewrite <- (rnd_fmt (bpow radix2 1023)) by (apply generic_format_bpow; unfold FLT_exp; lia). rewrite rnd_abs. apply rnd_le. lra. }
  assert (Bdx : (Rabs (fval d * fval x) <= bpow radix2 1023)%R) by (rewrite Rabs_mult; pose proof (Rabs_pos (fval d)); pose proof (Rabs_pos (fval x)); nra).
  destruct (mul_finite be d x Fd Hx) as [Fp Ep]; [apply no_overflow_small; exact Bdx|].
  pose proof (rnd_err (fval d * fval x)) as Rp. rewrite <- Ep in Rp. set (p := d [*] x) in *.
  assert (ED : (Rabs (fval d) <= (1 + uro) * Rabs D)%R). { replace (fval d) with ((fval d - D) + D)%R by ring. eapply Rle_trans; [apply Rabs_triang|]. lra. }
  assert (EP : (Rabs (fval p - D * fval x) <= (2 * uro + uro * uro) * Rabs D + eta)%R).
  { replace (fval p - D * fval x)%R with ((fval p - fval d * fval x) + (fval d - D) * fval x)%R by ring. eapply Rle_trans; [apply Rabs_triang|]. rewrite Rabs_mult in *.
    pose proof (Rabs_pos (fval d)). pose proof (Rabs_pos (fval x)). pose proof (Rabs_pos (fval d - D)).
    assert (Rabs (fval d) * Rabs (fval x) <= (1 + uro) * Rabs D)%R by nra. assert (Rabs (fval d - D) * Rabs (fval x) <= uro * Rabs D)%R by nra. nra. }
  assert (ER : (Rabs ((fval p + fval s) - (D * fval x + S)) <= (1 - Rabs (fval x)) * Rabs D)%R).
  { replace ((fval p + fval s) - (D * fval x + S))%R with ((fval p - D * fval x) + (fval s - S))%R by ring. eapply Rle_trans; [apply Rabs_triang|].
    eapply Rle_trans; [|exact M]. assert (uro * Rabs S <= uro * (Rabs (fval a) + Rabs (fval b)))%R by (apply Rmult_le_compat_l; lra).
    assert ((2 * uro + uro * uro) * Rabs D <= 3 * uro * (Rabs (fval a) + Rabs (fval b)))%R by (apply Rmult_le_compat; nra). lra. }
  assert (B1 : between (2 * fval a) (2 * fval b) (fval p + fval s)%R).
  { assert (DX : (Rabs (D * fval x) = Rabs D * Rabs (fval x))%R) by apply Rabs_mult. set (v := (D * fval x)%R) in *. set (w := (fval p + fval s)%R) in *.
    apply abs_between in ER. assert (- (Rabs D * Rabs (fval x)) <= v <= Rabs D * Rabs (fval x))%R by (apply abs_between; lra).
    assert (WB : (S - Rabs D <= w <= S + Rabs D)%R) by lra. unfold between, Rmin, Rmax. unfold S, D in WB. unfold Rabs in WB.
    destruct (Rcase_abs (fval b - fval a)); destruct (Rle_dec (2 * fval a) (2 * fval b)); lra. }
  assert (F2 : forall z, fmt z -> fmt (2 * z)%R) by (intros z Hz; change 2%R with (bpow radix2 1); apply double_fmt; [lia|exact Hz]).
  pose proof (between_rnd _ _ _ (F2 _ (fval_format a)) (F2 _ (fval_format b)) B1) as B2.
  destruct (add_finite be p s Fp Fs) as [Fm Em].
  { unfold no_overflow. apply Rle_lt_trans with (bpow radix2 1023); [|apply bpow_lt; lia]. destruct (between_abs _ _ _ B2) as [H|H]; rewrite Rabs_mult, (Rabs_pos_eq 2) in H by lra; lra. }
  rewrite <- Em in B2. set (m := p [+] s) in *. apply between_double in B2. destruct half_exact as [Fh Eh].
  assert (EH : (fval (@lit_half A) * fval m = / 2 * fval m)%R) by (f_equal; exact Eh).
  destruct (mul_finite be (@lit_half A) m Fh Fm) as [Fy Ey].
  { rewrite EH. unfold no_overflow. pose proof (between_rnd _ _ _ (fval_format a) (fval_format b) B2) as B3. destruct (between_abs _ _ _ B3) as [H|H]; eapply Rle_lt_trans; try exact H; apply fval_bound. }
  unfold to_interval. fold d s p m. split; [exact Fy|]. rewrite Ey, EH. apply between_rnd; [apply fval_format|apply fval_format|exact B2].
Qed.
Lemma gauss_points : forall (a b : A) (l : list (A * A)), ffin a -> ffin b -> (Rabs (fval a) <= bpow radix2 1022)%R -> (Rabs (fval b) <= bpow radix2 1022)%R ->
  clear_nodes a b l -> Forall (inside a b) (map (to_interval a b) (map fst l)).
Proof.
  intros a b l Ha Hb Ba Bb H. apply Forall_forall. intros y Hy. apply in_map_iff in Hy. destruct Hy as (x & <- & Hx). apply in_map_iff in Hx. destruct Hx as (xw & <- & Hi).
  destruct (proj1 (Forall_forall _ _) H xw Hi) as [Fx Cx]. apply node_inside; assumption.
Qed.
Theorem gauss_float : forall (g : A -> A) (a b : A), ffin a -> ffin b -> (Rabs (fval a) <= bpow radix2 1022)%R -> (Rabs (fval b) <= bpow radix2 1022)%R ->
  (forall r : GaussLegendre A, clear_nodes a b (legendre_pairs r) -> Forall (inside a b) (snd (legendre_integrate (traced g) r a b []))) /\
  (forall r : GaussJacobi A, clear_nodes a b (jacobi_pairs r) -> Forall (inside a b) (snd (jacobi_integrate (traced g) r a b []))) /\
  (forall r : GaussChebyshevFirstKind A, clear_nodes a b (chebyshev1_pairs r) -> Forall (inside a b) (snd (chebyshev1_integrate (traced g) r a b []))) /\
  (forall r : GaussChebyshevSecondKind A, clear_nodes a b (chebyshev2_pairs r) -> Forall (inside a b) (snd (chebyshev2_integrate (traced g) r a b []))).
Proof.
  intros g a b Ha Hb Ba Bb. split; [|split; [|split]]; intros r H; rewrite ?legendre_calls, ?jacobi_calls, ?chebyshev1_calls, ?chebyshev2_calls, call_all_traced; cbn [snd]; rewrite app_nil_l; apply gauss_points; assumption.
Qed.
(** * Outside *)
Definition tiny : A := b64_of_bits 3.
Definition huge : A := b64_of_bits 9218868437227405311.
Definition neg_huge : A := b64_of_bits 18442240474082181119.
Definition zero : A := b64_of_bits 0.
Lemma tiny_fin : ffin zero /\ ffin tiny /\ ffin huge /\ ffin neg_huge. Proof. repeat split. Qed.
Lemma exists_in : forall (P : A -> bool) l, existsb P l = true -> exists x, In x l /\ P x = true.
Proof. intros P l H. apply existsb_exists in H. exact H. Qed.
Definition beyond (b x : A) : bool := nfinite x && nlt b x.
Lemma beyond_outside : forall a b x : A, ffin a -> ffin b -> (fval a <= fval b)%R -> beyond b x = true -> ~ inside a b x.
Proof.
  intros a b x Ha Hb O H [F [_ B]]. apply andb_prop in H. destruct H as [_ H]. apply (lt_finite be b x Hb F) in H. rewrite Rmax_right in B by exact O. lra.
Qed.
Lemma zero_tiny : (fval zero <= fval tiny)%R.
Proof. left. apply (lt_finite be zero tiny); [reflexivity|reflexivity|]. vm_compute. reflexivity. Qed.
Theorem tiny_midpoint : forall g : A -> A, exists x, In x (snd (midpoint_integrate (A := A) (traced g) (midpoint_new 5) zero tiny [])) /\ ~ inside zero tiny x.
Proof.
  intros g. rewrite midpoint_calls by lia. rewrite call_all_traced. cbn [snd]. rewrite app_nil_l.
  destruct (exists_in (beyond tiny) (map (fun i => zero [+] (tiny [-] zero) [/] nofZ 5 [*] (lit_half [+] nofZ i)) (ints 0 (Z.to_nat 5)))) as (x & I & B); [vm_compute; reflexivity|].
  exists x. split; [exact I|]. apply beyond_outside; [reflexivity|reflexivity|exact zero_tiny|exact B].
Qed.
Theorem tiny_trapezoid : forall g : A -> A, exists x, In x (snd (trapezoid_integrate (A := A) (traced g) (trapezoid_new 5) zero tiny [])) /\ ~ inside zero tiny x.
Proof.
  intros g. rewrite trapezoid_calls by lia. rewrite !call_all_traced. cbn [snd].
  destruct (exists_in (beyond tiny) (map (fun i => zero [+] nofZ i [*] ((tiny [-] zero) [/] nofZ 5)) (ints 1 (Z.to_nat (5 - 1))))) as (x & I & B); [vm_compute; reflexivity|].
  exists x. split; [apply in_or_app; right; exact I|]. apply beyond_outside; [reflexivity|reflexivity|exact zero_tiny|exact B].
Qed.
Theorem tiny_simpson : forall g : A -> A, exists x, In x (snd (simpson_integrate (A := A) (traced g) (simpson_new 5) zero tiny [])) /\ ~ inside zero tiny x.
Proof.
  intros g. rewrite simpson_calls by lia. rewrite !call_all_traced. cbn [snd].
  destruct (exists_in (beyond tiny) (map (fun i => zero [+] nofZ i [*] ((tiny [-] zero) [/] nofZ 5)) (ints 1 (Z.to_nat (5 - 1))))) as (x & I & B); [vm_compute; reflexivity|].
  exists x. split; [apply in_or_app; left; apply in_or_app; left; exact I|]. apply beyond_outside; [reflexivity|reflexivity|exact zero_tiny|exact B].
Qed.
(** The interval from 0 to the largest double. *)
Theorem huge_simpson : forall g : A -> A, exists x, In x (snd (simpson_integrate (A := A) (traced g) (simpson_new 2) zero huge [])) /\ ~ ffin x.
Proof.
  intros g. rewrite simpson_calls by lia. rewrite !call_all_traced. cbn [snd].
  exists (zero [+] (lit2 [*] nofZ 2 [-] lit1) [*] ((huge [-] zero) [/] nofZ 2) [/] lit2). split.
  - apply in_or_app; right. left. reflexivity.
  - unfold ffin. vm_compute. discriminate.
Qed.
Theorem huge_trapezoid : forall g : A -> A, exists x, In x (snd (trapezoid_integrate (A := A) (traced g) (trapezoid_new 2) neg_huge huge [])) /\ ~ ffin x.
Proof.
  intros g. rewrite trapezoid_calls by lia. rewrite !call_all_traced. cbn [snd].
  exists (neg_huge [+] nofZ 1 [*] ((huge [-] neg_huge) [/] nofZ 2)). split.
  - apply in_or_app; right. left. reflexivity.
  - unfold ffin. vm_compute. discriminate.
Qed.
Theorem huge_midpoint : forall g : A -> A, exists x, In x (snd (midpoint_integrate (A := A) (traced g) (midpoint_new 1) neg_huge huge [])) /\ ~ ffin x.
Proof.
  intros g. rewrite midpoint_calls by lia. rewrite !call_all_traced. cbn [snd].
  exists (neg_huge [+] ((huge [-] neg_huge) [/] nofZ 1) [*] (lit_half [+] nofZ 0)). split.
  - left. reflexivity.
  - unfold ffin. vm_compute. discriminate.
Qed.
(** 1 and the next double. *)
Definition one : A := b64_of_bits 4607182418800017408.
Definition next : A := b64_of_bits 4607182418800017409.
Lemma one_val : fval one = 1%R. Proof. unfold fval. simpl. unfold F2R. simpl. lra. Qed.
Lemma next_val : fval next = (1 + bpow radix2 (-52))%R. Proof. unfold fval. simpl. unfold F2R. simpl. lra. Qed.
Theorem narrow : forall x : A, ffin x -> (-1 <= fval x < - / 2)%R -> ffin (to_interval one next x) /\ (fval (to_interval one next x) < fval one)%R.
Proof.
  intros x Hx Bx. assert (F1 : ffin one) by reflexivity. assert (F2 : ffin next) by reflexivity. pose proof one_val as E1. pose proof next_val as E2.
  set (e := bpow radix2 (-52)) in *. assert (Pe : (0 < e < / 1000000)%R) by (split; [apply bpow_gt_0|]; unfold e; simpl; lra).
  assert (small : forall z, (Rabs z <= 4)%R -> no_overflow z). { intros z Hz. apply no_overflow_small. eapply Rle_trans; [exact Hz|]. change 4%R with (bpow radix2 2). apply bpow_le. lia. }
  destruct (sub_finite be next one F2 F1) as [Fd Ed]; [apply small; rewrite E1, E2; apply Rabs_le; lra|].
  replace (fval next - fval one)%R with e in Ed by (rewrite E1, E2; ring). rewrite rnd_fmt in Ed by (apply generic_format_bpow; unfold FLT_exp; lia).
  destruct (add_finite be next one F2 F1) as [Fs Es]; [apply small; rewrite E1, E2; apply Rabs_le; lra|].
  assert (S2 : fval (next [+] one) = 2%R).
  { refine (proj2 (conj I _)). unfold fval. vm_compute. lra. }
  destruct (mul_finite be (next [-] one) x Fd Hx) as [Fp Ep]; [apply small; rewrite Ed; apply Rabs_le; nra|]. rewrite Ed in Ep.
  assert (Gp : fmt (e * fval x)%R).
  { apply scale_fmt; [apply fval_format|lia|]. rewrite Rabs_left by lra. lra. }
  rewrite rnd_fmt in Ep by exact Gp.
  destruct (add_finite be ((next [-] one) [*] x) (next [+] one) Fp Fs) as [Fm Em]; [apply small; rewrite Ep, S2; apply Rabs_le; nra|]. rewrite Ep, S2 in Em.
  set (m := (next [-] one) [*] x [+] (next [+] one)) in *.
  assert (Gu : fmt (2 - e)%R).
  { apply generic_format_FLT. exists (Float radix2 (2 ^ 53 - 1) (-52)); [|cbn [Fnum]; change (Z.pow radix2 53) with (2 ^ 53)%Z; lia|cbn [Fexp]; lia].
    unfold F2R. cbn [Fnum Fexp]. rewrite minus_IZR. unfold e. simpl. lra. }
  assert (Bm : (fval m < 2)%R).
  { rewrite Em. pose proof (round_N_pt radix2 (FLT_exp (-1074) 53) (fun z => negb (Z.even z)) (e * fval x + 2)) as [_ H]. specialize (H (2 - e)%R Gu).
    change (round radix2 (FLT_exp (-1074) 53) (Znearest (fun z => negb (Z.even z))) (e * fval x + 2)) with (rnd (e * fval x + 2)) in H.
    rewrite (Rabs_left1 (2 - e - _)) in H by nra. apply abs_between in H. nra. }
  assert (Bm2 : (1 <= fval m)%R). { rewrite Em. rewrite <- (rnd_fmt 1); [apply rnd_le; nra|]. apply (generic_format_bpow radix2 (FLT_exp (-1074) 53) 0). unfold FLT_exp. lia. }
  destruct half_exact as [Fh Eh]. assert (EH : (fval (@lit_half A) * fval m = / 2 * fval m)%R) by (f_equal; exact Eh).
  destruct (mul_finite be (@lit_half A) m Fh Fm) as [Fy Ey]; [rewrite EH; apply small, Rabs_le; lra|]. rewrite EH in Ey.
  unfold to_interval. fold m. split; [exact Fy|]. rewrite Ey, E1.
  rewrite rnd_fmt; [lra|]. apply (scale_fmt (-1)); [apply fval_format|lia|]. rewrite Rabs_pos_eq; lra.
Qed.
Lemma narrow_points : forall (l : list (A * A)) xw, In xw l -> ffin (fst xw) -> (-1 <= fval (fst xw) < - / 2)%R ->
  exists p, In p (map (to_interval one next) (map fst l)) /\ ~ inside one next p.
Proof.
  intros l xw Hi Hf Hx. destruct (narrow (fst xw) Hf Hx) as [F L]. exists (to_interval one next (fst xw)). split; [apply in_map, in_map; exact Hi|].
  intros [_ [B _]]. rewrite Rmin_left in B; [lra|]. rewrite one_val, next_val. pose proof (bpow_gt_0 radix2 (-52)). lra.
Qed.
Theorem narrow_rules : forall g : A -> A,
  (forall (r : GaussLegendre A) xw, In xw (legendre_pairs r) -> ffin (fst xw) -> (-1 <= fval (fst xw) < - / 2)%R ->
     exists p, In p (snd (legendre_integrate (traced g) r one next [])) /\ ~ inside one next p) /\
  (forall (r : GaussJacobi A) xw, In xw (jacobi_pairs r) -> ffin (fst xw) -> (-1 <= fval (fst xw) < - / 2)%R ->
     exists p, In p (snd (jacobi_integrate (traced g) r one next [])) /\ ~ inside one next p) /\
  (forall (r : GaussChebyshevFirstKind A) xw, In xw (chebyshev1_pairs r) -> ffin (fst xw) -> (-1 <= fval (fst xw) < - / 2)%R ->
     exists p, In p (snd (chebyshev1_integrate (traced g) r one next [])) /\ ~ inside one next p) /\
  (forall (r : GaussChebyshevSecondKind A) xw, In xw (chebyshev2_pairs r) -> ffin (fst xw) -> (-1 <= fval (fst xw) < - / 2)%R ->
     exists p, In p (snd (chebyshev2_integrate (traced g) r one next [])) /\ ~ inside one next p).
Proof.
  intros g. split; [|split; [|split]]; intros r xw H; rewrite ?legendre_calls, ?jacobi_calls, ?chebyshev1_calls, ?chebyshev2_calls, call_all_traced; cbn [snd]; rewrite app_nil_l; apply narrow_points; exact H.
Qed.
End F.
Lemma float_lt : forall (be : Backend) (x y : F64 be), ffin x -> ffin y -> nlt x y = true -> fval x < fval y.
Proof. intros be x y Hx Hy H. apply (lt_finite be x y Hx Hy). exact H. Qed.
Theorem subnormal_outside : forall be : Backend, exists (n : Z) (a b : F64 be), (1 <= n)%Z /\ ffin a /\ ffin b /\ fval a < fval b /\ forall g,
  (exists x, In x (snd (midpoint_integrate (A := F64 be) (traced g) (midpoint_new n) a b [])) /\ ~ inside a b x) /\
  (exists x, In x (snd (trapezoid_integrate (A := F64 be) (traced g) (trapezoid_new n) a b [])) /\ ~ inside a b x) /\
  (exists x, In x (snd (simpson_integrate (A := F64 be) (traced g) (simpson_new n) a b [])) /\ ~ inside a b x).
Proof.
  intros be. exists 5%Z, (zero be), (tiny be). split; [lia|]. split; [reflexivity|]. split; [reflexivity|]. split; [apply float_lt; vm_compute; reflexivity|].
  intros g. split; [apply tiny_midpoint|split; [apply tiny_trapezoid|apply tiny_simpson]].
Qed.
Theorem overflow_outside : forall be : Backend, exists a z b : F64 be, ffin a /\ ffin z /\ ffin b /\ fval a < fval z < fval b /\ forall g,
  (exists x, In x (snd (midpoint_integrate (A := F64 be) (traced g) (midpoint_new 1) a b [])) /\ ~ ffin x) /\
  (exists x, In x (snd (trapezoid_integrate (A := F64 be) (traced g) (trapezoid_new 2) a b [])) /\ ~ ffin x) /\
  (exists x, In x (snd (simpson_integrate (A := F64 be) (traced g) (simpson_new 2) z b [])) /\ ~ ffin x).
Proof.
  intros be. exists (neg_huge be), (zero be), (huge be). split; [reflexivity|]. split; [reflexivity|]. split; [reflexivity|]. split; [split; apply float_lt; vm_compute; reflexivity|].
  intros g. split; [apply huge_midpoint|split; [apply huge_trapezoid|apply huge_simpson]].
Qed.
Theorem narrow_outside : forall be : Backend, exists a b : F64 be, ffin a /\ ffin b /\ fval a < fval b /\ forall g,
  (forall (r : GaussLegendre (F64 be)) xw, In xw (legendre_pairs r) -> ffin (fst xw) -> -1 <= fval (fst xw) < - / 2 ->
     exists p, In p (snd (legendre_integrate (traced g) r a b [])) /\ ~ inside a b p) /\
  (forall (r : GaussJacobi (F64 be)) xw, In xw (jacobi_pairs r) -> ffin (fst xw) -> -1 <= fval (fst xw) < - / 2 ->
     exists p, In p (snd (jacobi_integrate (traced g) r a b [])) /\ ~ inside a b p) /\
  (forall (r : GaussChebyshevFirstKind (F64 be)) xw, In xw (chebyshev1_pairs r) -> ffin (fst xw) -> -1 <= fval (fst xw) < - / 2 ->
     exists p, In p (snd (chebyshev1_integrate (traced g) r a b [])) /\ ~ inside a b p) /\
  (forall (r : GaussChebyshevSecondKind (F64 be)) xw, In xw (chebyshev2_pairs r) -> ffin (fst xw) -> -1 <= fval (fst xw) < - / 2 ->
     exists p, In p (snd (chebyshev2_integrate (traced g) r a b [])) /\ ~ inside a b p).
Proof.
  intros be. exists (one be), (next be). split; [reflexivity|]. split; [reflexivity|]. split; [apply float_lt; vm_compute; reflexivity|]. apply narrow_rules.
Qed.
