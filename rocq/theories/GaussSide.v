(** One-sided error bounds of the Gauss rules. *)
From Coq Require Import Reals Lra Lia List Arith ZArith FunctionalExtensionality.
From Coquelicot Require Import Coquelicot.
From Verif Require Import Arith RInst RInstProof Machine Param Rules RSum PolySpec PolyProof GolubWelsch GWSpec EigenSpec EigenProof Spectral
  Improper ImproperExist OrthoProof Gaussian LaguerreWeight JacobiWeight WeightSpec Gamma Hermite Laguerre Legendre Chebyshev Jacobi RuleSpec
  GaussProof SizeProof GWRoots GammaProof MassSpec ErrorSpec Interp TransferSpec TransferProof GaussErr GaussExact JacobiMore ChebSpec ChebExact ChebRule ErrRules ErrCheb.
Import ListNotations.
Local Open Scope R_scope.

Section Mean.
Variables (D : R -> Prop).
Hypothesis conv : forall u v x, D u -> D v -> u <= x <= v -> D x.
Variables (n : nat) (r : nat -> R) (F : nat -> R -> R).
Hypothesis Hn : (1 <= n)%nat.
Hypothesis Hr : forall i j, (i < n)%nat -> (j < n)%nat -> i <> j -> r i <> r j.
Hypothesis HD : forall i, (i < n)%nat -> D (r i).
Hypothesis HF : has_derivatives D (2 * n) F.

Lemma interp_mean : exists p, polynomial (2 * n - 1) p /\ (forall i, (i < n)%nat -> p (r i) = F O (r i)) /\
  forall x, D x -> exists z, D z /\ F O x - p x = F (2 * n)%nat z / INR (fact (2 * n)) * (rprod n r x * rprod n r x).
Proof.
  destruct (hermite_interpolant n r (fun i => F O (r i)) (fun i => F 1%nat (r i)) Hr) as (p & p1 & Hp & Dp & Ep).
  exists p. split; [exact Hp|]. split; [intros i Hi; apply Ep, Hi|].
  intros x Dx.
  destruct (in_dec Req_EM_T x (map r (seq 0 n))) as [I|NI].
  - apply in_map_iff in I. destruct I as (i & <- & Ii). apply in_seq in Ii. destruct (Ep i ltac:(lia)) as [E _].
    exists (r i). split; [exact Dx|]. rewrite E, rprod_root by lia. ring.
  - assert (Wx : rprod n r x <> 0) by (apply rprod_neq; intros i Hi E; apply NI; rewrite E; apply in_map, in_seq; lia).
    set (w := rprod n r) in *.
    set (K := (F O x - p x) / (w x * w x)).
    (* derivatives of everything *)
    destruct (poly_derivatives _ p Hp) as (P & P0 & PD & _ & PZ).
    assert (Lead : polynomial (2 * n - 1) (fun y => w y * w y - y ^ S (2 * n - 1))).
    { destruct n as [|m] eqn:En; [lia|]. assert (L := rprod_lead m r). fold w in L.
      apply (poly_ext (2 * S m - 1) (fun y => (w y - y ^ S m) * (w y - y ^ S m) + 2 * (y ^ S m * (w y - y ^ S m)))).
      - intros y. replace (S (2 * S m - 1)) with (S m + S m)%nat by lia. rewrite pow_add. ring.
      - apply poly_add; [apply (poly_weaken (m + m)); [lia|apply poly_mul; assumption]|].
        apply poly_scal. apply (poly_weaken (S m + m)); [lia|]. apply poly_mul; [apply poly_pow|exact L]. }
    destruct (monic_derivatives _ _ Lead) as (W & W0 & WD & WN).
    replace (S (2 * n - 1)) with (2 * n)%nat in WN by lia.
    destruct (poly_derive_pred n w (rprod_poly n r)) as (w1 & _ & Dw).
    assert (W1 : forall y, W 1%nat y = w1 y * w y + w y * w1 y).
    { intros y. apply (is_derive_unique_R (fun y => w y * w y) y).
      - apply (is_derive_ext (W O)); [intros; apply W0|apply WD].
      - apply is_derive_mult_R; apply Dw. }
    assert (P1 : forall y, P 1%nat y = p1 y).
    { intros y. apply (is_derive_unique_R p y); [apply (is_derive_ext (P O)); [intros; apply P0|apply PD]|apply Dp]. }
    set (G := fun i y => F i y - P i y - K * W i y).
    destruct (rolle_double D conv G (map r (seq 0 n)) x) as (z & Dz & Ez).
    + rewrite map_length, seq_length. intros i y Hi Dy. unfold G.
      apply (is_derive_minus (K := R_AbsRing) (V := R_NormedModule)).
      * apply (is_derive_minus (K := R_AbsRing) (V := R_NormedModule)); [apply HF; [exact Hi|exact Dy]|apply PD].
      * apply (is_derive_scal (W i)). apply WD.
    + constructor; [exact NI|apply (seq_nodup_map n r Hn Hr)].
    + exact Dx.
    + unfold G, K. rewrite P0, W0. field. exact Wx.
    + rewrite map_length, seq_length. exact Hn.
    + apply Forall_forall. intros y Hy. apply in_map_iff in Hy. destruct Hy as (i & <- & Ii). apply in_seq in Ii.
      destruct (Ep i ltac:(lia)) as [E1 E2]. split; [apply HD; lia|]. unfold G. rewrite P0, W0, P1, W1, E1, E2.
      unfold w. rewrite rprod_root by lia. split; ring.
    + rewrite map_length, seq_length in Ez. unfold G in Ez. rewrite PZ, WN in Ez by lia.
      assert (Fp : 0 < INR (fact (2 * n))) by apply INR_fact_lt_0.
      assert (EK : K = F (2 * n)%nat z / INR (fact (2 * n))).
      { apply Rmult_eq_reg_r with (INR (fact (2 * n))); [|lra]. unfold Rdiv. rewrite Rmult_assoc, Rinv_l by lra. lra. }
      exists z. split; [exact Dz|]. rewrite <- EK. unfold K. field. exact Wx.
Qed.
End Mean.

Section Gen.
Variables (D : R -> Prop) (Fa Fb : (R -> Prop) -> Prop).
Context {PA : ProperFilter Fa} {PB : ProperFilter Fb}.
Hypothesis conv : forall u v x, D u -> D v -> u <= x <= v -> D x.
Hypothesis DA : Fa D.
Hypothesis DB : Fb D.
Hypothesis le : filter_prod Fa Fb (fun uv => fst uv <= snd uv).
Variables (w : R -> R) (ps : list (R * R)) (c : R) (n : nat).
Hypothesis w_nonneg : forall x, D x -> 0 <= w x.
Hypothesis c_nonneg : 0 <= c.
Hypothesis nodes_D : forall x, In x (map fst ps) -> D x.
Notation integral f v := (is_RInt_gen (fun x => w x * f x) Fa Fb v).
Hypothesis exactness : forall p, polynomial (2 * n - 1) p -> exists v : R, integral p v /\ apply_rule ps p = c * v.

Lemma gen_nonneg : forall (f : R -> R) (I : R), (forall x, D x -> 0 <= f x) -> integral f I -> 0 <= I.
Proof.
  intros f I H HI. eapply Rle_trans; [apply (Rabs_pos I)|].
  apply (gen_compare D Fa Fb conv DA DB le w w_nonneg f f I I); [|exact HI|exact HI].
  intros x Hx. rewrite Rabs_pos_eq by (apply H, Hx). lra.
Qed.
Lemma gen_side : forall (F : nat -> R -> R) (N v : R), (1 <= n)%nat -> NoDup (map fst ps) -> length ps = n ->
  has_derivatives D (2 * n) F -> integral (F O) v -> integral (fun x => rprod n (node ps) x * rprod n (node ps) x) N ->
  (forall L, (forall x, D x -> L <= F (2 * n)%nat x) -> apply_rule ps (F O) <= c * v - L / INR (fact (2 * n)) * (c * N)) /\
  (forall U, (forall x, D x -> F (2 * n)%nat x <= U) -> c * v - U / INR (fact (2 * n)) * (c * N) <= apply_rule ps (F O)).
Proof.
  intros F N v Hn Nd Ln HF Hv HN.
  destruct (interp_mean D conv n (node ps) F Hn) as (p & Hp & Ep & B).
  { intros i j Hi Hj Hij. apply node_inj; [exact Nd|lia..]. }
  { intros i Hi. apply nodes_D, node_in. lia. }
  { exact HF. }
  destruct (exactness p Hp) as (u & Hu & E).
  assert (Q : apply_rule ps (F O) = c * u).
  { rewrite <- E. symmetry. apply apply_rule_nodes. intros x Hx. destruct (in_node ps x Hx) as (i & Hi & <-). apply Ep. lia. }
  rewrite Q. assert (Fp : 0 < / INR (fact (2 * n))) by (apply Rinv_0_lt_compat, INR_fact_lt_0).
  set (k := / INR (fact (2 * n))) in *.
  split; intros L HL.
  - assert (G : 0 <= v - u - L * k * N).
    { apply (gen_nonneg (fun x => F O x - p x - L * k * (rprod n (node ps) x * rprod n (node ps) x))).
      - intros x Hx. destruct (B x Hx) as (z & Dz & Ez). rewrite Ez. specialize (HL z Dz). unfold Rdiv. fold k.
        assert (0 <= rprod n (node ps) x * rprod n (node ps) x) by apply Rle_0_sqr.
        set (q := rprod n (node ps) x * rprod n (node ps) x) in *. replace (F (2 * n)%nat z * k * q - L * k * q) with ((F (2 * n)%nat z - L) * (k * q)) by ring.
        apply Rmult_le_pos; [lra|]. apply Rmult_le_pos; [lra|assumption].
      - apply (gen_minus Fa Fb w (fun x => F O x - p x)); [apply gen_minus; assumption|].
        apply (gen_scal Fa Fb w (L * k) (fun x => rprod n (node ps) x * rprod n (node ps) x)). exact HN. }
    assert (0 <= c * (v - u - L * k * N)) by (apply Rmult_le_pos; assumption). unfold Rdiv. fold k. lra.
  - assert (G : 0 <= L * k * N - (v - u)).
    { apply (gen_nonneg (fun x => L * k * (rprod n (node ps) x * rprod n (node ps) x) - (F O x - p x))).
      - intros x Hx. destruct (B x Hx) as (z & Dz & Ez). rewrite Ez. specialize (HL z Dz). unfold Rdiv. fold k.
        assert (0 <= rprod n (node ps) x * rprod n (node ps) x) by apply Rle_0_sqr.
        set (q := rprod n (node ps) x * rprod n (node ps) x) in *. replace (L * k * q - F (2 * n)%nat z * k * q) with ((L - F (2 * n)%nat z) * (k * q)) by ring.
        apply Rmult_le_pos; [lra|]. apply Rmult_le_pos; [lra|assumption].
      - apply (gen_minus Fa Fb w (fun x => L * k * (rprod n (node ps) x * rprod n (node ps) x)) (fun x => F O x - p x)); [|apply gen_minus; assumption].
        apply (gen_scal Fa Fb w (L * k) (fun x => rprod n (node ps) x * rprod n (node ps) x)). exact HN. }
    assert (0 <= c * (L * k * N - (v - u))) by (apply Rmult_le_pos; assumption). unfold Rdiv. fold k. lra.
Qed.
End Gen.

Lemma interval_side : forall (w : R -> R) (ps : list (R * R)) c m N, (1 <= m)%nat -> (forall x, unit_open x -> 0 <= w x) -> 0 <= c ->
  List.Forall (fun xw : R * R => -1 < fst xw < 1) ps -> NoDup (map fst ps) -> length ps = m ->
  (forall p, polynomial (2 * m - 1) p -> exists v : R, is_RInt_gen (fun x => w x * p x) (at_right (-1)) (at_left 1) v /\ apply_rule ps p = c * v) ->
  is_RInt_gen (fun x => w x * (rprod m (node ps) x * rprod m (node ps) x)) (at_right (-1)) (at_left 1) N ->
  forall a b (F : nat -> R -> R) v, a < b -> has_derivatives (open_between a b) (2 * m) F -> weighted_integral w a b (F O) v ->
  (forall L, (forall x, open_between a b x -> L <= F (2 * m)%nat x) -> gauss_on ps a b (F O) <= c * v - L * ((b - a) / 2) ^ (2 * m + 1) / INR (fact (2 * m)) * (c * N)) /\
  (forall U, (forall x, open_between a b x -> F (2 * m)%nat x <= U) -> c * v - U * ((b - a) / 2) ^ (2 * m + 1) / INR (fact (2 * m)) * (c * N) <= gauss_on ps a b (F O)).
Proof.
  intros w ps c m N Hm Hw Hc In_ Nd Ln Ex HN a b F v E HF Hv.
  rewrite gauss_pulled. set (h := (b - a) / 2). assert (Hh : 0 < h) by (unfold h; lra).
  assert (HP := weighted_pull w a b (F O) v (Rlt_not_eq _ _ E) Hv). fold h in HP.
  assert (B := gen_side unit_open (at_right (-1)) (at_left 1) (conv_of _ unit_convex) unit_a unit_b le_unit w ps c m Hw Hc
    ltac:(intros x Hx; rewrite Forall_forall in In_; apply in_map_iff in Hx; destruct Hx as (p & <- & Ip); apply (In_ p Ip)) Ex
    (fun i x => h ^ i * pulled a b (F i) x) N (v / h) Hm Nd Ln (pulled_derivatives a b (2 * m) F (Rlt_not_eq _ _ E) HF)).
  destruct B as [B1 B2].
  { refine (eq_ind _ (fun g => is_RInt_gen g (at_right (-1)) (at_left 1) (v / h)) HP _ _). extensionality x. simpl pow. ring. }
  { exact HN. }
  assert (Q : apply_rule ps (fun x => h ^ 0 * pulled a b (F O) x) = apply_rule ps (pulled a b (F O))) by (apply apply_rule_nodes; intros; simpl pow; ring).
  rewrite Nat.add_1_r, <- tech_pow_Rmult. assert (P : 0 < h ^ (2 * m)) by (apply pow_lt, Hh).
  set (S := apply_rule ps (pulled a b (F O))) in *.
  assert (Vh : h * (c * (v / h)) = c * v) by (field; lra).
  split; intros L HL.
  - assert (K : S <= c * (v / h) - L * h ^ (2 * m) / INR (fact (2 * m)) * (c * N)).
    { rewrite <- Q. apply B1. intros x Hx. rewrite Rmult_comm. apply Rmult_le_compat_l; [lra|]. apply HL. apply inside_pull; [lra|exact Hx]. }
    apply (Rmult_le_compat_l h) in K; [|lra]. rewrite Rmult_minus_distr_l, Vh in K. eapply Rle_trans; [exact K|]. apply Req_le. unfold Rdiv. ring.
  - assert (K : c * (v / h) - L * h ^ (2 * m) / INR (fact (2 * m)) * (c * N) <= S).
    { rewrite <- Q. apply B2. intros x Hx. rewrite (Rmult_comm L). apply Rmult_le_compat_l; [lra|]. apply HL. apply inside_pull; [lra|exact Hx]. }
    apply (Rmult_le_compat_l h) in K; [|lra]. rewrite Rmult_minus_distr_l, Vh in K. eapply Rle_trans; [|exact K]. apply Req_le. unfold Rdiv. ring.
Qed.

(** ** the rules *)
Lemma hermite_side : forall (ext : Linalg RA) n (r : GaussHermite RA), (1 <= n)%Z -> sorts ext ->
  exact_on ext (Z.to_nat n) (@hermite_diag RA) (@hermite_off_diag RA) -> hermite_new ext n = Ok r ->
  let m := Z.to_nat n in
  forall (F : nat -> R -> R) v, has_derivatives (fun _ => True) (2 * m) F -> hermite_integral (F O) v ->
  (forall L, (forall x, L <= F (2 * m)%nat x) -> hermite_value r (F O) <= v - L / INR (fact (2 * m)) * (sqrt PI * INR (fact m) / 2 ^ m)) /\
  (forall U, (forall x, F (2 * m)%nat x <= U) -> v - U / INR (fact (2 * m)) * (sqrt PI * INR (fact m) / 2 ^ m) <= hermite_value r (F O)).
Proof.
  intros ext n r Hn So Ex Hr m F v HF Hv.
  destruct (hermite_roots ext n r Hn So Ex Hr) as (Nd & L & Er). fold m in L, Er.
  assert (HV : forall f, hermite_value r f = apply_rule (hermite_pairs r) f) by (intros; unfold hermite_value; rewrite hermite_R; reflexivity).
  rewrite HV. replace v with (1 * v) by ring. rewrite <- (Rmult_1_l (sqrt PI * INR (fact m) / 2 ^ m)).
  destruct (gen_side whole (Rbar_locally m_infty) (Rbar_locally p_infty) (conv_of _ whole_convex) whole_a whole_b le_whole
    gauss (hermite_pairs r) 1 m) with (F := F) (N := sqrt PI * INR (fact m) / 2 ^ m) (v := v) as [G1 G2]; try assumption.
  - intros x _. left. apply exp_pos.
  - lra.
  - intros x _. exact I.
  - intros p Hp. exists (hermite_value r p). split; [exact (hermite_exact ext n r Hn So Ex Hr p Hp)|rewrite HV; ring].
  - unfold m. lia.
  - refine (eq_ind _ (fun h => is_RInt_gen h (Rbar_locally m_infty) (Rbar_locally p_infty) (sqrt PI * INR (fact m) / 2 ^ m)) (hermite_norm m) _ _).
    extensionality x. rewrite Er. reflexivity.
  - split; intros K HK; [apply G1|apply G2]; intros x _; apply HK.
Qed.
Lemma laguerre_side : forall (ext : Linalg RA) n (al : Param RA) (r : GaussLaguerre RA) (G : R), (1 <= n)%Z -> -1 < param_get al -> sorts ext ->
  exact_on ext (Z.to_nat n) (@laguerre_diag RA (param_get al)) (@laguerre_off_diag RA (param_get al)) ->
  laguerre_new ext n al = Ok r -> is_Gamma (param_get al + 1) G ->
  let m := Z.to_nat n in
  forall (F : nat -> R -> R) v, has_derivatives (fun x => 0 < x) (2 * m) F -> laguerre_integral (param_get al) (F O) v ->
  (forall L, (forall x, 0 < x -> L <= F (2 * m)%nat x) -> laguerre_value r (F O) <= @gamma RA (param_get al + 1) / G * v - L / INR (fact (2 * m)) * (INR (fact m) * rising (param_get al) m * @gamma RA (param_get al + 1))) /\
  (forall U, (forall x, 0 < x -> F (2 * m)%nat x <= U) -> @gamma RA (param_get al + 1) / G * v - U / INR (fact (2 * m)) * (INR (fact m) * rising (param_get al) m * @gamma RA (param_get al + 1)) <= laguerre_value r (F O)).
Proof.
  intros ext n pa r G Hn Hal So Ex Hr HG m F v HF Hv. set (al := param_get pa : R) in *.
  destruct (laguerre_coeffs al Hal) as (Ca & Cb & Cz).
  assert (HW := laguerre_new_inv ext n pa r Hr). fold al in HW.
  assert (L := gwx_length ext m _ _ _ (laguerre_pairs r) ltac:(unfold m; lia) So Ex HW).
  assert (Nd := gwx_distinct ext m _ _ _ ltac:(unfold m; lia) (fun i _ => Cz i) So Ex (laguerre_pairs r) HW).
  assert (Rt := gwx_roots ext m _ _ _ (laguerre_pairs r) ltac:(unfold m; lia) (fun i _ => Cz i) So Ex HW).
  assert (Er := monic_nodes (@laguerre_diag RA al) (@laguerre_off_diag RA al) m (laguerre_pairs r) ltac:(unfold m; lia) Nd L
     ltac:(eapply List.Forall_impl; [|exact Rt]; intros p [H _]; exact H)).
  assert (EG := gamma_mass al G Hal HG). assert (Gp : 0 < G) by (rewrite EG; apply laguerre_one_pos, Hal).
  assert (Pg := gamma_pos (al + 1) ltac:(lra)). set (g := @gamma RA (al + 1) : R) in *.
  assert (HV : forall f, laguerre_value r f = apply_rule (laguerre_pairs r) f) by (intros; unfold laguerre_value; rewrite laguerre_R; reflexivity).
  rewrite HV.
  replace (INR (fact m) * rising al m * g) with (g / G * (INR (fact m) * rising al m * G)) by (field; lra).
  apply (gen_side halfline (at_right 0) (Rbar_locally p_infty) (conv_of _ half_convex) half_a half_b le_half
    (lagw al) (laguerre_pairs r) (g / G) m); try assumption.
  - intros x _. unfold lagw. left. apply Rmult_lt_0_compat; apply exp_pos.
  - left. apply Rdiv_lt_0_compat; assumption.
  - intros x Hx. destruct (laguerre_interior ext n pa r Hn Hal So Ex Hr) as [I _]. rewrite Forall_forall in I.
    apply in_map_iff in Hx. destruct Hx as (p & <- & Ip). apply (I p Ip).
  - intros p Hp. destruct (laguerre_exact ext n pa r G Hn Hal So Ex Hr HG p Hp) as (u & Hu & E). exists u. split; [exact Hu|].
    rewrite <- HV. exact E.
  - unfold m. lia.
  - assert (HN := laguerre_gen al Hal (m + m) _ (monic_square_poly (@laguerre_diag RA al) (@laguerre_off_diag RA al) m)).
    rewrite (norms _ _ (S m) (laguerre_L al) (laguerre_linear al Hal)) in HN by (first [lia | intros i k Hik _; apply laguerre_orth; [exact Hal|exact Ca|exact Cb|lia]]).
    rewrite bprod_laguerre, <- EG in HN by exact Hal.
    refine (eq_ind _ (fun h => is_RInt_gen h (at_right 0) (Rbar_locally p_infty) (INR (fact m) * rising al m * G)) HN _ _).
    extensionality x. rewrite Er. reflexivity.
Qed.
Lemma chebyshev1_side : forall t n (r : GaussChebyshevFirstKind RA), (1 <= n < usize_max t)%Z -> chebyshev1_new t n = Ok r ->
  let m := Z.to_nat n in
  forall a b (F : nat -> R -> R) v, a < b -> has_derivatives (open_between a b) (2 * m) F -> weighted_integral (fun x => / sqrt (1 - x * x)) a b (F O) v ->
  (forall L, (forall x, open_between a b x -> L <= F (2 * m)%nat x) -> chebyshev1_value r a b (F O) <= v - L * ((b - a) / 2) ^ (2 * m + 1) / INR (fact (2 * m)) * (PI / 2 ^ (2 * m - 1))) /\
  (forall U, (forall x, open_between a b x -> F (2 * m)%nat x <= U) -> v - U * ((b - a) / 2) ^ (2 * m + 1) / INR (fact (2 * m)) * (PI / 2 ^ (2 * m - 1)) <= chebyshev1_value r a b (F O)).
Proof.
  intros t n r Hn Hr m a b F v E HF Hv.
  destruct (cheb1_shape t n r Hn Hr) as (As & _ & In_ & _).
  assert (Pr := cheb1_pairs t n r Hn Hr). fold m in Pr.
  assert (Hm : (1 <= m)%nat) by (unfold m; lia). assert (Nd := ascending_nodup _ As).
  destruct (cheb1_norm t n r Hn Hr) as (L & HN). fold m in L, HN.
  unfold chebyshev1_value. rewrite chebyshev1_R. replace v with (1 * v) by ring. rewrite <- (Rmult_1_l (PI / 2 ^ (2 * m - 1))).
  apply (interval_side w1 (chebyshev1_pairs r) 1 m); try assumption.
  - intros x Hx. unfold w1. left. apply Rinv_0_lt_compat, sqrt_unit, Hx.
  - lra.
  - eapply List.Forall_impl; [|exact In_]. intros q [Hq _]. exact Hq.
  - intros p Hp. exists (L_1 p). split; [apply (wint_gen unit_open _ _ unit_convex unit_a unit_b w1 w1_cont mom1 _ p Hp)|].
    rewrite Rmult_1_l, Pr. apply cheb1_rule_L; [lia|exact Hp].
Qed.
Lemma chebyshev2_side : forall t n (r : GaussChebyshevSecondKind RA), (1 <= n < usize_max t)%Z -> chebyshev2_new t n = Ok r ->
  let m := Z.to_nat n in
  forall a b (F : nat -> R -> R) v, a < b -> has_derivatives (open_between a b) (2 * m) F -> weighted_integral (fun x => sqrt (1 - x * x)) a b (F O) v ->
  (forall L, (forall x, open_between a b x -> L <= F (2 * m)%nat x) -> chebyshev2_value r a b (F O) <= v - L * ((b - a) / 2) ^ (2 * m + 1) / INR (fact (2 * m)) * (PI / 2 ^ (2 * m + 1))) /\
  (forall U, (forall x, open_between a b x -> F (2 * m)%nat x <= U) -> v - U * ((b - a) / 2) ^ (2 * m + 1) / INR (fact (2 * m)) * (PI / 2 ^ (2 * m + 1)) <= chebyshev2_value r a b (F O)).
Proof.
  intros t n r Hn Hr m a b F v E HF Hv.
  destruct (cheb2_shape t n r Hn Hr) as (As & _ & In_ & _).
  assert (Pr := cheb2_pairs t n r Hn Hr). fold m in Pr.
  assert (Hm : (1 <= m)%nat) by (unfold m; lia). assert (Nd := ascending_nodup _ As).
  destruct (cheb2_norm t n r Hn Hr) as (L & HN). fold m in L, HN.
  unfold chebyshev2_value. rewrite chebyshev2_R. replace v with (1 * v) by ring. rewrite <- (Rmult_1_l (PI / 2 ^ (2 * m + 1))).
  apply (interval_side w2 (chebyshev2_pairs r) 1 m); try assumption.
  - intros x Hx. unfold w2. apply sqrt_pos.
  - lra.
  - eapply List.Forall_impl; [|exact In_]. intros q [Hq _]. exact Hq.
  - intros p Hp. exists (L_2 p). split; [apply (wint_gen unit_open _ _ unit_convex unit_a unit_b w2 (fun x _ => sq_cont x) mom2 _ p Hp)|].
    rewrite Rmult_1_l, Pr. apply cheb2_rule_L; [lia|exact Hp].
Qed.
Lemma jacobi_side : forall t (ext : Linalg RA) n (pa pb : Param RA) (r : GaussJacobi RA), (2 <= n)%Z ->
  -1 < param_get pa -> -1 < param_get pb -> param_get pa + param_get pb <> -1 ->
  ~ delegated (param_get pa) (param_get pb) -> sorts ext ->
  exact_on ext (Z.to_nat n) (@jacobi_diag RA (param_get pa) (param_get pb)) (@jacobi_off_diag RA (param_get pa) (param_get pb)) ->
  jacobi_new t ext n pa pb = Ok r -> (n mod 2 = 0)%Z \/ param_get pa = param_get pb ->
  forall T, jacobi_integral (param_get pa) (param_get pb) (fun _ => 1) T ->
  let m := Z.to_nat n in
  forall a b (F : nat -> R -> R) v, a < b -> has_derivatives (open_between a b) (2 * m) F ->
  weighted_integral (fun x => Rpower (1 - x) (param_get pa) * Rpower (1 + x) (param_get pb)) a b (F O) v ->
  (forall L, (forall x, open_between a b x -> L <= F (2 * m)%nat x) ->
    jacobi_value r a b (F O) <= jacobi_mass (param_get pa) (param_get pb) / T * v - L * ((b - a) / 2) ^ (2 * m + 1) / INR (fact (2 * m)) *
      (jacobi_norm (param_get pa) (param_get pb) m * jacobi_mass (param_get pa) (param_get pb))) /\
  (forall U, (forall x, open_between a b x -> F (2 * m)%nat x <= U) ->
    jacobi_mass (param_get pa) (param_get pb) / T * v - U * ((b - a) / 2) ^ (2 * m + 1) / INR (fact (2 * m)) *
      (jacobi_norm (param_get pa) (param_get pb) m * jacobi_mass (param_get pa) (param_get pb)) <= jacobi_value r a b (F O)).
Proof.
  intros t ext n pa pb r Hn Hal Hbe Hab Nd So Ex Hr Par T HT m a b F v E HF Hv.
  assert (Int := jacobi_interior t ext n pa pb r Hn Hal Hbe Hab Nd So Ex Hr). destruct Int as [Int Srt]. specialize (Srt Par).
  assert (Xt : forall p, polynomial (2 * m - 1) p -> exists v : R, jacobi_integral (param_get pa) (param_get pb) p v /\
     jacobi_value r (-1) 1 p = jacobi_mass (param_get pa) (param_get pb) / T * v).
  { intros p Hp. destruct (Z.eq_dec (n mod 2) 0) as [Ev|Od].
    - exact (jacobi_even_exact t ext n pa pb r Hn Hal Hbe Hab Nd So Ex Hr Ev T HT p Hp).
    - destruct Par as [|Eab]; [contradiction|]. assert (O := Z.mod_pos_bound n 2 ltac:(lia)).
      exact (jacobi_odd_symmetric_exact t ext n pa pb r Hn Hal Hbe Hab Nd So Ex Hr ltac:(lia) Eab T HT p Hp). }
  destruct (jacobi_roots t ext n pa pb r Hn Hal Hbe Hab Nd So Ex Hr Par) as [L Rt]. fold m in L, Rt. set (al := param_get pa : R) in *. set (be := param_get pb : R) in *.
  assert (ND := ascending_nodup (jacobi_pairs r) Srt).
  assert (Er := monic_nodes _ _ m (jacobi_pairs r) ltac:(unfold m; lia) ND L Rt).
  assert (ET : jacobi_L al be (fun _ => 1) = T) by (apply is_RInt_gen_unique; exact HT).
  assert (Tp := jacobi_one_pos al be Hal Hbe). rewrite ET in Tp.
  assert (Jp := jacobi_mass_pos al be Hal Hbe Hab). set (g := jacobi_mass al be) in *.
  unfold jacobi_value. rewrite jacobi_R.
  replace (jacobi_norm al be m * g) with (g / T * (jacobi_norm al be m * T)) by (field; lra).
  apply (interval_side (jacw al be) (jacobi_pairs r) (g / T) m (jacobi_norm al be m * T)); try assumption.
  - unfold m. lia.
  - intros x _. unfold jacw. left. apply Rmult_lt_0_compat; apply exp_pos.
  - left. apply Rdiv_lt_0_compat; assumption.
  - eapply List.Forall_impl; [|exact Int]. intros q Hq. apply Hq.
  - intros p Hp. destruct (Xt p Hp) as (u & Hu & Eu). exists u. split; [exact Hu|].
    rewrite <- Eu. unfold jacobi_value. rewrite jacobi_R, gauss_on_unit. reflexivity.
  - destruct (jacobi_coeffs al be Hal Hbe Hab) as (Ca0 & CaS & Cb0 & CbS & Cz).
    assert (HN := jacobi_gen al be Hal Hbe (m + m) _ (monic_square_poly (@jacobi_diag RA al be) (@jacobi_off_diag RA al be) m)).
    rewrite (norms _ _ (S m) (jacobi_L al be) (jacobi_linear al be Hal Hbe)) in HN by (first [lia | intros i k Hik _; apply jacobi_orth; [exact Hal|exact Hbe|exact Ca0|exact CaS|exact Cb0|exact CbS|lia]]).
    rewrite bprod_jacobi, ET in HN by assumption.
    refine (eq_ind _ (fun h => is_RInt_gen h (at_right (-1)) (at_left 1) (jacobi_norm al be m * T)) HN _ _).
    extensionality x. rewrite Er. reflexivity.
Qed.
