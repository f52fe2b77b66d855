(** Constructors: no panics, number of nodes. *)
From Coq Require Import ZArith List Bool Lia Permutation Sorted.
From Verif Require Import Arith Machine Param Rules Par Chebyshev GolubWelsch Hermite Laguerre
  LegendreData Legendre Jacobi GWSpec GWProof GaussProof IterProof.
Import ListNotations.
Local Open Scope Z_scope.

Lemma usize_sub_ok : forall t a b, 0 <= a - b <= usize_max t -> usize_sub t a b = Ok (a - b).
Proof.
  intros t a b H. unfold usize_sub, usize_wrap.
  replace (0 <=? a - b) with true by (symmetry; apply Z.leb_le; lia).
  replace (a - b <=? usize_max t) with true by (symmetry; apply Z.leb_le; lia). reflexivity.
Qed.
Lemma usize_add_ok : forall t a b, 0 <= a + b <= usize_max t -> usize_add t a b = Ok (a + b).
Proof.
  intros t a b H. unfold usize_add, usize_wrap.
  replace (0 <=? a + b) with true by (symmetry; apply Z.leb_le; lia).
  replace (a + b <=? usize_max t) with true by (symmetry; apply Z.leb_le; lia). reflexivity.
Qed.
Lemma usize_mul_ok : forall t a b, 0 <= a * b <= usize_max t -> usize_mul t a b = Ok (a * b).
Proof.
  intros t a b H. unfold usize_mul, usize_wrap.
  replace (0 <=? a * b) with true by (symmetry; apply Z.leb_le; lia).
  replace (a * b <=? usize_max t) with true by (symmetry; apply Z.leb_le; lia). reflexivity.
Qed.

Lemma index_ok : forall X (l : list X) i, 0 <= i < Z.of_nat (length l) -> exists x, index l i = Ok x.
Proof.
  intros X l i H. unfold index. destruct (nth_error l (Z.to_nat i)) eqn:E; [eauto|].
  apply nth_error_None in E. lia.
Qed.

(** the tables are triangular with the documented number of rows *)
Fixpoint triangular {X} (k : nat) (l : list (list X)) : bool :=
  match l with
  | [] => true
  | r :: l' => Nat.eqb (length r) k && triangular (S k) l'
  end.
Lemma triangular_spec : forall X (l : list (list X)) k i row, triangular k l = true ->
  nth_error l i = Some row -> length row = (k + i)%nat.
Proof.
  intros X l. induction l as [|r l IH]; intros k i row H E; [destruct i; discriminate|].
  simpl in H. apply andb_prop in H. destruct H as [H1 H2]. apply Nat.eqb_eq in H1.
  destruct i; simpl in E.
  - injection E; intros <-. lia.
  - rewrite (IH (S k) i row H2 E). lia.
Qed.
Lemma even_theta_tri : length EVEN_THETA_ZEROS = 50%nat /\ triangular 1 EVEN_THETA_ZEROS = true.
Proof. split; vm_compute; reflexivity. Qed.
Lemma even_weight_tri : length EVEN_WEIGHTS = 50%nat /\ triangular 1 EVEN_WEIGHTS = true.
Proof. split; vm_compute; reflexivity. Qed.
Lemma odd_theta_tri : length ODD_THETA_ZEROS = 49%nat /\ triangular 1 ODD_THETA_ZEROS = true.
Proof. split; vm_compute; reflexivity. Qed.
Lemma odd_weight_tri : length ODD_WEIGHTS = 49%nat /\ triangular 1 ODD_WEIGHTS = true.
Proof. split; vm_compute; reflexivity. Qed.
Lemma cl_length : length CL = 101%nat. Proof. vm_compute; reflexivity. Qed.
Lemma jz_length : length JZ = 20%nat. Proof. vm_compute; reflexivity. Qed.
Lemma j1_length : length J1 = 21%nat. Proof. vm_compute; reflexivity. Qed.

Section Leg.
Context {A : Arith}.
Variable t : Target.

Lemma tab_ok : forall l i, 0 <= i < Z.of_nat (length l) -> exists x, @tab A l i = Ok x.
Proof.
  intros l i H. unfold tab. destruct (index_ok _ l i H) as [d ->]. simpl. eauto.
Qed.
Lemma tab2_ok : forall (l : list (list (Z * Z))) i j, triangular 1 l = true ->
  0 <= i < Z.of_nat (length l) -> 0 <= j <= i -> exists x, @tab2 A l i j = Ok x.
Proof.
  intros l i j T Hi Hj. unfold tab2. unfold index at 1.
  destruct (nth_error l (Z.to_nat i)) as [row|] eqn:E.
  - cbn [bind]. apply tab_ok. rewrite (triangular_spec _ l 1 _ row T E). lia.
  - apply nth_error_None in E. lia.
Qed.

Lemma tabulated_ok : forall n k, 100 <= usize_max t -> 1 <= n <= 100 -> 0 <= k < n ->
  exists p, @tabulated_pair A t n k = Ok p.
Proof.
  intros n k Hu Hn Hk. unfold tabulated_pair.
  destruct even_theta_tri as [ET1 ET2], even_weight_tri as [EW1 EW2],
    odd_theta_tri as [OT1 OT2], odd_weight_tri as [OW1 OW2].
  assert (Hm : n = 2 * (n / 2) + n mod 2) by (apply Z.div_mod; lia).
  assert (Hb : 0 <= n mod 2 < 2) by (apply Z.mod_pos_bound; lia).
  destruct (Z.eqb_spec (n mod 2) 1) as [O|O].
  - rewrite usize_sub_ok by lia. cbn [bind].
    assert (H2 : (n - 1) / 2 = n / 2).
    { symmetry. apply (Z.div_unique (n - 1) 2 (n / 2) 0); lia. }
    rewrite H2. destruct (Z.compare_spec k (n / 2)) as [C|C|C].
    + destruct (tab_ok CL n) as [c ->]; [rewrite cl_length; lia|]. simpl. eauto.
    + rewrite !usize_sub_ok by lia. cbn [bind]. rewrite usize_sub_ok by lia. cbn [bind].
      destruct (tab2_ok ODD_THETA_ZEROS (n / 2 - 1) (n / 2 - k - 1) OT2) as [x ->]; [rewrite OT1; lia|lia|].
      destruct (tab2_ok ODD_WEIGHTS (n / 2 - 1) (n / 2 - k - 1) OW2) as [y ->]; [rewrite OW1; lia|lia|].
      simpl. eauto.
    + rewrite !usize_sub_ok by lia. cbn [bind]. rewrite usize_sub_ok by lia. cbn [bind].
      destruct (tab2_ok ODD_THETA_ZEROS (n / 2 - 1) (k - n / 2 - 1) OT2) as [x ->]; [rewrite OT1; lia|lia|].
      destruct (tab2_ok ODD_WEIGHTS (n / 2 - 1) (k - n / 2 - 1) OW2) as [y ->]; [rewrite OW1; lia|lia|].
      simpl. eauto.
  - destruct (Z.compare_spec k (n / 2)) as [C|C|C].
    + rewrite !usize_sub_ok by lia. cbn [bind].
      destruct (tab2_ok EVEN_THETA_ZEROS (n / 2 - 1) (k - n / 2) ET2) as [x ->]; [rewrite ET1; lia|lia|].
      destruct (tab2_ok EVEN_WEIGHTS (n / 2 - 1) (k - n / 2) EW2) as [y ->]; [rewrite EW1; lia|lia|].
      simpl. eauto.
    + rewrite !usize_sub_ok by lia. cbn [bind]. rewrite usize_sub_ok by lia. cbn [bind].
      destruct (tab2_ok EVEN_THETA_ZEROS (n / 2 - 1) (n / 2 - k - 1) ET2) as [x ->]; [rewrite ET1; lia|lia|].
      destruct (tab2_ok EVEN_WEIGHTS (n / 2 - 1) (n / 2 - k - 1) EW2) as [y ->]; [rewrite EW1; lia|lia|].
      simpl. eauto.
    + rewrite !usize_sub_ok by lia. cbn [bind].
      destruct (tab2_ok EVEN_THETA_ZEROS (n / 2 - 1) (k - n / 2) ET2) as [x ->]; [rewrite ET1; lia|lia|].
      destruct (tab2_ok EVEN_WEIGHTS (n / 2 - 1) (k - n / 2) EW2) as [y ->]; [rewrite EW1; lia|lia|].
      simpl. eauto.
Qed.

Lemma compute_ok : forall n k, 100 <= usize_max t -> 1 <= k -> exists p, @compute_pair A t n k = Ok p.
Proof.
  intros n k Hu Hk. unfold compute_pair.
  assert (E1 : exists x, @bessel_j0_zero A t k = Ok x).
  { unfold bessel_j0_zero. destruct (Z.ltb_spec 20 k); [eauto|].
    rewrite usize_sub_ok by lia. cbn [bind]. apply tab_ok. rewrite jz_length. lia. }
  assert (E2 : exists x, @bessel_j1_squared A t k = Ok x).
  { unfold bessel_j1_squared. destruct (Z.ltb_spec 21 k); [eauto|].
    rewrite usize_sub_ok by lia. cbn [bind]. apply tab_ok. rewrite j1_length. lia. }
  destruct E1 as [x ->], E2 as [y ->]. simpl. eauto.
Qed.

Lemma node_weight_ok : forall n k, 100 <= usize_max t -> 1 <= n -> 2 * n <= usize_max t -> 1 <= k <= n ->
  exists p, @node_weight_pair A t n k = Ok p.
Proof.
  intros n k Hu Hn H2n Hk. unfold node_weight_pair.
  enough (E : exists p, @theta_weight_pair A t n k = Ok p) by (destruct E as [p ->]; simpl; eauto).
  unfold theta_weight_pair. destruct (Z.leb_spec n 100).
  - rewrite usize_sub_ok by lia. cbn [bind]. apply tabulated_ok; lia.
  - rewrite usize_mul_ok by lia. cbn [bind]. rewrite usize_sub_ok by lia. cbn [bind].
    destruct (Z.ltb_spec n (2 * k - 1)).
    + rewrite usize_sub_ok by lia. cbn [bind]. rewrite usize_add_ok by lia. cbn [bind].
      destruct (compute_ok n (n - k + 1) Hu) as [p ->]; [lia|]. simpl. eauto.
    + apply compute_ok; lia.
Qed.

Lemma collect_res_ok : forall X Y (f : X -> Res Y) l, (forall x, In x l -> exists y, f x = Ok y) ->
  exists ys, collect_res f l = Ok ys /\ length ys = length l /\
  forall i x, nth_error l i = Some x -> exists y, nth_error ys i = Some y /\ f x = Ok y.
Proof.
  intros X Y f l H. induction l as [|x l IH]; simpl.
  - exists []. repeat split. intros [|i] x E; discriminate.
  - destruct (H x) as [y Hy]; [left; reflexivity|]. rewrite Hy. cbn [bind].
    destruct IH as (ys & -> & L & N); [intros; apply H; right; assumption|]. cbn [bind].
    exists (y :: ys). split; [reflexivity|]. split; [simpl; congruence|].
    intros [|i] x' E; simpl in *; [|apply N; exact E]. injection E; intros <-. eauto.
Qed.

Lemma zrange_in : forall a b z, In z (zrange a b) <-> a <= z < b.
Proof.
  intros a b z. unfold zrange. rewrite in_map_iff. split.
  - intros (i & <- & Hi). apply in_seq in Hi. lia.
  - intros H. exists (Z.to_nat (z - a)). split; [lia|]. apply in_seq. lia.
Qed.

(** every rule that fits into the address space is built *)
Lemma legendre_new_ok : forall n, 100 <= usize_max t -> 1 <= n -> 2 * n <= usize_max t ->
  exists r, @legendre_new A t n = Ok r /\ rule_degree (legendre_pairs r) = Z.to_nat n.
Proof.
  intros n Hu Hn H2n. unfold legendre_new. rewrite usize_add_ok by lia. cbn [bind].
  destruct (collect_res_ok _ _ (fun k => @node_weight_pair A t n k) (rev (zrange 1 (n + 1)))) as (ys & -> & L & _).
  - intros k Hk. apply in_rev in Hk. apply zrange_in in Hk. apply node_weight_ok; lia.
  - cbn [bind]. eexists. split; [reflexivity|]. unfold rule_degree. simpl.
    rewrite L, rev_length, zrange_length. f_equal. lia.
Qed.
Lemma chebyshev1_new_ok : forall n, 1 <= n < usize_max t ->
  exists r, @chebyshev1_new A t n = Ok r /\ rule_degree (chebyshev1_pairs r) = Z.to_nat n.
Proof.
  intros n Hn. unfold chebyshev1_new. rewrite usize_add_ok by lia. cbn [bind].
  eexists. split; [reflexivity|]. unfold rule_degree. simpl.
  rewrite map_length, rev_length, zrange_length. f_equal. lia.
Qed.
Lemma chebyshev2_new_ok : forall n, 1 <= n < usize_max t ->
  exists r, @chebyshev2_new A t n = Ok r /\ rule_degree (chebyshev2_pairs r) = Z.to_nat n.
Proof.
  intros n Hn. unfold chebyshev2_new. rewrite usize_add_ok by lia. cbn [bind].
  eexists. split; [reflexivity|]. unfold rule_degree. simpl.
  rewrite map_length, rev_length, zrange_length. f_equal. lia.
Qed.
Lemma hermite_new_ok : forall ext n, 1 <= n -> shape_preserving ext -> sorts ext ->
  exists r, @hermite_new A ext n = Ok r /\ rule_degree (hermite_pairs r) = Z.to_nat n.
Proof.
  intros ext n Hn Sh So. unfold hermite_new.
  edestruct (gw_total ext (Z.to_nat n)) as [ps E]; [lia|exact Sh|]. rewrite E. cbn [bind].
  eexists. split; [reflexivity|]. simpl. eapply gw_degree; [| | |exact E]; try assumption. lia.
Qed.
Lemma laguerre_new_ok : forall ext n alpha, 1 <= n -> shape_preserving ext -> sorts ext ->
  exists r, @laguerre_new A ext n alpha = Ok r /\ rule_degree (laguerre_pairs r) = Z.to_nat n.
Proof.
  intros ext n alpha Hn Sh So. unfold laguerre_new.
  edestruct (gw_total ext (Z.to_nat n)) as [ps E]; [lia|exact Sh|]. rewrite E. cbn [bind].
  eexists. split; [reflexivity|]. simpl. eapply gw_degree; [| | |exact E]; try assumption. lia.
Qed.
Lemma zero_node_ok : forall (ps : Pairs A) i, (i < length ps)%nat ->
  exists ps', zero_node ps i = Ok ps' /\ length ps' = length ps /\
  forall j d, nth j ps' d = if Nat.eqb j i then (lit0, snd (nth i ps d)) else nth j ps d.
Proof.
  intros ps i H. unfold zero_node. destruct (nth_error ps i) as [[x w]|] eqn:E.
  - destruct (list_set_ok _ ps i (lit0, w) (lit0, w)) as (ps' & E' & L & _); [exact H|].
    exists ps'. split; [exact E'|]. split; [exact L|]. intros j d.
    destruct (list_set_ok _ ps i (lit0, w) d H) as (ps'' & E'' & _ & N).
    rewrite E' in E''. injection E''; intros <-. rewrite N.
    rewrite (nth_error_nth _ _ d E). reflexivity.
  - apply nth_error_None in E. lia.
Qed.
Lemma jacobi_new_ok : forall ext n alpha beta, 100 <= usize_max t -> 1 <= n -> 2 * n <= usize_max t ->
  shape_preserving ext -> sorts ext ->
  exists r, @jacobi_new A t ext n alpha beta = Ok r /\ rule_degree (jacobi_pairs r) = Z.to_nat n.
Proof.
  intros ext n alpha beta Hu Hn H2n Sh So. unfold jacobi_new.
  destruct (neqb (param_get alpha) lit0 && neqb (param_get beta) lit0).
  { destruct (legendre_new_ok n) as (r & -> & L); try assumption. simpl. eauto. }
  destruct (neqb (param_get alpha) lit_neg_half && neqb (param_get beta) lit_neg_half).
  { destruct (chebyshev1_new_ok n) as (r & -> & L); [lia|]. simpl. eauto. }
  destruct (neqb (param_get alpha) lit_half && neqb (param_get beta) lit_half).
  { destruct (chebyshev2_new_ok n) as (r & -> & L); [lia|]. simpl. eauto. }
  destruct (Z.eqb_spec n 1) as [->|N1].
  { eexists. split; [reflexivity|reflexivity]. }
  edestruct (gw_total ext (Z.to_nat n)) as [ps E]; [lia|exact Sh|]. rewrite E. cbn [bind].
  assert (L : length ps = Z.to_nat n) by (eapply gw_degree; [| | |exact E]; try assumption; lia).
  destruct (n mod 2 =? 1).
  - destruct (zero_node_ok ps (Z.to_nat (n / 2))) as (ps' & -> & L' & _).
    + assert (n / 2 < n) by (apply Z.div_lt; lia). assert (0 <= n / 2) by (apply Z.div_pos; lia). lia.
    + cbn [bind]. eexists. split; [reflexivity|]. unfold rule_degree. simpl. lia.
  - cbn [bind]. eexists. split; [reflexivity|]. exact L.
Qed.
End Leg.

(** The largest degree: [degree + 1] overflows. *)
Lemma max_degree_debug : forall (A : Arith) m, 0 <= m ->
  let t := {| build_mode := Debug; usize_max := m |} in
  @legendre_new A t m = Panic /\ @chebyshev1_new A t m = Panic /\ @chebyshev2_new A t m = Panic.
Proof.
  intros A m Hm t. unfold legendre_new, chebyshev1_new, chebyshev2_new, usize_add, usize_wrap. simpl.
  replace (m + 1 <=? m) with false by (symmetry; apply Z.leb_gt; lia).
  rewrite Bool.andb_false_r. repeat split.
Qed.
Lemma max_degree_release : forall (A : Arith) m, 0 <= m ->
  let t := {| build_mode := Release; usize_max := m |} in
  (exists r, @legendre_new A t m = Ok r /\ rule_degree (legendre_pairs r) = 0%nat) /\
  (exists r, @chebyshev1_new A t m = Ok r /\ rule_degree (chebyshev1_pairs r) = 0%nat) /\
  (exists r, @chebyshev2_new A t m = Ok r /\ rule_degree (chebyshev2_pairs r) = 0%nat).
Proof.
  intros A m Hm t. unfold legendre_new, chebyshev1_new, chebyshev2_new, usize_add, usize_wrap. simpl.
  replace (m + 1 <=? m) with false by (symmetry; apply Z.leb_gt; lia).
  rewrite Bool.andb_false_r. rewrite Z_mod_same_full. cbn [bind].
  repeat split; eexists; (split; [reflexivity|reflexivity]).
Qed.

(** ** Whatever is returned has the requested number of nodes *)
Section Degree.
Context {A : Arith}.
Variable t : Target.

Lemma collect_res_length : forall X Y (f : X -> Res Y) l ys, collect_res f l = Ok ys -> length ys = length l.
Proof.
  intros X Y f l. induction l as [|x l IH]; intros ys; simpl.
  - intros H; injection H; intros <-. reflexivity.
  - destruct (f x); [|discriminate]. cbn [bind]. destruct (collect_res f l); [|discriminate]. cbn [bind].
    intros H; injection H; intros <-. simpl. rewrite (IH _ eq_refl). reflexivity.
Qed.
Lemma top_length : forall n, 1 <= n -> length (rev (zrange 1 (n + 1))) = Z.to_nat n.
Proof. intros. rewrite rev_length, zrange_length. f_equal. lia. Qed.

Lemma legendre_degree : forall n (r : GaussLegendre A), 1 <= n < usize_max t ->
  legendre_new t n = Ok r -> rule_degree (legendre_pairs r) = Z.to_nat n.
Proof.
  intros n r H. unfold legendre_new. rewrite usize_add_ok by lia. cbn [bind].
  destruct (collect_res _ _) as [ps|] eqn:E; [|discriminate]. cbn [bind].
  intros H1; injection H1; intros <-. unfold rule_degree. simpl.
  rewrite (collect_res_length _ _ _ _ _ E). apply top_length. lia.
Qed.
Lemma chebyshev1_degree : forall n (r : GaussChebyshevFirstKind A), 1 <= n < usize_max t ->
  chebyshev1_new t n = Ok r -> rule_degree (chebyshev1_pairs r) = Z.to_nat n.
Proof.
  intros n r H E. destruct (@chebyshev1_new_ok A t n H) as (r' & E' & L). congruence.
Qed.
Lemma chebyshev2_degree : forall n (r : GaussChebyshevSecondKind A), 1 <= n < usize_max t ->
  chebyshev2_new t n = Ok r -> rule_degree (chebyshev2_pairs r) = Z.to_nat n.
Proof.
  intros n r H E. destruct (@chebyshev2_new_ok A t n H) as (r' & E' & L). congruence.
Qed.
Lemma hermite_degree : forall ext n (r : GaussHermite A), 1 <= n -> shape_preserving ext -> sorts ext ->
  hermite_new ext n = Ok r -> rule_degree (hermite_pairs r) = Z.to_nat n.
Proof.
  intros ext n r H Sh So E. destruct (@hermite_new_ok A ext n H Sh So) as (r' & E' & L). congruence.
Qed.
Lemma laguerre_degree : forall ext n alpha (r : GaussLaguerre A), 1 <= n -> shape_preserving ext -> sorts ext ->
  laguerre_new ext n alpha = Ok r -> rule_degree (laguerre_pairs r) = Z.to_nat n.
Proof.
  intros ext n alpha r H Sh So E. destruct (@laguerre_new_ok A ext n alpha H Sh So) as (r' & E' & L). congruence.
Qed.
Lemma jacobi_degree : forall ext n alpha beta (r : GaussJacobi A), 1 <= n < usize_max t ->
  shape_preserving ext -> sorts ext ->
  jacobi_new t ext n alpha beta = Ok r -> rule_degree (jacobi_pairs r) = Z.to_nat n.
Proof.
  intros ext n alpha beta r Hn Sh So. unfold jacobi_new.
  destruct (neqb (param_get alpha) lit0 && neqb (param_get beta) lit0).
  { destruct (legendre_new t n) as [r'|] eqn:E; [|discriminate]. cbn [bind].
    intros H; injection H; intros <-. exact (legendre_degree n r' Hn E). }
  destruct (neqb (param_get alpha) lit_neg_half && neqb (param_get beta) lit_neg_half).
  { destruct (chebyshev1_new t n) as [r'|] eqn:E; [|discriminate]. cbn [bind].
    intros H; injection H; intros <-. exact (chebyshev1_degree n r' Hn E). }
  destruct (neqb (param_get alpha) lit_half && neqb (param_get beta) lit_half).
  { destruct (chebyshev2_new t n) as [r'|] eqn:E; [|discriminate]. cbn [bind].
    intros H; injection H; intros <-. exact (chebyshev2_degree n r' Hn E). }
  destruct (Z.eqb_spec n 1) as [->|N1].
  { intros H; injection H; intros <-. reflexivity. }
  edestruct (gw_total ext (Z.to_nat n)) as [ps E]; [lia|exact Sh|]. rewrite E. cbn [bind].
  assert (L : length ps = Z.to_nat n) by (eapply gw_degree; [| | |exact E]; try assumption; lia).
  destruct (n mod 2 =? 1).
  - destruct (zero_node_ok ps (Z.to_nat (n / 2))) as (ps' & -> & L' & _).
    + assert (n / 2 < n) by (apply Z.div_lt; lia). assert (0 <= n / 2) by (apply Z.div_pos; lia). lia.
    + cbn [bind]. intros H; injection H; intros <-. unfold rule_degree. simpl. lia.
  - cbn [bind]. intros H; injection H; intros <-. exact L.
Qed.
End Degree.

(** ** Order of the nodes *)
Section Sorted.
Context {A : Arith}.
Variables (ext : Linalg A).
Hypotheses (TP : total_preorder (@ntotal_cmp A)) (Sh : shape_preserving ext) (So : sorts ext).

Lemma hermite_sorted : forall n r, 1 <= n -> hermite_new ext n = Ok r ->
  ascending (hermite_pairs r) /\
  exists m row0 rest, companion_matrix (Z.to_nat n) hermite_diag hermite_off_diag = Ok m /\
    snd (symmetric_eigen ext m) = row0 :: rest /\
    Permutation (hermite_pairs r)
      (combine (fst (symmetric_eigen ext m)) (map (fun x => nmul (nmul x x) (nsqrt npi)) row0)).
Proof.
  intros n r Hn. unfold hermite_new. destruct (golub_welsch _ _ _ _ _) as [ps|] eqn:E; [|discriminate].
  cbn [bind]. intros H; injection H; intros <-. cbn [hermite_pairs].
  apply (gw_sorted A ext (Z.to_nat n) _ _ _ ps); try assumption. lia.
Qed.
Lemma laguerre_sorted : forall n alpha r, 1 <= n -> laguerre_new ext n alpha = Ok r ->
  ascending (laguerre_pairs r) /\
  exists m row0 rest, companion_matrix (Z.to_nat n) (laguerre_diag (param_get alpha))
      (laguerre_off_diag (param_get alpha)) = Ok m /\
    snd (symmetric_eigen ext m) = row0 :: rest /\
    Permutation (laguerre_pairs r)
      (combine (fst (symmetric_eigen ext m))
         (map (fun x => nmul (nmul x x) (Gamma.gamma (nadd (param_get alpha) lit1))) row0)).
Proof.
  intros n alpha r Hn. unfold laguerre_new. destruct (golub_welsch _ _ _ _ _) as [ps|] eqn:E; [|discriminate].
  cbn [bind]. intros H; injection H; intros <-. cbn [laguerre_pairs].
  apply (gw_sorted A ext (Z.to_nat n) _ _ _ ps); try assumption. lia.
Qed.
Lemma jacobi_even_sorted : forall t n alpha beta r, 1 <= n -> n mod 2 = 0 ->
  neqb (param_get alpha) lit0 && neqb (param_get beta) lit0 = false ->
  neqb (param_get alpha) lit_neg_half && neqb (param_get beta) lit_neg_half = false ->
  neqb (param_get alpha) lit_half && neqb (param_get beta) lit_half = false ->
  jacobi_new t ext n alpha beta = Ok r ->
  ascending (jacobi_pairs r) /\
  exists m row0 rest, companion_matrix (Z.to_nat n) (jacobi_diag (param_get alpha) (param_get beta))
      (jacobi_off_diag (param_get alpha) (param_get beta)) = Ok m /\
    snd (symmetric_eigen ext m) = row0 :: rest /\
    Permutation (jacobi_pairs r)
      (combine (fst (symmetric_eigen ext m))
         (map (fun x => nmul (nmul x x) (jacobi_scale (param_get alpha) (param_get beta))) row0)).
Proof.
  intros t n alpha beta r Hn He E1 E2 E3. unfold jacobi_new. rewrite E1, E2, E3.
  destruct (Z.eqb_spec n 1) as [->|N1]; [discriminate He|].
  destruct (golub_welsch _ _ _ _ _) as [ps|] eqn:E; [|discriminate].
  rewrite He. cbn [bind Z.eqb]. intros H; injection H; intros <-. cbn [jacobi_pairs].
  apply (gw_sorted A ext (Z.to_nat n) _ _ _ ps); try assumption. lia.
Qed.
End Sorted.
Lemma max_degree_witness : exists (m : Z) (t : Target), 0 < m /\ usize_max t = m /\ forall A : Arith,
  (exists r, @legendre_new A t m = Ok r /\ rule_degree (legendre_pairs r) = 0%nat) /\
  (exists r, @chebyshev1_new A t m = Ok r /\ rule_degree (chebyshev1_pairs r) = 0%nat) /\
  (exists r, @chebyshev2_new A t m = Ok r /\ rule_degree (chebyshev2_pairs r) = 0%nat).
Proof.
  exists (2 ^ 64 - 1), {| build_mode := Release; usize_max := 2 ^ 64 - 1 |}.
  split; [reflexivity|]. split; [reflexivity|]. intros A. apply max_degree_release. discriminate.
Qed.
Lemma max_degree_panic : exists (m : Z) (t : Target), 0 < m /\ usize_max t = m /\ forall A : Arith,
  @legendre_new A t m = Panic /\ @chebyshev1_new A t m = Panic /\ @chebyshev2_new A t m = Panic.
Proof.
  exists (2 ^ 64 - 1), {| build_mode := Debug; usize_max := 2 ^ 64 - 1 |}.
  split; [reflexivity|]. split; [reflexivity|]. intros A. apply max_degree_debug. discriminate.
Qed.
