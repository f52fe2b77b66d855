(** Error bounds of the Gauss rules that are exact in exact arithmetic. *)
From Coq Require Import Reals Lra Lia List Arith ZArith FunctionalExtensionality.
From Coquelicot Require Import Coquelicot.
From Verif Require Import Arith RInst RInstProof Machine Param Rules RSum PolySpec PolyProof GolubWelsch GWSpec EigenSpec EigenProof Spectral
  Improper ImproperExist OrthoProof Gaussian LaguerreWeight JacobiWeight WeightSpec Gamma Hermite Laguerre Legendre Chebyshev Jacobi RuleSpec
  GaussProof SizeProof GWRoots GammaProof MassSpec ErrorSpec Interp TransferSpec TransferProof GaussErr GaussExact JacobiMore ChebSpec ChebExact ChebRule.
Import ListNotations.
Local Open Scope R_scope.

Lemma conv_of : forall D : R -> Prop, (forall u v x, D u -> D v -> Rmin u v <= x <= Rmax u v -> D x) -> forall u v x, D u -> D v -> u <= x <= v -> D x.
Proof. intros D H u v x Du Dv Hx. apply (H u v); auto. rewrite Rmin_left, Rmax_right by lra. exact Hx. Qed.
Lemma le_whole : filter_prod (Rbar_locally m_infty) (Rbar_locally p_infty) (fun uv => fst uv <= snd uv).
Proof. exists (fun x => x < 0) (fun x => 0 < x); [exists 0; auto|exists 0; auto|]. intros; simpl; lra. Qed.
Lemma le_half : filter_prod (at_right 0) (Rbar_locally p_infty) (fun uv => fst uv <= snd uv).
Proof.
  exists (fun x => x < 1) (fun x => 1 < x); [|exists 1; auto|intros; simpl; lra].
  exists (mkposreal 1 Rlt_0_1). intros y Hy _. change (Rabs (y - 0) < 1) in Hy. apply Rabs_def2 in Hy. lra.
Qed.
Lemma le_unit : filter_prod (at_right (-1)) (at_left 1) (fun uv => fst uv <= snd uv).
Proof.
  exists (fun x => x < 0) (fun x => 0 < x); [| |intros; simpl; lra].
  - exists (mkposreal 1 Rlt_0_1). intros y Hy _. change (Rabs (y - -1) < 1) in Hy. apply Rabs_def2 in Hy. lra.
  - exists (mkposreal 1 Rlt_0_1). intros y Hy _. change (Rabs (y - 1) < 1) in Hy. apply Rabs_def2 in Hy. lra.
Qed.
Lemma monic_square_poly : forall a b n, polynomial (n + n) (fun x => monic a b n x * monic a b n x).
Proof. intros. apply poly_mul; apply monic_poly. Qed.
Lemma monic_nodes : forall a b n (ps : list (R * R)), (1 <= n)%nat -> NoDup (map fst ps) -> length ps = n ->
  List.Forall (fun xw : R * R => monic a b n (fst xw) = 0) ps -> forall x, rprod n (node ps) x = monic a b n x.
Proof.
  intros a b n ps Hn Nd L F x. destruct n as [|m]; [lia|]. apply (node_poly ps m); [exact Nd|exact L|apply monic_lead|].
  intros y Hy. apply in_map_iff in Hy. destruct Hy as (p & <- & Ip). rewrite Forall_forall in F. apply F, Ip.
Qed.

(** ** Hermite *)
Lemma bprod_hermite : forall n, bprod (@hermite_off_diag RA) n * bprod (@hermite_off_diag RA) n = INR (fact n) / 2 ^ n.
Proof.
  destruct hermite_coeffs as (_ & Cb & _). induction n; [simpl; field|]. cbn [bprod].
  set (b := @hermite_off_diag RA n : R). set (q := bprod (@hermite_off_diag RA) n : R) in *.
  transitivity ((b * b) * (q * q)); [unfold b, q; ring|]. rewrite IHn. unfold b. rewrite Cb.
  change (fact (S n)) with (S n * fact n)%nat. rewrite mult_INR. simpl pow. field. apply pow_nonzero. lra.
Qed.
Lemma hermite_norm : forall n, hermite_integral (fun x => monic (@hermite_diag RA) (@hermite_off_diag RA) n x * monic (@hermite_diag RA) (@hermite_off_diag RA) n x)
  (sqrt PI * INR (fact n) / 2 ^ n).
Proof.
  intros n. destruct hermite_coeffs as (Ca & Cb & Cz).
  replace (sqrt PI * INR (fact n) / 2 ^ n) with (hermite_L (fun x => monic (@hermite_diag RA) (@hermite_off_diag RA) n x * monic (@hermite_diag RA) (@hermite_off_diag RA) n x)).
  - apply (hermite_gen (n + n)). apply monic_square_poly.
  - rewrite (norms _ _ (S n) hermite_L hermite_linear) by (first [lia | intros i k Hik _; apply hermite_orth; [exact Ca|exact Cb|lia]]).
    rewrite bprod_hermite, hermite_one. field. apply pow_nonzero. lra.
Qed.
Lemma hermite_roots : forall (ext : Linalg RA) n (r : GaussHermite RA), (1 <= n)%Z -> sorts ext ->
  exact_on ext (Z.to_nat n) (@hermite_diag RA) (@hermite_off_diag RA) -> hermite_new ext n = Ok r ->
  NoDup (map fst (hermite_pairs r)) /\ length (hermite_pairs r) = Z.to_nat n /\
  forall x, rprod (Z.to_nat n) (node (hermite_pairs r)) x = monic (@hermite_diag RA) (@hermite_off_diag RA) (Z.to_nat n) x.
Proof.
  intros ext n r Hn So Ex Hr. destruct hermite_coeffs as (Ca & Cb & Cz).
  assert (HG := hermite_new_inv ext n r Hr).
  assert (L := gwx_length ext (Z.to_nat n) _ _ _ (hermite_pairs r) ltac:(lia) So Ex HG).
  assert (Nd := gwx_distinct ext (Z.to_nat n) _ _ _ ltac:(lia) (fun i _ => Cz i) So Ex (hermite_pairs r) HG).
  assert (Rt := gwx_roots ext (Z.to_nat n) _ _ _ (hermite_pairs r) ltac:(lia) (fun i _ => Cz i) So Ex HG).
  split; [exact Nd|]. split; [exact L|]. apply monic_nodes; [lia|exact Nd|exact L|].
  eapply List.Forall_impl; [|exact Rt]. intros p [H _]. exact H.
Qed.
Lemma hermite_error : forall (ext : Linalg RA) n (r : GaussHermite RA), (1 <= n)%Z -> sorts ext ->
  exact_on ext (Z.to_nat n) (@hermite_diag RA) (@hermite_off_diag RA) -> hermite_new ext n = Ok r ->
  let m := Z.to_nat n in
  forall (F : nat -> R -> R) M v, has_derivatives (fun _ => True) (2 * m) F -> (forall x, Rabs (F (2 * m)%nat x) <= M) ->
  hermite_integral (F O) v ->
  Rabs (hermite_value r (F O) - v) <= M / INR (fact (2 * m)) * (sqrt PI * INR (fact m) / 2 ^ m).
Proof.
  intros ext n r Hn So Ex Hr m F M v HF HM Hv.
  destruct (hermite_roots ext n r Hn So Ex Hr) as (Nd & L & Er). fold m in L, Er.
  assert (HV : forall f, hermite_value r f = apply_rule (hermite_pairs r) f) by (intros; unfold hermite_value; rewrite hermite_R; reflexivity).
  rewrite HV. replace v with (1 * v) by ring. rewrite <- (Rmult_1_l (sqrt PI * INR (fact m) / 2 ^ m)).
  apply (gen_error whole (Rbar_locally m_infty) (Rbar_locally p_infty) (conv_of _ whole_convex) whole_a whole_b le_whole
    gauss (hermite_pairs r) 1 m); try assumption.
  - intros x _. left. apply exp_pos.
  - lra.
  - intros x _. exact I.
  - intros p Hp. exists (hermite_value r p). split; [exact (hermite_exact ext n r Hn So Ex Hr p Hp)|rewrite HV; ring].
  - unfold m. lia.
  - intros x _. apply HM.
  - refine (eq_ind _ (fun h => is_RInt_gen h (Rbar_locally m_infty) (Rbar_locally p_infty) (sqrt PI * INR (fact m) / 2 ^ m)) (hermite_norm m) _ _).
    extensionality x. rewrite Er. reflexivity.
Qed.

(** ** Laguerre *)
Lemma bprod_laguerre : forall al n, -1 < al -> bprod (@laguerre_off_diag RA al) n * bprod (@laguerre_off_diag RA al) n = INR (fact n) * rising al n.
Proof.
  intros al n Hal. destruct (laguerre_coeffs al Hal) as (_ & Cb & _). induction n; [simpl; ring|]. cbn [bprod rising].
  set (b := @laguerre_off_diag RA al n : R). set (q := bprod (@laguerre_off_diag RA al) n : R) in *.
  transitivity ((b * b) * (q * q)); [unfold b, q; ring|]. rewrite IHn. unfold b. rewrite Cb.
  change (fact (S n)) with (S n * fact n)%nat. rewrite mult_INR. ring.
Qed.
Lemma laguerre_error : forall (ext : Linalg RA) n (al : Param RA) (r : GaussLaguerre RA) (G : R), (1 <= n)%Z -> -1 < param_get al -> sorts ext ->
  exact_on ext (Z.to_nat n) (@laguerre_diag RA (param_get al)) (@laguerre_off_diag RA (param_get al)) ->
  laguerre_new ext n al = Ok r -> is_Gamma (param_get al + 1) G ->
  let m := Z.to_nat n in
  forall (F : nat -> R -> R) M v, has_derivatives (fun x => 0 < x) (2 * m) F -> (forall x, 0 < x -> Rabs (F (2 * m)%nat x) <= M) ->
  laguerre_integral (param_get al) (F O) v ->
  Rabs (laguerre_value r (F O) - @gamma RA (param_get al + 1) / G * v) <=
    M / INR (fact (2 * m)) * (INR (fact m) * rising (param_get al) m * @gamma RA (param_get al + 1)).
Proof.
  intros ext n pa r G Hn Hal So Ex Hr HG m F M v HF HM Hv. set (al := param_get pa : R) in *.
  destruct (laguerre_coeffs al Hal) as (Ca & Cb & Cz).
  assert (HW := laguerre_new_inv ext n pa r Hr). fold al in HW.
  assert (L := gwx_length ext m _ _ _ (laguerre_pairs r) ltac:(unfold m; lia) So Ex HW).
  assert (Nd := gwx_distinct ext m _ _ _ ltac:(unfold m; lia) (fun i _ => Cz i) So Ex (laguerre_pairs r) HW).
  assert (Rt := gwx_roots ext m _ _ _ (laguerre_pairs r) ltac:(unfold m; lia) (fun i _ => Cz i) So Ex HW).
  assert (Er := monic_nodes (@laguerre_diag RA al) (@laguerre_off_diag RA al) m (laguerre_pairs r) ltac:(unfold m; lia) Nd L
     ltac:(eapply List.Forall_impl; [|exact Rt]; intros p [H _]; exact H)).
  assert (EG := gamma_mass al G Hal HG). assert (Gp : 0 < G) by (rewrite EG; apply laguerre_one_pos, Hal).
  assert (Pg := gamma_pos (al + 1) ltac:(lra)). set (g := @gamma RA (al + 1) : R) in *.
  assert (HV : forall f, laguerre_value r f = apply_rule (laguerre_pairs r) f) by (intros; unfold laguerre_value; rewrite laguerre_R; reflexivity).
  rewrite HV.
  replace (INR (fact m) * rising al m * g) with (g / G * (INR (fact m) * rising al m * G)) by (field; lra).
  apply (gen_error halfline (at_right 0) (Rbar_locally p_infty) (conv_of _ half_convex) half_a half_b le_half
    (lagw al) (laguerre_pairs r) (g / G) m); try assumption.
  - intros x _. unfold lagw. left. apply Rmult_lt_0_compat; apply exp_pos.
  - left. apply Rdiv_lt_0_compat; assumption.
  - intros x Hx. destruct (laguerre_interior ext n pa r Hn Hal So Ex Hr) as [I _]. rewrite Forall_forall in I.
    apply in_map_iff in Hx. destruct Hx as (p & <- & Ip). apply (I p Ip).
  - intros p Hp. destruct (laguerre_exact ext n pa r G Hn Hal So Ex Hr HG p Hp) as (u & Hu & E). exists u. split; [exact Hu|].
    rewrite <- HV. exact E.
  - unfold m. lia.
  - assert (HN := laguerre_gen al Hal (m + m) _ (monic_square_poly (@laguerre_diag RA al) (@laguerre_off_diag RA al) m)).
    rewrite (norms _ _ (S m) (laguerre_L al) (laguerre_linear al Hal)) in HN by (first [lia | intros i k Hik _; apply laguerre_orth; [exact Hal|exact Ca|exact Cb|lia]]).
    rewrite bprod_laguerre, <- EG in HN by exact Hal.
    refine (eq_ind _ (fun h => is_RInt_gen h (at_right 0) (Rbar_locally p_infty) (INR (fact m) * rising al m * G)) HN _ _).
    extensionality x. rewrite Er. reflexivity.
Qed.

(** ** rules on [-1,1] carried to another interval *)
Lemma pulled_derivatives : forall a b m F, a <> b -> has_derivatives (open_between a b) m F ->
  has_derivatives unit_open m (fun i x => ((b - a) / 2) ^ i * pulled a b (F i) x).
Proof.
  intros a b m F E HF i x Hi Hx. unfold pulled.
  apply (is_derive_val _ _ (((b - a) / 2) ^ i * ((b - a) / 2 * F (S i) ((b - a) / 2 * x + (a + b) / 2)))); [simpl; ring|].
  apply (is_derive_scal (fun x => F i ((b - a) / 2 * x + (a + b) / 2))).
  apply (is_derive_comp (F i) (fun x => (b - a) / 2 * x + (a + b) / 2) x).
  - apply HF; [exact Hi|]. unfold open_between, unit_open in *. unfold Rmin, Rmax. destruct (Rle_dec a b); nra.
  - auto_derive; [exact I|]. ring.
Qed.
Lemma inside_pull : forall a b x, a <> b -> unit_open x -> open_between a b ((b - a) / 2 * x + (a + b) / 2).
Proof. intros a b x E H. unfold open_between, unit_open in *. unfold Rmin, Rmax. destruct (Rle_dec a b); nra. Qed.
Lemma interval_error : forall (w : R -> R) (ps : list (R * R)) c m N, (1 <= m)%nat -> (forall x, unit_open x -> 0 <= w x) -> 0 <= c ->
  List.Forall (fun xw : R * R => -1 < fst xw < 1 /\ 0 < snd xw) ps -> NoDup (map fst ps) -> length ps = m ->
  (forall p, polynomial (2 * m - 1) p -> exists v : R, is_RInt_gen (fun x => w x * p x) (at_right (-1)) (at_left 1) v /\ apply_rule ps p = c * v) ->
  is_RInt_gen (fun x => w x * (rprod m (node ps) x * rprod m (node ps) x)) (at_right (-1)) (at_left 1) N ->
  forall a b (F : nat -> R -> R) M v, a <> b -> has_derivatives (open_between a b) (2 * m) F ->
  (forall x, open_between a b x -> Rabs (F (2 * m)%nat x) <= M) -> weighted_integral w a b (F O) v ->
  Rabs (gauss_on ps a b (F O) - c * v) <= M * (Rabs (b - a) / 2) ^ (2 * m + 1) / INR (fact (2 * m)) * (c * N).
Proof.
  intros w ps c m N Hm Hw Hc In_ Nd L Ex HN a b F M v E HF HM Hv.
  rewrite gauss_pulled. set (h := (b - a) / 2). assert (Hh : h <> 0) by (unfold h; lra).
  assert (HP := weighted_pull w a b (F O) v E Hv). fold h in HP.
  assert (B := gen_error unit_open (at_right (-1)) (at_left 1) (conv_of _ unit_convex) unit_a unit_b le_unit w ps c m Hw Hc
    ltac:(intros x Hx; rewrite Forall_forall in In_; apply in_map_iff in Hx; destruct Hx as (p & <- & Ip); apply (In_ p Ip)) Ex
    (fun i x => h ^ i * pulled a b (F i) x) (M * Rabs h ^ (2 * m)) N (v / h) Hm Nd L (pulled_derivatives a b (2 * m) F E HF)).
  assert (B1 : Rabs (apply_rule ps (fun x => h ^ 0 * pulled a b (F O) x) - c * (v / h)) <= M * Rabs h ^ (2 * m) / INR (fact (2 * m)) * (c * N)).
  { apply B.
    - intros x Hx. rewrite Rabs_mult, RPow_abs, Rmult_comm. apply Rmult_le_compat_r; [apply Rabs_pos|]. apply HM. apply inside_pull; assumption.
    - refine (eq_ind _ (fun g => is_RInt_gen g (at_right (-1)) (at_left 1) (v / h)) HP _ _). extensionality x. simpl pow. ring.
    - exact HN. }
  rewrite (apply_rule_nodes ps _ (pulled a b (F O))) in B1 by (intros; simpl pow; ring).
  replace (h * apply_rule ps (pulled a b (F O)) - c * v) with (h * (apply_rule ps (pulled a b (F O)) - c * (v / h))) by (field; exact Hh).
  rewrite Rabs_mult.
  replace (Rabs (b - a) / 2) with (Rabs h) by (unfold h, Rdiv; rewrite Rabs_mult, (Rabs_right (/ 2)) by lra; reflexivity).
  rewrite Nat.add_1_r. rewrite <- tech_pow_Rmult.
  set (q := Rabs h ^ (2 * m)) in *. set (k := INR (fact (2 * m))) in *. assert (Hk : k <> 0) by apply INR_fact_neq_0. clearbody q k.
  replace (M * (Rabs h * q) / k * (c * N)) with (Rabs h * (M * q / k * (c * N))) by (field; exact Hk).
  apply Rmult_le_compat_l; [apply Rabs_pos|exact B1].
Qed.

(** ** Jacobi *)
Lemma bprod_jacobi : forall al be n, -1 < al -> -1 < be -> al + be <> -1 ->
  bprod (@jacobi_off_diag RA al be) n * bprod (@jacobi_off_diag RA al be) n = jacobi_norm al be n.
Proof.
  intros al be n Hal Hbe Hs. destruct (jacobi_coeffs al be Hal Hbe Hs) as (_ & _ & Cb0 & CbS & _). induction n; [simpl; ring|].
  cbn [bprod jacobi_norm].
  set (b := @jacobi_off_diag RA al be n : R). set (q := bprod (@jacobi_off_diag RA al be) n : R) in *.
  transitivity ((b * b) * (q * q)); [unfold b, q; ring|]. rewrite IHn, Rmult_comm. f_equal. unfold b.
  assert (Q : forall s : R, s * s - 1 = (s + 1) * (s - 1)) by (intros; ring). rewrite Q.
  destruct n as [|n]; [rewrite Cb0; simpl INR; field; repeat split; lra|]. rewrite CbS.
  rewrite !S_INR. assert (H := pos_INR n). set (x := INR n) in *. field. repeat split; lra.
Qed.
Lemma jacobi_roots : forall t (ext : Linalg RA) n (pa pb : Param RA) (r : GaussJacobi RA), (2 <= n)%Z ->
  -1 < param_get pa -> -1 < param_get pb -> param_get pa + param_get pb <> -1 ->
  ~ delegated (param_get pa) (param_get pb) -> sorts ext ->
  exact_on ext (Z.to_nat n) (@jacobi_diag RA (param_get pa) (param_get pb)) (@jacobi_off_diag RA (param_get pa) (param_get pb)) ->
  jacobi_new t ext n pa pb = Ok r -> (n mod 2 = 0)%Z \/ param_get pa = param_get pb ->
  let m := Z.to_nat n in
  length (jacobi_pairs r) = m /\
  List.Forall (fun xw : R * R => monic (@jacobi_diag RA (param_get pa) (param_get pb)) (@jacobi_off_diag RA (param_get pa) (param_get pb)) m (fst xw) = 0) (jacobi_pairs r).
Proof.
  intros t ext n pa pb r Hn Hal Hbe Hab Nd So Ex Hr Par m.
  destruct (jacobi_inv t ext n pa pb r Hn Nd Hr) as (ps & H1 & H2).
  destruct (jacobi_coeffs _ _ Hal Hbe Hab) as (Ca0 & CaS & _ & _ & Cz).
  assert (L := gwx_length ext (Z.to_nat n) _ _ _ ps ltac:(lia) So Ex H1).
  assert (Rt := gwx_roots ext (Z.to_nat n) _ _ _ ps ltac:(lia) (fun i _ => Cz i) So Ex H1).
  assert (Q : jacobi_pairs r = ps).
  { destruct (Z.eqb_spec (n mod 2) 1) as [Od|Ev]; [|injection H2; intros <-; reflexivity].
    destruct Par as [|Eab]; [lia|].
    assert (Hh := odd_half n Od ltac:(lia)). assert (Hk : (Z.to_nat (n / 2) < length ps)%nat) by (rewrite L; lia).
    destruct (zero_node_rule ps (jacobi_pairs r) (Z.to_nat (n / 2)) H2 Hk) as (Lq & N & _). symmetry.
    assert (Mid := gwx_middle ext (Z.to_nat n) _ _ _ ps ltac:(lia) (fun i _ => Cz i)
      ltac:(intros [|i]; [rewrite Ca0|rewrite CaS]; rewrite Eab; unfold Rdiv; ring) So Ex H1 (Z.to_nat (n / 2)) Hh).
    apply (nth_ext ps (jacobi_pairs r) (0, 0) (0, 0)); [symmetry; exact Lq|]. intros j Hj. rewrite N.
    destruct (Nat.eqb_spec j (Z.to_nat (n / 2))) as [->|]; [|reflexivity].
    assert (Mid' : fst (nth (Z.to_nat (n / 2)) ps (0, 0)) = 0) by exact (eq_trans (eq_sym (map_nth fst ps (0, 0) (Z.to_nat (n / 2)))) Mid).
    destruct (nth (Z.to_nat (n / 2)) ps (0, 0)) as [x w]. simpl in *. rewrite Mid'. reflexivity. }
  rewrite Q. split; [exact L|]. eapply List.Forall_impl; [|exact Rt]. intros p [H _]. exact H.
Qed.
Lemma jacobi_error : forall t (ext : Linalg RA) n (pa pb : Param RA) (r : GaussJacobi RA), (2 <= n)%Z ->
  -1 < param_get pa -> -1 < param_get pb -> param_get pa + param_get pb <> -1 ->
  ~ delegated (param_get pa) (param_get pb) -> sorts ext ->
  exact_on ext (Z.to_nat n) (@jacobi_diag RA (param_get pa) (param_get pb)) (@jacobi_off_diag RA (param_get pa) (param_get pb)) ->
  jacobi_new t ext n pa pb = Ok r -> (n mod 2 = 0)%Z \/ param_get pa = param_get pb ->
  forall T, jacobi_integral (param_get pa) (param_get pb) (fun _ => 1) T ->
  let m := Z.to_nat n in
  forall a b (F : nat -> R -> R) M v, a <> b -> has_derivatives (open_between a b) (2 * m) F ->
  (forall x, open_between a b x -> Rabs (F (2 * m)%nat x) <= M) ->
  weighted_integral (fun x => Rpower (1 - x) (param_get pa) * Rpower (1 + x) (param_get pb)) a b (F O) v ->
  Rabs (jacobi_value r a b (F O) - jacobi_mass (param_get pa) (param_get pb) / T * v) <=
    M * (Rabs (b - a) / 2) ^ (2 * m + 1) / INR (fact (2 * m)) *
      (jacobi_norm (param_get pa) (param_get pb) m * jacobi_mass (param_get pa) (param_get pb)).
Proof.
  intros t ext n pa pb r Hn Hal Hbe Hab Nd So Ex Hr Par T HT m a b F M v E HF HM Hv.
  assert (Int := jacobi_interior t ext n pa pb r Hn Hal Hbe Hab Nd So Ex Hr). destruct Int as [Int Srt]. specialize (Srt Par).
  assert (Xt : forall p, polynomial (2 * m - 1) p -> exists v : R, jacobi_integral (param_get pa) (param_get pb) p v /\
     jacobi_value r (-1) 1 p = jacobi_mass (param_get pa) (param_get pb) / T * v).
  { intros p Hp. destruct (Z.eq_dec (n mod 2) 0) as [Ev|Od].
    - exact (jacobi_even_exact t ext n pa pb r Hn Hal Hbe Hab Nd So Ex Hr Ev T HT p Hp).
    - destruct Par as [|Eab]; [contradiction|]. assert (O := Z.mod_pos_bound n 2 ltac:(lia)).
      exact (jacobi_odd_symmetric_exact t ext n pa pb r Hn Hal Hbe Hab Nd So Ex Hr ltac:(lia) Eab T HT p Hp). }
  destruct (jacobi_roots t ext n pa pb r Hn Hal Hbe Hab Nd So Ex Hr Par) as [L Rt]. fold m in L, Rt. set (al := param_get pa : R) in *. set (be := param_get pb : R) in *.
  assert (ND := ascending_nodup (jacobi_pairs r) Srt).
  assert (Er := monic_nodes _ _ m (jacobi_pairs r) ltac:(unfold m; lia) ND L Rt).
  assert (ET : jacobi_L al be (fun _ => 1) = T) by (apply is_RInt_gen_unique; exact HT).
  assert (Tp := jacobi_one_pos al be Hal Hbe). rewrite ET in Tp.
  assert (Jp := jacobi_mass_pos al be Hal Hbe Hab). set (g := jacobi_mass al be) in *.
  unfold jacobi_value. rewrite jacobi_R.
  replace (jacobi_norm al be m * g) with (g / T * (jacobi_norm al be m * T)) by (field; lra).
  apply (interval_error (jacw al be) (jacobi_pairs r) (g / T) m (jacobi_norm al be m * T)); try assumption.
  - unfold m. lia.
  - intros x _. unfold jacw. left. apply Rmult_lt_0_compat; apply exp_pos.
  - left. apply Rdiv_lt_0_compat; assumption.
  - intros p Hp. destruct (Xt p Hp) as (u & Hu & Eu). exists u. split; [exact Hu|].
    rewrite <- Eu. unfold jacobi_value. rewrite jacobi_R, gauss_on_unit. reflexivity.
  - destruct (jacobi_coeffs al be Hal Hbe Hab) as (Ca0 & CaS & Cb0 & CbS & Cz).
    assert (HN := jacobi_gen al be Hal Hbe (m + m) _ (monic_square_poly (@jacobi_diag RA al be) (@jacobi_off_diag RA al be) m)).
    rewrite (norms _ _ (S m) (jacobi_L al be) (jacobi_linear al be Hal Hbe)) in HN by (first [lia | intros i k Hik _; apply jacobi_orth; [exact Hal|exact Hbe|exact Ca0|exact CaS|exact Cb0|exact CbS|lia]]).
    rewrite bprod_jacobi, ET in HN by assumption.
    refine (eq_ind _ (fun h => is_RInt_gen h (at_right (-1)) (at_left 1) (jacobi_norm al be m * T)) HN _ _).
    extensionality x. rewrite Er. reflexivity.
Qed.
