(** The rules on integrands of bounded variation. *)
From Coq Require Import Reals Lra Lia List Arith ZArith Sorted FunctionalExtensionality.
From Coquelicot Require Import Coquelicot.
From Verif Require Import Arith RInst RInstProof Machine Param Rules RSum PolySpec PolyProof GolubWelsch GWSpec EigenSpec EigenProof Spectral
  Improper ImproperExist OrthoProof Gaussian LaguerreWeight JacobiWeight WeightSpec Gamma Hermite Laguerre Legendre Chebyshev Jacobi RuleSpec
  GaussProof SizeProof GWRoots GammaProof MassSpec ErrorSpec Interp TransferSpec TransferProof GaussErr GaussExact JacobiMore ChebSpec ChebExact ChebRule ErrRules ErrCheb ErrLimit
  GaussSide MonoSpec StepPoly MonoRule LegWeight NCSpec NCExact NCShape NCMoreSpec VarSpec Jordan MonoInt GamRule RieStep.
Import ListNotations.
Local Open Scope R_scope.

Lemma decompose : forall (Fa Fb : (R -> Prop) -> Prop) (D : R -> Prop) (w f : R -> R) W V, ProperFilter Fa -> ProperFilter Fb ->
  filter_prod Fa Fb (fun ab => fst ab <= snd ab /\ forall x, fst ab <= x <= snd ab -> D x) ->
  (forall x, D x -> continuous w x /\ 0 <= w x) -> is_RInt_gen (fun x => w x * 1) Fa Fb W -> varies_at_most D f V -> (exists x, D x) ->
  exists P N bp tp bn tn vP vN, rises_between D P bp tp /\ rises_between D N bn tn /\ is_RInt_gen (fun x => w x * P x) Fa Fb vP /\ is_RInt_gen (fun x => w x * N x) Fa Fb vN /\
    is_RInt_gen (fun x => w x * f x) Fa Fb (vP - vN) /\ f = (fun x => P x + -1 * N x) /\ tp - bp + (tn - bn) <= V.
Proof.
  intros Fa Fb D w f W V PA PB Dm Hw HW Hv Hd. destruct (jordan D f V Hv Hd) as (P & N0 & c & VP & VN & RP & [RN1 RN2] & E & _ & _ & S & _).
  set (N := fun x => P x - f x). assert (EN : forall x, D x -> N x = N0 x) by (intros x Hx; unfold N; rewrite (E x Hx); ring).
  assert (RN : rises_between D N 0 VN). { split; [intros x y Hx Hy L; rewrite (EN x Hx), (EN y Hy); apply RN1; assumption|intros x Hx; rewrite (EN x Hx); apply RN2, Hx]. }
  assert (HW' : is_RInt_gen w Fa Fb W). { refine (eq_ind _ (fun h => is_RInt_gen h Fa Fb W) HW _ _). extensionality x. ring. }
  destruct (ex_mono_gen Fa Fb D w P c (c + VP) W PA PB Dm Hw RP HW') as [vP HP]. destruct (ex_mono_gen Fa Fb D w N 0 VN W PA PB Dm Hw RN HW') as [vN HN].
  assert (Ef : f = (fun x => P x + -1 * N x)) by (extensionality x; unfold N; ring).
  exists P, N, c, (c + VP), 0, VN, vP, vN. split; [exact RP|]. split; [exact RN|]. split; [exact HP|]. split; [exact HN|]. split; [|split; [exact Ef|lra]].
  refine (eq_ind _ (fun h => is_RInt_gen h Fa Fb (vP - vN)) (is_RInt_gen_minus (V := R_NormedModule) _ _ _ _ HP HN) _ _).
  extensionality x. unfold minus, plus, opp. simpl. unfold N. ring.
Qed.
Lemma domain : forall (Fa Fb : (R -> Prop) -> Prop) (D : R -> Prop), ProperFilter Fa -> ProperFilter Fb -> (forall u v x, D u -> D v -> u <= x <= v -> D x) -> Fa D -> Fb D ->
  filter_prod Fa Fb (fun uv => fst uv <= snd uv) -> filter_prod Fa Fb (fun ab => fst ab <= snd ab /\ forall x, fst ab <= x <= snd ab -> D x).
Proof.
  intros Fa Fb D PA PB Cv DA DB le. assert (K : filter_prod Fa Fb (fun ab => D (fst ab) /\ D (snd ab))) by (apply (Filter_prod _ _ _ D D DA DB); intros; split; assumption).
  generalize (filter_and _ _ K le). apply filter_imp. intros [u v] [[K1 K2] K3]. cbn [fst snd] in *. split; [exact K3|]. intros x Hx. exact (Cv u v x K1 K2 Hx).
Qed.
Lemma combine : forall (q qP qN c vP vN k dP dN V : R), q = qP + -1 * qN -> Rabs (qP - c * vP) <= k * dP -> Rabs (qN - c * vN) <= k * dN -> 0 <= k -> dP + dN <= V ->
  Rabs (q - c * (vP - vN)) <= k * V.
Proof.
  intros q qP qN c vP vN k dP dN V -> A B Hk S. assert (k * (dP + dN) <= k * V) by (apply Rmult_le_compat_l; assumption).
  apply Rabs_le_between in A. apply Rabs_le_between in B. apply Rabs_le. lra.
Qed.
Lemma flat : forall D : R -> Prop, rises_between D (fun _ => 1) 0 1.
Proof. intros D. split; intros; lra. Qed.

Lemma hermite_var : forall (ext : Linalg RA) n (r : GaussHermite RA), (1 <= n)%Z -> sorts ext ->
  exact_on ext (Z.to_nat n) (@hermite_diag RA) (@hermite_off_diag RA) -> hermite_new ext n = Ok r ->
  forall f V k, varies_at_most (fun _ => True) f V -> List.Forall (fun p : R * R => snd p <= k) (hermite_pairs r) ->
  exists v, hermite_integral f v /\ Rabs (hermite_value r f - v) <= k * V.
Proof.
  intros ext n r Hn So Ex Hr f V k Hf Hk. assert (H1 : hermite_integral (fun _ => 1) (hermite_L (fun _ => 1))) by (apply (hermite_gen 0), poly_const).
  destruct (decompose (Rbar_locally m_infty) (Rbar_locally p_infty) whole gauss f _ V _ _ (domain _ _ _ _ _ (conv_of _ whole_convex) whole_a whole_b le_whole)
    (fun x _ => conj (gauss_cont x) (Rlt_le _ _ (exp_pos _))) H1 Hf (ex_intro _ 0 I)) as (P & N & bp & tp & bn & tn & vP & vN & RP & RN & HP & HN & Hv & Ef & S).
  assert (M := hermite_mono ext n r Hn So Ex Hr). exists (vP - vN). split; [exact Hv|].
  assert (HV : forall f, hermite_value r f = apply_rule (hermite_pairs r) f) by (intros; unfold hermite_value; rewrite hermite_R; reflexivity).
  assert (M1 := proj2 (M P bp tp k vP RP HP Hk)). assert (M2 := proj2 (M N bn tn k vN RN HN Hk)). assert (M3 := proj2 (M _ 0 1 k _ (flat _) H1 Hk)).
  replace (vP - vN) with (1 * (vP - vN)) by ring.
  apply (combine _ (hermite_value r P) (hermite_value r N) 1 vP vN k (tp - bp) (tn - bn)); [rewrite Ef, !HV; apply rule_lin|rewrite Rmult_1_l; exact M1|rewrite Rmult_1_l; exact M2| |exact S].
  assert (Q := Rabs_pos (hermite_value r (fun _ => 1) - hermite_L (fun _ => 1))). lra.
Qed.
Lemma laguerre_var : forall (ext : Linalg RA) n (al : Param RA) (r : GaussLaguerre RA) (G : R), (1 <= n)%Z -> -1 < param_get al -> sorts ext ->
  exact_on ext (Z.to_nat n) (@laguerre_diag RA (param_get al)) (@laguerre_off_diag RA (param_get al)) ->
  laguerre_new ext n al = Ok r -> is_Gamma (param_get al + 1) G ->
  forall f V k, varies_at_most (fun x => 0 < x) f V -> List.Forall (fun p : R * R => snd p <= k) (laguerre_pairs r) ->
  exists v, laguerre_integral (param_get al) f v /\ Rabs (laguerre_value r f - @gamma RA (param_get al + 1) / G * v) <= k * V.
Proof.
  intros ext n al r G Hn Hal So Ex Hr HG f V k Hf Hk.
  destruct (laguerre_exact ext n al r G Hn Hal So Ex Hr HG (fun _ => 1)) as (W & H1 & _); [apply (poly_weaken 0); [lia|apply poly_const]|].
  destruct (decompose (at_right 0) (Rbar_locally p_infty) halfline (lagw (param_get al)) f W V _ _ (domain _ _ _ _ _ (conv_of _ half_convex) half_a half_b le_half)
    (fun x Hx => conj (lagw_cont (param_get al) x Hx) (Rlt_le _ _ (lagw_pos _ x))) H1 Hf (ex_intro _ 1 Rlt_0_1)) as (P & N & bp & tp & bn & tn & vP & vN & RP & RN & HP & HN & Hv & Ef & S).
  assert (M := laguerre_mono ext n al r G Hn Hal So Ex Hr HG). exists (vP - vN). split; [exact Hv|].
  assert (HV : forall f, laguerre_value r f = apply_rule (laguerre_pairs r) f) by (intros; unfold laguerre_value; rewrite laguerre_R; reflexivity).
  assert (M1 := proj2 (M P bp tp k vP RP HP Hk)). assert (M2 := proj2 (M N bn tn k vN RN HN Hk)). assert (M3 := proj2 (M _ 0 1 k _ (flat _) H1 Hk)).
  apply (combine _ (laguerre_value r P) (laguerre_value r N) _ vP vN k (tp - bp) (tn - bn)); [rewrite Ef, !HV; apply rule_lin|exact M1|exact M2| |exact S].
  match type of M3 with Rabs ?u <= _ => assert (Q := Rabs_pos u) end. lra.
Qed.

(** ** intervals *)
Lemma weighted_push : forall w a b f v, a < b -> is_RInt_gen (fun x => w x * pulled a b f x) (at_right (-1)) (at_left 1) v -> is_RInt_gen (fun x => w (to_unit a b x) * f x) (at_right a) (at_left b) ((b - a) / 2 * v).
Proof.
  intros w a b f v E H. set (u := 2 / (b - a)). set (k := - (2 * a) / (b - a) - 1). assert (U : 0 < u) by (unfold u; apply Rdiv_lt_0_compat; lra).
  replace ((b - a) / 2 * v) with (v / u) by (unfold u; field; lra).
  refine (eq_ind _ (fun h => is_RInt_gen h (at_right a) (at_left b) (v / u)) (gen_lin (fun y => w y * pulled a b f y) u k _ _ (at_right (-1)) (at_left 1) v (Rgt_not_eq _ _ U) _ _ H) _ _).
  - apply affine_right; [exact U|]. unfold u, k. field. lra.
  - apply affine_left; [exact U|]. unfold u, k. field. lra.
  - extensionality x. cbv beta. unfold u, k. rewrite <- to_unit_lin by lra. rewrite pulled_back by lra. reflexivity.
Qed.
Lemma decompose_ab : forall (w f : R -> R) a b W V, a < b -> (forall x, unit_open x -> continuous w x /\ 0 <= w x) ->
  is_RInt_gen (fun x => w x * 1) (at_right (-1)) (at_left 1) W -> varies_at_most (open_between a b) f V ->
  exists P N bp tp bn tn vP vN, rises_between (open_between a b) P bp tp /\ rises_between (open_between a b) N bn tn /\ weighted_integral w a b P vP /\ weighted_integral w a b N vN /\
    weighted_integral w a b f (vP - vN) /\ f = (fun x => P x + -1 * N x) /\ tp - bp + (tn - bn) <= V.
Proof.
  intros w f a b W V E Hw HW Hf.
  assert (Open : forall x, open_between a b x <-> a < x < b) by (intros x; unfold open_between; rewrite Rmin_left, Rmax_right by lra; reflexivity).
  assert (Unit : forall x, open_between a b x -> unit_open (to_unit a b x)).
  { intros x Hx. apply Open in Hx. unfold unit_open, to_unit. assert (0 < 2 * (x - a) / (b - a)) by (apply Rdiv_lt_0_compat; lra).
    assert (2 * (x - a) / (b - a) < 2); [|lra]. apply (Rmult_lt_reg_r (b - a)); [lra|]. unfold Rdiv. rewrite Rmult_assoc, Rinv_l by lra. lra. }
  destruct (decompose (at_right a) (at_left b) (open_between a b) (fun x => w (to_unit a b x)) f ((b - a) / 2 * W) V _ _) as (P & N & bp & tp & bn & tn & vP & vN & RP & RN & HP & HN & Hv & Ef & S).
  - set (e := (b - a) / 2). assert (He : 0 < e) by (unfold e; lra).
    apply (Filter_prod _ _ _ (fun x => a < x < a + e) (fun x => b - e < x < b)).
    + exists (mkposreal e He). intros x Hx L. change (Rabs (x - a) < e) in Hx. apply Rabs_def2 in Hx. lra.
    + exists (mkposreal e He). intros x Hx L. change (Rabs (x - b) < e) in Hx. apply Rabs_def2 in Hx. lra.
    + intros x y Hx Hy. cbn [fst snd]. unfold e in *. split; [lra|]. intros z Hz. apply Open. lra.
  - intros x Hx. split; [|apply Hw, Unit, Hx]. apply (continuous_comp (to_unit a b) w); [|apply Hw, Unit, Hx].
    apply (ex_derive_continuous (V := R_NormedModule)). unfold to_unit. auto_derive. trivial.
  - apply (weighted_push w a b (fun _ => 1) W E). exact HW.
  - exact Hf.
  - exists ((a + b) / 2). apply Open. lra.
  - exists P, N, bp, tp, bn, tn, vP, vN. repeat (split; [first [exact RP|exact RN|left; split; [exact E|]; assumption]|]). split; [exact Ef|exact S].
Qed.
Lemma pulled_lin : forall l a b f g, gauss_on l a b (fun x => f x + -1 * g x) = gauss_on l a b f + -1 * gauss_on l a b g.
Proof. intros l a b f g. rewrite !gauss_pulled. change (pulled a b (fun x => f x + -1 * g x)) with (fun x => pulled a b f x + -1 * pulled a b g x). rewrite rule_lin. ring. Qed.
Lemma jacobi_var : forall t (ext : Linalg RA) n (pa pb : Param RA) (r : GaussJacobi RA), (2 <= n)%Z ->
  -1 < param_get pa -> -1 < param_get pb -> param_get pa + param_get pb <> -1 ->
  ~ delegated (param_get pa) (param_get pb) -> sorts ext ->
  exact_on ext (Z.to_nat n) (@jacobi_diag RA (param_get pa) (param_get pb)) (@jacobi_off_diag RA (param_get pa) (param_get pb)) ->
  jacobi_new t ext n pa pb = Ok r -> (n mod 2 = 0)%Z \/ param_get pa = param_get pb ->
  forall T, jacobi_integral (param_get pa) (param_get pb) (fun _ => 1) T ->
  forall a b f V k, a < b -> varies_at_most (open_between a b) f V -> List.Forall (fun p : R * R => snd p <= k) (jacobi_pairs r) ->
  exists v, weighted_integral (fun x => Rpower (1 - x) (param_get pa) * Rpower (1 + x) (param_get pb)) a b f v /\
  Rabs (jacobi_value r a b f - jacobi_mass (param_get pa) (param_get pb) / T * v) <= (b - a) / 2 * k * V.
Proof.
  intros t ext n pa pb r Hn Hal Hbe Hab Nd So Ex Hr Par T HT a b f V k E Hf Hk.
  destruct (decompose_ab (jacw (param_get pa) (param_get pb)) f a b T V E (fun x Hx => conj (jacw_cont _ _ x Hx) (Rlt_le _ _ (jacw_pos _ _ x))) HT Hf)
    as (P & N & bp & tp & bn & tn & vP & vN & RP & RN & HP & HN & Hv & Ef & S).
  assert (M := fun f bot top v => jacobi_mono t ext n pa pb r Hn Hal Hbe Hab Nd So Ex Hr Par T HT a b f bot top k v E). exists (vP - vN). split; [exact Hv|].
  assert (HV : forall f, jacobi_value r a b f = gauss_on (jacobi_pairs r) a b f) by (intros; unfold jacobi_value; rewrite jacobi_R; reflexivity).
  assert (M1 := proj2 (M P bp tp vP RP HP Hk)). assert (M2 := proj2 (M N bn tn vN RN HN Hk)).
  assert (H1 : weighted_integral (jacw (param_get pa) (param_get pb)) a b (fun _ => 1) ((b - a) / 2 * T)) by (left; split; [exact E|]; apply (weighted_push _ a b (fun _ => 1) T E); exact HT).
  assert (M3 := proj2 (M _ 0 1 _ (flat _) H1 Hk)).
  apply (combine _ (jacobi_value r a b P) (jacobi_value r a b N) _ vP vN _ (tp - bp) (tn - bn)); [rewrite Ef, !HV; apply pulled_lin|exact M1|exact M2| |exact S].
  match type of M3 with Rabs ?u <= _ => assert (Q := Rabs_pos u) end. lra.
Qed.
Lemma chebyshev1_var : forall t n (r : GaussChebyshevFirstKind RA), (1 <= n < usize_max t)%Z -> chebyshev1_new t n = Ok r ->
  forall a b f V, a < b -> varies_at_most (open_between a b) f V ->
  exists v, weighted_integral (fun x => / sqrt (1 - x * x)) a b f v /\ Rabs (chebyshev1_value r a b f - v) <= (b - a) / 2 * (PI / IZR n) * V.
Proof.
  intros t n r Hn Hr a b f V E Hf.
  destruct (decompose_ab w1 f a b PI V E (fun x Hx => conj (w1_cont x Hx) (w1_nonneg x Hx)) w1_mass Hf) as (P & N & bp & tp & bn & tn & vP & vN & RP & RN & HP & HN & Hv & Ef & S).
  assert (M := fun f bot top v => chebyshev1_mono t n r Hn Hr a b f bot top v E). exists (vP - vN). split; [exact Hv|].
  assert (HV : forall f, chebyshev1_value r a b f = gauss_on (chebyshev1_pairs r) a b f) by (intros; unfold chebyshev1_value; rewrite chebyshev1_R; reflexivity).
  assert (M1 := proj2 (M P bp tp vP RP HP)). assert (M2 := proj2 (M N bn tn vN RN HN)). replace (vP - vN) with (1 * (vP - vN)) by ring.
  apply (combine _ (chebyshev1_value r a b P) (chebyshev1_value r a b N) 1 vP vN _ (tp - bp) (tn - bn)); [rewrite Ef, !HV; apply pulled_lin|rewrite Rmult_1_l; exact M1|rewrite Rmult_1_l; exact M2| |exact S].
  assert (0 < PI / IZR n) by (apply Rdiv_lt_0_compat; [apply PI_RGT_0|apply IZR_lt; lia]). apply Rmult_le_pos; lra.
Qed.
Lemma chebyshev2_var : forall t n (r : GaussChebyshevSecondKind RA), (1 <= n < usize_max t)%Z -> chebyshev2_new t n = Ok r ->
  forall a b f V, a < b -> varies_at_most (open_between a b) f V ->
  exists v, weighted_integral (fun x => sqrt (1 - x * x)) a b f v /\ Rabs (chebyshev2_value r a b f - v) <= (b - a) / 2 * (PI / (IZR n + 1)) * V.
Proof.
  intros t n r Hn Hr a b f V E Hf.
  destruct (decompose_ab w2 f a b (PI / 2) V E (fun x Hx => conj (sq_cont x) (sqrt_pos _)) w2_mass Hf) as (P & N & bp & tp & bn & tn & vP & vN & RP & RN & HP & HN & Hv & Ef & S).
  assert (M := fun f bot top v => chebyshev2_mono t n r Hn Hr a b f bot top v E). exists (vP - vN). split; [exact Hv|].
  assert (HV : forall f, chebyshev2_value r a b f = gauss_on (chebyshev2_pairs r) a b f) by (intros; unfold chebyshev2_value; rewrite chebyshev2_R; reflexivity).
  assert (M1 := proj2 (M P bp tp vP RP HP)). assert (M2 := proj2 (M N bn tn vN RN HN)). replace (vP - vN) with (1 * (vP - vN)) by ring.
  apply (combine _ (chebyshev2_value r a b P) (chebyshev2_value r a b N) 1 vP vN _ (tp - bp) (tn - bn)); [rewrite Ef, !HV; apply pulled_lin|rewrite Rmult_1_l; exact M1|rewrite Rmult_1_l; exact M2| |exact S].
  assert (0 < IZR n) by (apply IZR_lt; lia). assert (0 < PI / (IZR n + 1)) by (apply Rdiv_lt_0_compat; [apply PI_RGT_0|lra]). apply Rmult_le_pos; lra.
Qed.

(** ** Legendre and Newton-Cotes *)
Lemma decompose_closed : forall f a b V, a <= b -> varies_at_most (closed_between a b) f V ->
  exists P N c VP VN, rises_between (closed_between a b) P c (c + VP) /\ rises_between (closed_between a b) N 0 VN /\ 0 <= VP /\ 0 <= VN /\ VP + VN <= V /\
    ex_RInt P a b /\ ex_RInt N a b /\ ex_RInt f a b /\ RInt f a b = RInt P a b - RInt N a b /\ f = (fun x => P x + -1 * N x) /\
    forall M, (forall x, a <= x <= b -> Rabs (f x) <= M) -> Rabs c <= M.
Proof.
  intros f a b V Hab Hf.
  assert (Cl : forall x, closed_between a b x <-> a <= x <= b) by (intros x; unfold closed_between; rewrite Rmin_left, Rmax_right by lra; reflexivity).
  destruct (jordan (closed_between a b) f V Hf) as (P & N0 & c & VP & VN & RP & [RN1 RN2] & E & VP0 & VN0 & S & B); [exists a; apply Cl; lra|].
  set (N := fun x => P x - f x). assert (EN : forall x, closed_between a b x -> N x = N0 x) by (intros x Hx; unfold N; rewrite (E x Hx); ring).
  assert (RN : rises_between (closed_between a b) N 0 VN). { split; [intros x y Hx Hy L; rewrite (EN x Hx), (EN y Hy); apply RN1; assumption|intros x Hx; rewrite (EN x Hx); apply RN2, Hx]. }
  assert (XP : ex_RInt P a b) by (apply ex_mono; [exact Hab|]; intros x y H1 H2 H3; apply (proj1 RP); [apply Cl; lra|apply Cl; lra|exact H2]).
  assert (XN : ex_RInt N a b) by (apply ex_mono; [exact Hab|]; intros x y H1 H2 H3; apply (proj1 RN); [apply Cl; lra|apply Cl; lra|exact H2]).
  assert (I := is_RInt_minus (V := R_NormedModule) _ _ _ _ _ _ (RInt_correct (V := R_CompleteNormedModule) _ _ _ XP) (RInt_correct (V := R_CompleteNormedModule) _ _ _ XN)).
  assert (If : is_RInt f a b (RInt P a b - RInt N a b)).
  { refine (eq_ind _ (fun h => is_RInt h a b (RInt P a b - RInt N a b)) I _ _). extensionality x. unfold minus, plus, opp. simpl. unfold N. ring. }
  exists P, N, c, VP, VN. split; [exact RP|]. split; [exact RN|]. split; [exact VP0|]. split; [exact VN0|]. split; [exact S|]. split; [exact XP|]. split; [exact XN|].
  split; [exists (RInt P a b - RInt N a b); exact If|]. split; [exact (is_RInt_unique (V := R_CompleteNormedModule) _ _ _ _ If)|]. split; [extensionality x; unfold N; ring|].
  intros M HM. apply B. intros x Hx. apply HM, Cl, Hx.
Qed.
Lemma legendre_var : forall (t : Target) (n : nat) (r : GaussLegendre RA),
  (100 <= usize_max t)%Z -> (2 * Z.of_nat n <= usize_max t)%Z -> legendre_new t (Z.of_nat n) = Ok r -> (1 <= n)%nat ->
  forall a b f V M, a < b -> varies_at_most (closed_between a b) f V -> (forall x, a <= x <= b -> Rabs (f x) <= M) ->
  ex_RInt f a b /\ Rabs (legendre_value r a b f - RInt f a b) <= (b - a) / 2 * ((4 + / 10 ^ 11) / INR n * V + 48 / 10 ^ 14 * (M + V)).
Proof.
  intros t n r Hu H2 Hr Hn a b f V M E Hf HM. destruct (decompose_closed f a b V (Rlt_le _ _ E) Hf) as (P & N & c & VP & VN & RP & RN & VP0 & VN0 & S & XP & XN & Xf & If & Ef & B).
  split; [exact Xf|]. assert (Bc := B M HM). apply Rabs_le_between in Bc.
  destruct (legendre_mono_all t n r Hu H2 Hr Hn) as [_ L]. assert (L1 := L a b P c (c + VP) (M + VP) E RP ltac:(lra) ltac:(lra) XP). assert (L2 := L a b N 0 VN VN E RN ltac:(lra) ltac:(lra) XN).
  assert (HV : forall f, legendre_value r a b f = gauss_on (legendre_pairs r) a b f) by (intros; unfold legendre_value; rewrite legendre_R; reflexivity).
  assert (Q : legendre_value r a b f = legendre_value r a b P + -1 * legendre_value r a b N) by (rewrite Ef at 1; rewrite !HV; apply pulled_lin).
  rewrite Q, If. revert L1 L2. generalize (legendre_value r a b P) (legendre_value r a b N). generalize (RInt P a b : R) (RInt N a b : R). intros i1 i2 q1 q2 L1 L2.
  assert (Ni : 0 < INR n) by (apply lt_0_INR; lia). assert (K : 0 < (4 + / 10 ^ 11) / INR n) by (apply Rdiv_lt_0_compat; [|exact Ni]; lra). set (kk := (4 + / 10 ^ 11) / INR n) in *.
  apply Rabs_le_between in L1. apply Rabs_le_between in L2.
  assert (Z : (b - a) / 2 * (kk * (c + VP - c) + 48 / 10 ^ 14 * (M + VP)) + (b - a) / 2 * (kk * (VN - 0) + 48 / 10 ^ 14 * VN) <= (b - a) / 2 * (kk * V + 48 / 10 ^ 14 * (M + V))).
  { rewrite <- Rmult_plus_distr_l. apply Rmult_le_compat_l; [lra|]. assert (kk * (VP + VN) <= kk * V) by (apply Rmult_le_compat_l; lra). lra. }
  apply Rabs_le. lra.
Qed.
Lemma newton_cotes_var : forall (f : R -> R) a b n V, a <= b -> (1 <= n)%nat -> varies_at_most (closed_between a b) f V -> ex_RInt f a b /\
  Rabs (midpoint_value n a b f - RInt f a b) <= (b - a) * V / (2 * INR n) /\
  Rabs (trapezoid_value n a b f - RInt f a b) <= (b - a) * V / (2 * INR n) /\
  Rabs (simpson_value n a b f - RInt f a b) <= (b - a) * V / (2 * INR n).
Proof.
  intros f a b n V Hab Hn Hf. destruct (decompose_closed f a b V Hab Hf) as (P & N & c & VP & VN & RP & RN & VP0 & VN0 & S & XP & XN & Xf & If & Ef & _).
  split; [exact Xf|].
  assert (Cl : forall x, closed_between a b x <-> a <= x <= b) by (intros x; unfold closed_between; rewrite Rmin_left, Rmax_right by lra; reflexivity).
  assert (IP : increasing_on a b P) by (intros x y H1 H2 H3; apply (proj1 RP); [apply Cl; lra|apply Cl; lra|exact H2]).
  assert (IN : increasing_on a b N) by (intros x y H1 H2 H3; apply (proj1 RN); [apply Cl; lra|apply Cl; lra|exact H2]).
  destruct (monotone_bound P a b n Hab Hn XP (or_introl IP)) as (P1 & P2 & P3). destruct (monotone_bound N a b n Hab Hn XN (or_introl IN)) as (N1 & N2 & N3).
  assert (Ni : 0 < INR n) by (apply lt_0_INR; lia).
  assert (Sz : Rabs (P b - P a) <= VP /\ Rabs (N b - N a) <= VN).
  { assert (A := proj2 RP a (proj2 (Cl a) ltac:(lra))). assert (A' := proj2 RP b (proj2 (Cl b) ltac:(lra))). assert (Z := proj2 RN a (proj2 (Cl a) ltac:(lra))). assert (Z' := proj2 RN b (proj2 (Cl b) ltac:(lra))).
    assert (I1 := IP a b ltac:(lra) Hab ltac:(lra)). assert (I2 := IN a b ltac:(lra) Hab ltac:(lra)). split; rewrite Rabs_pos_eq; lra. }
  assert (Co : forall q q1 q2 i1 i2 : R, q = 1 * q1 + -1 * q2 -> Rabs (q1 - i1) <= (b - a) * Rabs (P b - P a) / (2 * INR n) -> Rabs (q2 - i2) <= (b - a) * Rabs (N b - N a) / (2 * INR n) ->
    Rabs (q - (i1 - i2)) <= (b - a) * V / (2 * INR n)).
  { intros q q1 q2 i1 i2 -> A1 A2. set (h := (b - a) / (2 * INR n)). assert (Hh : 0 <= h) by (unfold h; apply Rdiv_le_0_compat; lra).
    replace ((b - a) * V / (2 * INR n)) with (h * V) by (unfold h; field; lra).
    replace ((b - a) * Rabs (P b - P a) / (2 * INR n)) with (h * Rabs (P b - P a)) in A1 by (unfold h; field; lra).
    replace ((b - a) * Rabs (N b - N a) / (2 * INR n)) with (h * Rabs (N b - N a)) in A2 by (unfold h; field; lra).
    assert (h * (Rabs (P b - P a) + Rabs (N b - N a)) <= h * V) by (apply Rmult_le_compat_l; [exact Hh|]; lra).
    apply Rabs_le_between in A1. apply Rabs_le_between in A2. apply Rabs_le. lra. }
  rewrite If.
  assert (Ef' : f = (fun x => 1 * P x + -1 * N x)) by (rewrite Ef; extensionality x; ring).
  split; [|split].
  - apply (Co _ (midpoint_value n a b P) (midpoint_value n a b N)); [rewrite Ef' at 1; apply midpoint_linear, Hn|exact P1|exact N1].
  - apply (Co _ (trapezoid_value n a b P) (trapezoid_value n a b N)); [rewrite Ef' at 1; apply trapezoid_linear, Hn|exact P2|exact N2].
  - apply (Co _ (simpson_value n a b P) (simpson_value n a b N)); [rewrite Ef' at 1; apply simpson_linear, Hn|exact P3|exact N3].
Qed.
