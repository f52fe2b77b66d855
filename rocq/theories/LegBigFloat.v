(** Gauss-Legendre rules of more than 100 points in double arithmetic. *)
From Coq Require Import Reals ZArith List Lra Lia Psatz.
From Flocq Require Import Core IEEE754.Binary.
From Verif Require Import Arith RInst F64 F64Spec F64Proof RoundSpec RoundProof AccF64 AccCount Machine Rules Par LegendreData Legendre SizeProof RInstProof LegSym GammaProof LegAsym LegBig LegBigPoly TrigSpec ChebFloat LegFloat.
Import ListNotations.
Local Open Scope R_scope.

Section F.
Variable be : Backend.
Notation A := (F64 be).

Lemma rng_of : forall Q, / 10 ^ 20 <= Q <= 10 ^ 20 -> rng Q.
Proof. intros Q H. assert (/ 10 ^ 60 <= / 10 ^ 20) by (apply Rinv_le_contravar; lra). split; lra. Qed.
Lemma apx_Z : forall z, (1 <= z <= 2 ^ 53)%Z -> apx (nofZ z : A) (nofZ z : RA) (IZR z) 0.
Proof.
  intros z H. destruct (ofZ_exact z ltac:(lia)) as [F E]. assert (1 <= IZR z) by (apply IZR_le; lia). assert (IZR z <= IZR (2 ^ 53)) by (apply IZR_le; lia).
  assert (E1 : IZR (2 ^ 53) <= 10 ^ 20) by (simpl; lra).
  pose proof (apx_exact (nofZ z : A) (IZR z) F E) as X. rewrite Rabs_pos_eq in X by lra. apply X. apply rng_of. lra.
Qed.
Lemma apx_int : forall m, (1 <= m <= 100)%Z -> apx (nlit m 0 : A) (nlit m 0 : RA) (IZR m) 0.
Proof.
  intros m H. destruct (lit_int_exact m ltac:(lia)) as [F E]. assert (1 <= IZR m) by (apply IZR_le; lia). assert (IZR m <= 100) by (apply IZR_le; lia).
  replace (nlit m 0 : RA) with (IZR m) by (cbn [nlit RA]; unfold R_lit; change (0 <? 0)%Z with false; cbv iota; change (10 ^ 0)%Z with 1%Z; rewrite Z.mul_1_r; reflexivity).
  pose proof (apx_exact (nlit m 0 : A) (IZR m) F E) as X. rewrite Rabs_pos_eq in X by lra. apply X. apply rng_of. lra.
Qed.
Lemma apx_one : apx (lit1 : A) (lit1 : RA) 1 0. Proof. exact (apx_int 1 ltac:(lia)). Qed.
Lemma apx_two : apx (lit2 : A) (lit2 : RA) 2 0. Proof. exact (apx_int 2 ltac:(lia)). Qed.
Lemma apx_half : apx (lit_half : A) (lit_half : RA) (/ 2) 0.
Proof.
  destruct half_exact as [F E]. pose proof (apx_exact (lit_half : A) (/ 2) F E) as X. rewrite Rabs_pos_eq in X by lra.
  replace (lit_half : RA) with (/ 2) by (symmetry; exact rlhalf). apply X. apply rng_of. lra.
Qed.

(** a quarter less than an integer *)
Lemma quarter_apx : forall k, (21 <= k <= 2 ^ 40)%Z -> apx (nsub (nofZ k) (nlit 25 (-2)) : A) (nsub (nofZ k) (nlit 25 (-2)) : RA) (IZR k - / 4) (21 / 10).
Proof.
  intros k Hk. assert (K : 21 <= IZR k) by (apply IZR_le; lia). assert (K2 : IZR k <= IZR (2 ^ 40)) by (apply IZR_le; lia). assert (E1 : IZR (2 ^ 40) <= 10 ^ 19) by (simpl; lra).
  assert (E : R_lit 25 (-2) = / 4) by (unfold R_lit; simpl; lra).
  apply (apx_rescale _ _ (IZR k + / 4) (202 / 100)); [|cbn [nsub nofZ nlit RA]; rewrite E, Rabs_pos_eq; lra|lra|apply rng_of; lra|side].
  apply (apx_sub be _ _ _ _ (IZR k) (/ 4) _ 0 (101 / 100)); [apply apx_Z; lia| |lra|lra|lra|apply rng_of; lra|side].
  apply apx_lit; [reflexivity|rewrite E, Rabs_pos_eq; lra|side].
Qed.
Definition j0p {B : Arith} (r2 : B) : B := (nlit 125 (-3) [+] r2 [*] (nlit (-8072916666666667) (-17) [+] r2 [*] (nlit 24602864583333334 (-17) [+] r2 [*] (nlit (-1824438767206101) (-15) [+] r2 [*] (nlit 25336414797343906 (-15) [+] r2 [*] (nlit (-5676444121351834) (-13) [+] r2 [*] (nlit 18690476528232066 (-12) [+] r2 [*] (nlit (-8493535802991488) (-10) [+] nlit 5092254624022268 (-8) [*] r2))))))))%num.
Lemma j0p_apx : forall (x : A) (y : RA) d, apx x y (1 / 3600) d -> d <= 10 ^ 9 -> apx (j0p x) (j0p y) (126 / 1000) (8 * d + 1717 / 100).
Proof.
  intros x y d Hx Hd. pose proof Hx as (_ & _ & _ & _ & [d0 _]). unfold j0p.
  apply (hrA be _ _ _ _ _ _ 1 (1 / 3600) (125 / 1000) (126 / 1000) (7 * d + 1515 / 100) d (101 / 100) (8 * d + 1717 / 100)); [|exact Hx|alit|side..].
  apply (hrA be _ _ _ _ _ _ 1 (1 / 3600) (9 / 100) 1 (6 * d + 1313 / 100) d (101 / 100) (7 * d + 1515 / 100)); [|exact Hx|alit|side..].
  apply (hrA be _ _ _ _ _ _ 2 (1 / 3600) (25 / 100) 1 (5 * d + 1111 / 100) d (101 / 100) (6 * d + 1313 / 100)); [|exact Hx|alit|side..].
  apply (hrA be _ _ _ _ _ _ 26 (1 / 3600) (19 / 10) 2 (4 * d + 909 / 100) d (101 / 100) (5 * d + 1111 / 100)); [|exact Hx|alit|side..].
  apply (hrA be _ _ _ _ _ _ 600 (1 / 3600) (255 / 10) 26 (3 * d + 707 / 100) d (101 / 100) (4 * d + 909 / 100)); [|exact Hx|alit|side..].
  apply (hrA be _ _ _ _ _ _ 20000 (1 / 3600) 570 600 (2 * d + 505 / 100) d (101 / 100) (3 * d + 707 / 100)); [|exact Hx|alit|side..].
  apply (hrA be _ _ _ _ _ _ 900000 (1 / 3600) 18700 20000 (1 * d + 303 / 100) d (101 / 100) (2 * d + 505 / 100)); [|exact Hx|alit|side..].
  apply (hqA be _ _ _ _ _ _ 60000000 (1 / 3600) 850000 900000 (101 / 100) d (101 / 100) (1 * d + 303 / 100)); [|exact Hx|alit|side..].
  alit.
Qed.
Definition j1p {B : Arith} (x2 : B) : B := (nlit (-30338042971129027) (-20) [+] x2 [*] (nlit 1989243642459693 (-19) [+] x2 [*] (nlit (-22896990277211166) (-20) [+] x2 [*] (nlit 4337107191307463 (-19) [+] x2 [*] (nlit (-1236323497271754) (-18) [+] x2 [*] (nlit 49610142326888314 (-19) [+] x2 [*] (nlit (-26683739370232377) (-18) [+] nlit 18539539820634562 (-17) [*] x2)))))))%num.
Lemma j1p_apx : forall (x : A) (y : RA) d, apx x y (1 / 400) d -> d <= 10 ^ 9 -> apx (j1p x) (j1p y) (1 / 1000) (7 * d + 1515 / 100).
Proof.
  intros x y d Hx Hd. pose proof Hx as (_ & _ & _ & _ & [d0 _]). unfold j1p.
  apply (hrA be _ _ _ _ _ _ (1 / 10) (1 / 400) (4 / 10000) (1 / 1000) (6 * d + 1313 / 100) d (101 / 100) (7 * d + 1515 / 100)); [|exact Hx|alit|side..].
  apply (hrA be _ _ _ _ _ _ 1 (1 / 400) (1 / 100) (1 / 10) (5 * d + 1111 / 100) d (101 / 100) (6 * d + 1313 / 100)); [|exact Hx|alit|side..].
  apply (hrA be _ _ _ _ _ _ 1 (1 / 400) (1 / 100) 1 (4 * d + 909 / 100) d (101 / 100) (5 * d + 1111 / 100)); [|exact Hx|alit|side..].
  apply (hrA be _ _ _ _ _ _ 1 (1 / 400) (1 / 100) 1 (3 * d + 707 / 100) d (101 / 100) (4 * d + 909 / 100)); [|exact Hx|alit|side..].
  apply (hrA be _ _ _ _ _ _ 1 (1 / 400) (1 / 100) 1 (2 * d + 505 / 100) d (101 / 100) (3 * d + 707 / 100)); [|exact Hx|alit|side..].
  apply (hrA be _ _ _ _ _ _ 1 (1 / 400) (1 / 100) 1 (1 * d + 303 / 100) d (101 / 100) (2 * d + 505 / 100)); [|exact Hx|alit|side..].
  apply (hqA be _ _ _ _ _ _ 1 (1 / 400) (3 / 100) 1 (101 / 100) d (101 / 100) (1 * d + 303 / 100)); [|exact Hx|alit|side..].
  alit.
Qed.
Lemma j0_shape : forall t (B : Arith) k, (20 < k)%Z -> @bessel_j0_zero B t k = (let z := (npi [*] (nofZ k [-] nlit 25 (-2)))%num in let r := (lit1 [/] z)%num in Ok (z [+] r [*] j0p (r [*] r))%num).
Proof. intros t B k H. unfold bessel_j0_zero. destruct (Z.ltb_spec 20 k); [reflexivity|lia]. Qed.
Lemma j1_shape : forall t (B : Arith) k, (21 < k)%Z -> @bessel_j1_squared B t k = (let x := (lit1 [/] (nofZ k [-] nlit 25 (-2)))%num in let x2 := (x [*] x)%num in Ok (x [*] (nlit 20264236728467555 (-17) [+] x2 [*] x2 [*] j1p x2))%num).
Proof. intros t B k H. unfold bessel_j1_squared. destruct (Z.ltb_spec 21 k); [reflexivity|lia]. Qed.
Lemma quarter_value : forall k, (nsub (nofZ k) (nlit 25 (-2)) : RA) = IZR k - / 4.
Proof. intros k. cbn [nsub nofZ nlit RA]. unfold R_lit. simpl. lra. Qed.
Lemma j0_apx : forall t k (x : A) (nu : RA), (100 <= usize_max t)%Z -> (1 <= k <= 2 ^ 40)%Z -> bessel_j0_zero t k = Ok x -> bessel_j0_zero t k = Ok nu ->
  apx x nu nu (53 / 10).
Proof.
  intros t k x nu Hu Hk. pose proof PI_lo as PL. pose proof PI_up as PU. intros Ex En. pose proof (j0_zero_close t k nu Hu ltac:(lia) En) as C. destruct (Z_lt_le_dec 20 k) as [H|H].
  - rewrite (j0_shape t A k H) in Ex. rewrite (j0_shape t RA k H) in En. cbv zeta in Ex, En. apply ok_inj in Ex. apply ok_inj in En. subst x.
    assert (K : 21 <= IZR k) by (apply IZR_le; lia). assert (K2 : IZR k <= IZR (2 ^ 40)) by (apply IZR_le; lia). assert (E1 : IZR (2 ^ 40) <= 10 ^ 18) by (simpl; lra).
    pose proof (quarter_apx k ltac:(lia)) as A1.
    pose proof (quarter_value k) as Y. set (xq := (nsub (nofZ k) (nlit 25 (-2)) : A)) in *.
    set (y := (nsub (nofZ k) (nlit 25 (-2)) : RA)) in *. rewrite <- Y in A1, C. assert (Yb : 20 + 3 / 4 <= y <= 10 ^ 18) by lra. clearbody y xq. clear Y.
    assert (Z : 60 <= PI * y <= 10 ^ 19). { split; [pose proof (Rmult_le_compat (31415 / 10000) PI (20 + 3 / 4) y); lra|pose proof (Rmult_le_compat PI 4 y (10 ^ 18)); lra]. }
    assert (A2 : apx (nmul npi xq : A) (nmul npi y : RA) (PI * y) (411 / 100)).
    { apply (apx_mul be _ _ _ _ PI y _ 1 (21 / 10)); [apply apx_pi|exact A1|lra|lra|apply rng_of; lra|side]. }
    set (zq := nmul npi xq : A) in *. set (z := nmul npi y : RA) in *. change (PI * y) with z in *. clearbody z zq. clear A1 Yb xq y.
    assert (IZ : 0 < / z <= 1 / 60). { split; [apply Rinv_0_lt_compat; lra|]. unfold Rdiv. rewrite Rmult_1_l. apply Rinv_le_contravar; lra. }
    assert (IZ2 : / 10 ^ 19 <= / z) by (apply Rinv_le_contravar; lra).
    assert (A3 : apx (ndiv lit1 zq : A) (ndiv lit1 z : RA) (/ z) (517 / 100)).
    { apply (apx_div be _ _ _ _ 1 z _ 0 (411 / 100)); [apply apx_one|exact A2|rewrite Rabs_pos_eq; lra|unfold Rdiv; lra|lra|apply rng_of; lra|side]. }
    set (rq := ndiv lit1 zq : A) in *. set (r := ndiv lit1 z : RA) in *. clearbody r rq.
    assert (A4 : apx (nmul rq rq : A) (nmul r r : RA) (1 / 3600) (1135 / 100)).
    { apply (apx_mul be _ _ _ _ (/ z) (/ z) _ (517 / 100) (517 / 100)); [exact A3|exact A3|nra|lra|side|side]. }
    apply j0p_apx in A4; [|lra]. set (pq := j0p (nmul rq rq) : A) in *. set (p := j0p (nmul r r) : RA) in *. clearbody p pq.
    assert (NP : 59 / 60 * z <= nu) by (apply abs_lower in C; lra). assert (NP2 : nu <= z + 1) by (apply abs_upper in C; lra).
    rewrite En at 1. apply (apx_sum be _ _ _ _ z (126 / 1000 * / z) _ (411 / 100) 115); [exact A2| | | |apply rng_of; lra|side].
    + apply (apx_mul be _ _ _ _ (/ z) (126 / 1000) _ (517 / 100) (8 * (1135 / 100) + 1717 / 100)); [exact A3|exact A4|lra|lra|apply rng_of; lra|side].
    + change (z + nmul r p) with (nadd z (nmul r p) : RA). rewrite <- En, Rabs_pos_eq; lra.
    + lra.
  - unfold bessel_j0_zero in Ex, En. destruct (Z.ltb_spec 20 k); [lia|]. rewrite usize_sub_ok in Ex, En by lia. cbn [bind] in Ex, En.
    apply tab_inv in Ex. apply tab_inv in En. destruct Ex as (d & Ed & ->). destruct En as (d' & Ed' & ->). rewrite Ed in Ed'. assert (d' = d) by congruence. subst d'. clear Ed' C.
    assert (Hn : exists m : nat, (m < 20)%nat /\ k = (1 + Z.of_nat m)%Z) by (exists (Z.to_nat (k - 1)); lia).
    destruct Hn as (m & Hm & ->). replace (Z.to_nat (1 + Z.of_nat m - 1)) with m in Ed by lia.
    assert (G : (snd d < 0)%Z /\ 2 <= R_lit (fst d) (snd d) <= 100).
    { do 20 (destruct m as [|m]; [injection Ed as <-; split; [reflexivity|unfold R_lit; simpl; lra]|]). lia. }
    destruct G as [G1 G2]. apply (apx_weaken _ _ (R_lit (fst d) (snd d)) (101 / 100)); [|right; reflexivity|lra|apply rng_of; cbn [dec nlit RA]; lra|side].
    apply apx_lit; [exact G1|rewrite Rabs_pos_eq; lra|apply rng_of; lra].
Qed.
Lemma one_over : forall y : R, @ndiv RA (@lit1 RA) y = / y.
Proof. intros y. change (R_lit 1 0 / y = / y). rewrite rl1. unfold Rdiv. ring. Qed.
Lemma j1_apx : forall t k (x : A) (b : RA), (100 <= usize_max t)%Z -> (1 <= k <= 2 ^ 40)%Z -> bessel_j1_squared t k = Ok x -> bessel_j1_squared t k = Ok b ->
  apx x b b (62 / 10).
Proof.
  intros t k x b Hu Hk. intros Ex En. destruct (Z_lt_le_dec 21 k) as [H|H].
  - rewrite (j1_shape t A k H) in Ex. rewrite (j1_shape t RA k H) in En. cbv zeta in Ex, En. apply ok_inj in Ex. apply ok_inj in En. subst x.
    assert (K : 22 <= IZR k) by (apply IZR_le; lia). assert (K2 : IZR k <= IZR (2 ^ 40)) by (apply IZR_le; lia). assert (E1 : IZR (2 ^ 40) <= 10 ^ 18) by (simpl; lra).
    pose proof (quarter_apx k ltac:(lia)) as A1.
    pose proof (quarter_value k) as Y. set (xq := (nsub (nofZ k) (nlit 25 (-2)) : A)) in *.
    set (y := (nsub (nofZ k) (nlit 25 (-2)) : RA)) in *. rewrite <- Y in A1. assert (Yb : 21 + 3 / 4 <= y <= 10 ^ 18) by lra. clearbody y xq. clear Y.
    assert (IY : 0 < / y <= 1 / 20). { split; [apply Rinv_0_lt_compat; lra|]. unfold Rdiv. rewrite Rmult_1_l. apply Rinv_le_contravar; lra. }
    assert (IY2 : / 10 ^ 18 <= / y) by (apply Rinv_le_contravar; lra).
    assert (A3 : apx (ndiv lit1 xq : A) (ndiv lit1 y : RA) (/ y) (314 / 100)).
    { apply (apx_div be _ _ _ _ 1 y _ 0 (21 / 10)); [apply apx_one|exact A1|rewrite Rabs_pos_eq; lra|unfold Rdiv; lra|lra|apply rng_of; lra|side]. }
    assert (RE : (ndiv lit1 y : RA) = / y) by (apply one_over).
    set (rq := ndiv lit1 xq : A) in *. set (r := ndiv lit1 y : RA) in *. clearbody r rq.
    assert (A4 : apx (nmul rq rq : A) (nmul r r : RA) (1 / 400) (73 / 10)).
    { apply (apx_mul be _ _ _ _ (/ y) (/ y) _ (314 / 100) (314 / 100)); [exact A3|exact A3|nra|lra|side|side]. }
    assert (A5 : apx (nmul (nmul rq rq) (nmul rq rq) : A) (nmul (nmul r r) (nmul r r) : RA) (1 / 160000) (157 / 10)).
    { apply (apx_mul be _ _ _ _ (1 / 400) (1 / 400) _ (73 / 10) (73 / 10)); [exact A4|exact A4|lra|lra|side|side]. }
    apply j1p_apx in A4; [|lra]. set (pq := j1p (nmul rq rq) : A) in *. set (p := j1p (nmul r r) : RA) in *. clearbody p pq.
    set (r4q := nmul (nmul rq rq) (nmul rq rq) : A) in *. set (r4 := nmul (nmul r r) (nmul r r) : RA) in *. clearbody r4q r4.
    assert (A6 : apx (nmul r4q pq : A) (nmul r4 p : RA) (1 / 10 ^ 8) 84).
    { apply (apx_mul be _ _ _ _ (1 / 160000) (1 / 1000) _ (157 / 10) (7 * (73 / 10) + 1515 / 100)); [exact A5|exact A4|lra|lra|side|side]. }
    set (sq := nmul r4q pq : A) in *. set (s := nmul r4 p : RA) in *. clearbody s sq.
    pose proof A6 as (_ & Bs & _). pose proof (abs_lower _ _ Bs) as S1. pose proof (abs_upper _ _ Bs) as S2.
    assert (L : 202 / 1000 <= R_lit 20264236728467555 (-17) <= 203 / 1000) by (unfold R_lit; simpl; lra).
    assert (AL : apx (nlit 20264236728467555 (-17) : A) (nlit 20264236728467555 (-17) : RA) (R_lit 20264236728467555 (-17)) (101 / 100)).
    { apply apx_lit; [reflexivity|rewrite Rabs_pos_eq; lra|apply rng_of; lra]. }
    change (@nlit RA 20264236728467555 (-17)) with (R_lit 20264236728467555 (-17)) in *. set (l := R_lit 20264236728467555 (-17)) in *. clearbody l.
    set (lq := nlit 20264236728467555 (-17) : A) in *. clearbody lq.
    assert (A7 : apx (nadd lq sq : A) (nadd (a := RA) l s) (l + s) (204 / 100)).
    { apply (apx_sum be _ _ _ _ l (1 / 10 ^ 8) _ (101 / 100) 84); [exact AL|exact A6|rewrite Rabs_pos_eq; lra|lra|apply rng_of; lra|side]. }
    rewrite En. assert (V : 2 / 10 <= l + s <= 1) by lra.
    apply (apx_mul be _ _ _ _ (/ y) (l + s) _ (314 / 100) (204 / 100)); [exact A3|exact A7|rewrite RE; right; reflexivity|lra| |side].
    change (rng (r * (l + s))). rewrite RE. apply rng_of. nra.
  - unfold bessel_j1_squared in Ex, En. destruct (Z.ltb_spec 21 k); [lia|]. rewrite usize_sub_ok in Ex, En by lia. cbn [bind] in Ex, En.
    apply tab_inv in Ex. apply tab_inv in En. destruct Ex as (d & Ed & ->). destruct En as (d' & Ed' & ->). rewrite Ed in Ed'. assert (d' = d) by congruence. subst d'. clear Ed'.
    assert (Hn : exists m : nat, (m < 21)%nat /\ k = (1 + Z.of_nat m)%Z) by (exists (Z.to_nat (k - 1)); lia).
    destruct Hn as (m & Hm & ->). replace (Z.to_nat (1 + Z.of_nat m - 1)) with m in Ed by lia.
    assert (G : (snd d < 0)%Z /\ 1 / 1000 <= R_lit (fst d) (snd d) <= 100).
    { do 21 (destruct m as [|m]; [injection Ed as <-; split; [reflexivity|unfold R_lit; simpl; lra]|]). lia. }
    destruct G as [G1 G2]. apply (apx_weaken _ _ (R_lit (fst d) (snd d)) (101 / 100)); [|right; reflexivity|lra|apply rng_of; cbn [dec nlit RA]; lra|side].
    apply apx_lit; [exact G1|rewrite Rabs_pos_eq; lra|apply rng_of; lra].
Qed.

(** the library's sine *)
Variable kappa : R.
Hypothesis HT : accurate_trig be kappa.
Let K : R := kappa / uro.
Lemma K_range : 0 <= K <= 10 ^ 10 /\ kappa = K * uro.
Proof.
  destruct HT as [[k0 k1] _]. pose proof uro_num as U. unfold K. split; [split|field; lra].
  - apply Rmult_le_pos; [lra|left; apply Rinv_0_lt_compat; lra].
  - apply (Rmult_le_reg_r uro); [lra|]. unfold Rdiv. rewrite Rmult_assoc, Rinv_l by lra. rewrite uro_eq. lra.
Qed.
Lemma rng_far : forall Q, / 10 ^ 50 <= Q <= 10 ^ 50 -> rng Q.
Proof. intros Q H. assert (/ 10 ^ 60 <= / 10 ^ 50) by (apply Rinv_le_contravar; lra). split; lra. Qed.
Lemma apx_sin : forall (x : A) (v : RA) c, apx x v v c -> / 10 ^ 20 <= v <= 158 / 100 -> c <= 1000 -> apx (nsin x : A) (nsin v : RA) (sin v) (201 / 100 * c + 101 / 100 * K + 1).
Proof.
  intros x v c (F & B & E & R & [c0 c1]) Hv Hc. cbn [nsin RA]. destruct K_range as [[K0 K1] KE]. pose proof uro_num as U.
  assert (E20 : 0 < / 10 ^ 20) by (apply Rinv_0_lt_compat; lra). assert (S := sin_half v ltac:(lra)). assert (SP : 0 < sin v) by lra.
  assert (D : Rabs (fval x - v) <= 2002 / 1000 * c * uro * sin v).
  { eapply Rle_trans; [exact E|]. pose proof (ex_hi c ltac:(split; lra)) as H. apply Rle_trans with (1001 / 1000 * (c * uro) * v); [apply Rmult_le_compat_r; lra|].
    assert (0 <= c * uro) by (apply Rmult_le_pos; lra). assert (c * uro * v <= c * uro * (2 * sin v)) by (apply Rmult_le_compat_l; lra). lra. }
  assert (S1 : sin v <= 1) by apply SIN_bound.
  assert (CU : 0 <= c * uro <= 1 / 10 ^ 6). { split; [apply Rmult_le_pos; lra|]. apply Rle_trans with (1000 * (1111 / 10 ^ 19)); [apply Rmult_le_compat; lra|lra]. }
  assert (D1 : Rabs (fval x - v) <= 1 / 100000 * v).
  { eapply Rle_trans; [exact E|]. apply Rmult_le_compat_r; [lra|]. pose proof (ex_hi c ltac:(split; lra)). lra. }
  pose proof (abs_lower _ _ D1). pose proof (abs_upper _ _ D1).
  destruct (proj2 HT x F ltac:(lra)) as [_ [F2 H2]]. fold eta in H2.
  pose proof (sin_lipschitz (fval x) v) as L. pose proof (Rabs_triang (sin (fval x) - sin v) (sin v)) as T. replace (sin (fval x) - sin v + sin v) with (sin (fval x)) in T by ring. rewrite (Rabs_pos_eq (sin v)) in T by lra.
  assert (Et : eta <= uro / 2 * sin v).
  { unfold eta. apply Rle_trans with (bpow radix2 (-54) * bpow radix2 (-900)); [rewrite <- bpow_plus; apply bpow_le; lia|]. apply Rmult_le_compat; try apply bpow_ge_0.
    - rewrite uro_eq. right. change (bpow radix2 (-54)) with (/ 18014398509481984). lra.
    - destruct ten_bpow as [B1 _]. eapply Rle_trans; [exact B1|]. apply Rle_trans with (/ 10 ^ 20 / 2); lra. }
  split; [exact F2|]. split; [rewrite Rabs_pos_eq; lra|]. split; [|split; [apply rng_far; split; [apply Rle_trans with (/ 10 ^ 20 / 2); lra|lra]|split; lra]].
  apply Rle_trans with ((201 / 100 * c + 101 / 100 * K + 1) * uro * sin v); [|apply Rmult_le_compat_r; [lra|apply ex_lo; lra]].
  change (fval (nsin x : A)) with (fval (be_sin be x)).
  replace (fval (be_sin be x) - sin v) with ((fval (be_sin be x) - sin (fval x)) + (sin (fval x) - sin v)) by ring. eapply Rle_trans; [apply Rabs_triang|].
  assert (P : kappa * Rabs (sin (fval x)) <= kappa * (101 / 100 * sin v)).
  { apply Rmult_le_compat_l; [destruct HT; lra|]. assert (c * uro * sin v <= 1 / 10 ^ 6 * sin v) by (apply Rmult_le_compat_r; lra). lra. }
  rewrite KE in P at 2. assert (0 <= c * uro * sin v) by (apply Rmult_le_pos; lra). assert (0 <= uro * sin v) by (apply Rmult_le_pos; lra). lra.
Qed.

Lemma expansion_apx : forall n k (nuq bq : A) (nu b : RA), (100 < n <= 2 ^ 40)%Z -> (1 <= k)%Z -> (2 * k <= n + 1)%Z ->
  Rabs (nu - PI * (IZR k - / 4)) <= 5 / 100 -> 6 / 10 <= b * nu <= 7 / 10 -> apx nuq nu nu (53 / 10) -> apx bq b b (62 / 10) ->
  apx (fst (expansion n nuq bq)) (fst (expansion n nu b)) (fst (expansion n nu b)) (98 / 10 + 6 / 1000 * K) /\
  apx (snd (expansion n nuq bq)) (snd (expansion n nu b)) (snd (expansion n nu b)) (372 / 10 + 106 / 100 * K).
Proof.
  intros n k nuq bq nu b Hn Hk H2k Hnu Hb Anu Ab. pose proof PI_lo as PL. pose proof PI_up as PU. destruct K_range as [[K0 K1] _].
  assert (N : 101 <= IZR n) by (apply IZR_le; lia). assert (N2 : IZR n <= IZR (2 ^ 40)) by (apply IZR_le; lia). assert (E40 : IZR (2 ^ 40) <= 2 * 10 ^ 12) by (simpl; lra).
  assert (K1' : 1 <= IZR k) by (apply IZR_le; lia).
  assert (K2' : 2 * IZR k <= IZR n + 1) by (rewrite <- mult_IZR; rewrite <- plus_IZR; apply IZR_le; lia).
  unfold expansion. cbn [fst snd].
  assert (Aw : apx (ndiv lit1 (nadd (nofZ n) lit_half) : A) (ndiv lit1 (nadd (nofZ n) lit_half) : RA) (/ (IZR n + / 2)) (204 / 100)).
  { assert (E : (nadd (nofZ n) lit_half : RA) = IZR n + / 2) by (change (IZR n + R_lit 5 (-1) = IZR n + / 2); rewrite rlhalf; reflexivity).
    apply (apx_div be _ _ _ _ 1 (IZR n + / 2) _ 0 (101 / 100)); [apply apx_one| |rewrite E, Rabs_pos_eq; lra|unfold Rdiv; lra|lra| |side].
    - apply (apx_add be _ _ _ _ (IZR n) (/ 2) _ 0 0); [apply apx_Z; lia|apply apx_half|lra|lra|lra|apply rng_of; lra|side].
    - apply rng_of. split; [apply Rinv_le_contravar; lra|]. apply Rle_trans with (/ 100); [apply Rinv_le_contravar; lra|lra]. }
  assert (Ew : (ndiv lit1 (nadd (nofZ n) lit_half) : RA) = / (IZR n + / 2)).
  { change (R_lit 1 0 / (IZR n + R_lit 5 (-1)) = / (IZR n + / 2)). rewrite rlhalf, rl1. unfold Rdiv. ring. }
  set (wq := ndiv lit1 (nadd (nofZ n) lit_half) : A) in *. set (w := ndiv lit1 (nadd (nofZ n) lit_half) : RA) in *. clearbody wq w. rewrite <- Ew in Aw.
  assert (W1 : w * (IZR n + / 2) = 1) by (rewrite Ew; apply Rinv_l; lra).
  assert (W2 : w <= 1 / 100) by (rewrite Ew; unfold Rdiv; rewrite Rmult_1_l; apply Rinv_le_contravar; lra).
  assert (W0 : 1 / 10 ^ 13 <= w) by (rewrite Ew; unfold Rdiv; rewrite Rmult_1_l; apply Rinv_le_contravar; lra).
  assert (NU1 : 2 <= nu) by (apply abs_lower in Hnu; nra).
  assert (NU2 : nu <= PI * (IZR k - / 4) + 5 / 100) by (apply abs_upper in Hnu; lra).
  assert (NU3 : nu <= 10 ^ 13) by nra.
  assert (TH : 2 / 10 ^ 13 <= w * nu <= 158 / 100).
  { split; [nra|]. apply Rle_trans with (w * (PI * ((IZR n + / 2) / 2) + 5 / 100)).
    - apply Rmult_le_compat_l; [lra|]. apply Rle_trans with (1 := NU2). apply Rplus_le_compat_r. apply Rmult_le_compat_l; lra.
    - replace (w * (PI * ((IZR n + / 2) / 2) + 5 / 100)) with (PI / 2 * (w * (IZR n + / 2)) + w * (5 / 100)) by field. rewrite W1. lra. }
  assert (At : apx (nmul wq nuq : A) (nmul w nu : RA) (w * nu) (835 / 100)).
  { apply (apx_mul be _ _ _ _ w nu _ (204 / 100) (53 / 10)); [exact Aw|exact Anu|lra|lra|apply rng_of; lra|side]. }
  assert (T0 : 0 < w * nu) by lra. assert (Tw : (nmul w nu : RA) = w * nu) by reflexivity.
  set (thq := nmul wq nuq : A) in *. set (th := nmul w nu : RA) in *. rewrite <- Tw in *. assert (S := sin_half th ltac:(lra)). assert (SP : 0 < sin th) by lra. assert (S1 : sin th <= 1) by apply SIN_bound.
  assert (As : apx (nsin thq : A) (nsin th : RA) (sin th) (178 / 10 + 101 / 100 * K)).
  { eapply apx_weaken; [apply (apx_sin thq th (835 / 100) At); lra|lra|lra|apply rng_of; lra|side]. }
  assert (Ax : apx (nmul thq thq : A) (nmul th th : RA) (5 / 2) (1772 / 100)).
  { apply (apx_mul be _ _ _ _ th th _ (835 / 100) (835 / 100)); [exact At|exact At|nra|lra|side|side]. }
  assert (Q1 : 1 <= th / sin th <= 2).
  { assert (sin th < th) by (apply sin_lt_x; lra). split; (apply Rmult_le_reg_r with (sin th); [lra|]; unfold Rdiv; rewrite Rmult_assoc, Rinv_l by lra; lra). }
  assert (Qn : nu / sin th = th / sin th / w) by (assert (EE : forall s, s <> 0 -> nu / s = w * nu / s / w) by (intros; field; lra); exact (EE (sin th) ltac:(lra))).
  assert (IW : 100 <= / w <= 10 ^ 13). { split; [replace 100 with (/ (1 / 100)) by lra; apply Rinv_le_contravar; lra|]. replace (10 ^ 13) with (/ (1 / 10 ^ 13)) by (field; lra). apply Rinv_le_contravar; lra. }
  assert (Q0 : 100 <= nu / sin th <= 2 * 10 ^ 13). { rewrite Qn. unfold Rdiv at 1 3. split; [nra|]. apply Rmult_le_compat; lra. }
  assert (An : apx (ndiv nuq (nsin thq) : A) (ndiv nu (nsin th) : RA) (nu / sin th) (243 / 10 + 103 / 100 * K)).
  { apply (apx_div be _ _ _ _ nu (sin th) _ (53 / 10) (178 / 10 + 101 / 100 * K)); [exact Anu|exact As|cbn [nsin RA]; rewrite Rabs_pos_eq; lra|lra|lra|apply rng_of; lra|side]. }
  change (ndiv nu (nsin th) : RA) with (nu / sin th) in *. clear As. set (nsq := ndiv nuq (nsin thq) : A) in *. clearbody nsq.
  assert (BN : 6 / 10 <= b * (nu / sin th) <= 10 ^ 14).
  { replace (b * (nu / sin th)) with (b * nu * / sin th) by (unfold Rdiv; ring). assert (1 <= / sin th) by (rewrite <- Rinv_1; apply Rinv_le_contravar; lra).
    assert (/ sin th <= 10 ^ 13). { replace (10 ^ 13) with (/ (1 / 10 ^ 13)) by (field; lra). apply Rinv_le_contravar; lra. } split; nra. }
  assert (EI : w * w * (nu / sin th) = w * (th / sin th)) by (rewrite Qn; field; lra).
  set (nos := nu / sin th) in *.
  assert (Abn : apx (nmul bq nsq : A) (nmul (a := RA) b nos) (b * nos) (316 / 10 + 103 / 100 * K)).
  { apply (apx_mul be _ _ _ _ b nos _ (62 / 10) (243 / 10 + 103 / 100 * K)); [exact Ab|exact An|lra|lra|apply rng_of; lra|side]. }
  assert (I1 : 1 / 10 ^ 13 <= w * w * nos <= 1 / 50). { rewrite EI. split; nra. }
  assert (Ai : apx (nmul (nmul wq wq) nsq : A) (nmul (a := RA) (nmul w w) nos) (w * w * nos) (304 / 10 + 103 / 100 * K)).
  { apply (apx_mul be _ _ _ _ (w * w) nos _ (509 / 100) (243 / 10 + 103 / 100 * K)); [|exact An|lra|lra|apply rng_of; lra|side].
    apply (apx_mul be _ _ _ _ w w _ (204 / 100) (204 / 100)); [exact Aw|exact Aw|lra|lra|apply rng_far; nra|side]. }
  change (nmul (a := RA) b nos) with (b * nos) in *. change (nmul (a := RA) (nmul w w) nos) with (w * w * nos) in *. clearbody nos.
  set (bnq := nmul bq nsq : A) in *. set (bn := b * nos) in *. set (iq := nmul (nmul wq wq) nsq : A) in *. set (wis := w * w * nos) in *. clearbody bnq bn iq wis.
  assert (Ai2 : apx (nmul iq iq : A) (nmul (a := RA) wis wis) (1 / 2500) (619 / 10 + 206 / 100 * K)).
  { apply (apx_mul be _ _ _ _ wis wis _ (304 / 10 + 103 / 100 * K) (304 / 10 + 103 / 100 * K)); [exact Ai|exact Ai|nra|lra|side|side]. }
  pose proof (sf1t_apx be _ _ _ Ax ltac:(lra)) as P1. pose proof (sf2t_apx be _ _ _ Ax ltac:(lra)) as P2. pose proof (sf3t_apx be _ _ _ Ax ltac:(lra)) as P3.
  pose proof (wsf1t_apx be _ _ _ Ax ltac:(lra)) as V1. pose proof (wsf2t_apx be _ _ _ Ax ltac:(lra)) as V2. pose proof (wsf3t_apx be _ _ _ Ax ltac:(lra)) as V3.
  set (xq := nmul thq thq : A) in *. set (x := nmul th th : RA) in *. clearbody xq x. set (i2q := nmul iq iq : A) in *. set (i2 := nmul (a := RA) wis wis) in *. clearbody i2q i2.
  split.
  - assert (P4 : apx (nadd (sf2t xq) (nmul i2q (sf3t xq)) : A) (nadd (sf2t x) (nmul i2 (sf3t x)) : RA) (1 / 50) (184 + 206 / 100 * K)).
    { apply (hrA be _ _ _ _ _ _ (11 / 1000) (1 / 2500) (16 / 1000) _ (6 * (1772 / 100) + 1313 / 100) (619 / 10 + 206 / 100 * K) (6 * (1772 / 100) + 1313 / 100)); [exact P3|exact Ai2|exact P2|side..]. }
    assert (P5 : apx (nadd (sf1t xq) (nmul i2q (nadd (sf2t xq) (nmul i2q (sf3t xq)))) : A) (nadd (sf1t x) (nmul i2 (nadd (sf2t x) (nmul i2 (sf3t x)))) : RA) (6 / 100) (248 + 412 / 100 * K)).
    { apply (hrA be _ _ _ _ _ _ (1 / 50) (1 / 2500) (54 / 1000) _ (184 + 206 / 100 * K) (619 / 10 + 206 / 100 * K) (6 * (1772 / 100) + 1313 / 100)); [exact P4|exact Ai2|exact P1|side..]. }
    set (gq := nadd (sf1t xq) _ : A) in *. set (g := nadd (sf1t x) _ : RA) in *. clearbody gq g.
    assert (P6 : apx (nmul (nmul thq iq) gq : A) (nmul (a := RA) (nmul (a := RA) th wis) g) (2 / 1000) (290 + 515 / 100 * K)).
    { apply (apx_mul be _ _ _ _ (316 / 10000) (6 / 100) _ (40 + 103 / 100 * K) (248 + 412 / 100 * K)); [|exact P5|side..].
      apply (apx_mul be _ _ _ _ th wis _ (835 / 100) (304 / 10 + 103 / 100 * K)); [exact At|exact Ai|nra|side..]. }
    set (cq := nmul (nmul thq iq) gq : A) in *. set (c := nmul (a := RA) (nmul (a := RA) th wis) g) in *. clearbody cq c.
    pose proof P6 as (_ & Bc & _). pose proof (abs_lower _ _ Bc) as C1. pose proof (abs_upper _ _ Bc) as C2.
    assert (P7 : apx (nadd nuq cq : A) (nadd nu c : RA) (nu + c) (67 / 10 + 6 / 1000 * K)).
    { apply (apx_sum be _ _ _ _ nu (2 / 1000) _ (53 / 10) (290 + 515 / 100 * K)); [exact Anu|exact P6|rewrite Rabs_pos_eq; lra| |apply rng_of; lra|side].
      assert (2 * K <= K * nu) by nra. assert (- (2 / 1000) * K <= K * c) by nra. lra. }
    apply (apx_mul be _ _ _ _ w (nu + c) _ (204 / 100) (67 / 10 + 6 / 1000 * K)); [exact Aw|exact P7|right; reflexivity|lra| |side].
    change (rng (w * (nu + c))). apply rng_of. split; nra.
  - assert (P4 : apx (nadd (wsf2t xq) (nmul i2q (wsf3t xq)) : A) (nadd (wsf2t x) (nmul i2 (wsf3t x)) : RA) (24 / 1000) (224 + 206 / 100 * K)).
    { apply (hrA be _ _ _ _ _ _ (99 / 10000) (1 / 2500) (23 / 1000) _ (8 * (1772 / 100) + 1717 / 100) (619 / 10 + 206 / 100 * K) (8 * (1772 / 100) + 1717 / 100)); [exact V3|exact Ai2|exact V2|side..]. }
    assert (P5 : apx (nadd (wsf1t xq) (nmul i2q (nadd (wsf2t xq) (nmul i2q (wsf3t xq)))) : A) (nadd (wsf1t x) (nmul i2 (nadd (wsf2t x) (nmul i2 (wsf3t x)))) : RA) (201 / 1000) (288 + 412 / 100 * K)).
    { apply (hrA be _ _ _ _ _ _ (24 / 1000) (1 / 2500) (20 / 100) _ (224 + 206 / 100 * K) (619 / 10 + 206 / 100 * K) (9 * (1772 / 100) + 1919 / 100)); [exact P4|exact Ai2|exact V1|side..]. }
    set (gq := nadd (wsf1t xq) _ : A) in *. set (g := nadd (wsf1t x) _ : RA) in *. clearbody gq g.
    assert (P6 : apx (nmul (nmul bnq i2q) gq : A) (nmul (a := RA) (nmul (a := RA) bn i2) g) (81 / 10 ^ 6 * bn) (385 + 721 / 100 * K)).
    { apply (apx_mul be _ _ _ _ (bn / 2500) (201 / 1000) _ (95 + 309 / 100 * K) (288 + 412 / 100 * K)); [|exact P5|lra|lra|apply rng_of; lra|side].
      apply (apx_mul be _ _ _ _ bn (1 / 2500) _ (316 / 10 + 103 / 100 * K) (619 / 10 + 206 / 100 * K)); [exact Abn|exact Ai2|lra|lra|apply rng_of; lra|side]. }
    set (cq := nmul (nmul bnq i2q) gq : A) in *. set (c := nmul (a := RA) (nmul (a := RA) bn i2) g) in *. clearbody cq c.
    pose proof P6 as (_ & Bc & _). pose proof (abs_lower _ _ Bc) as C1. pose proof (abs_upper _ _ Bc) as C2.
    assert (P7 : apx (nadd bnq cq : A) (nadd (a := RA) bn c) (bn + c) (327 / 10 + 104 / 100 * K)).
    { apply (apx_sum be _ _ _ _ bn (81 / 10 ^ 6 * bn) _ (316 / 10 + 103 / 100 * K) (385 + 721 / 100 * K)); [exact Abn|exact P6|rewrite Rabs_pos_eq; lra| |apply rng_of; lra|side].
      assert (- (81 / 10 ^ 6) * (K * bn) <= K * c) by nra. assert (0 <= K * bn) by (apply Rmult_le_pos; lra). lra. }
    assert (DB : 1 / 2 <= bn + c <= 10 ^ 15) by lra. change (nadd (a := RA) bn c) with (bn + c) in *. set (dq := nadd bnq cq : A) in *. set (d := bn + c) in *. clearbody dq d.
    assert (P8 : apx (nmul lit2 wq : A) (nmul lit2 w : RA) (2 * w) (306 / 100)).
    { apply (apx_mul be _ _ _ _ 2 w _ 0 (204 / 100)); [apply apx_two|exact Aw|lra|lra|apply rng_of; lra|side]. }
    assert (E2 : (nmul lit2 w : RA) = 2 * w) by (change (R_lit 2 0 * w = 2 * w); rewrite rl2; reflexivity).
    rewrite E2 in P8. assert (ID : / 10 ^ 15 <= / d <= 2). { split; [apply Rinv_le_contravar; lra|]. replace 2 with (/ (1 / 2)) by lra. apply Rinv_le_contravar; lra. }
    match goal with |- apx _ _ ?q _ => replace q with (2 * w / d) by (rewrite <- E2; reflexivity) end.
    apply (apx_div be _ _ (2 * w) d (2 * w) d _ (306 / 100) (327 / 10 + 104 / 100 * K)); [exact P8|exact P7|rewrite Rabs_pos_eq; lra|right; reflexivity|lra| |side].
    apply rng_far. unfold Rdiv. split; [apply Rle_trans with (2 * (1 / 10 ^ 13) * / 10 ^ 15); [lra|nra]|nra].
Qed.
End F.
