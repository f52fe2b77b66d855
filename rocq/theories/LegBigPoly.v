(** Rounding errors of the polynomials used for Gauss-Legendre rules of more
    than 100 points. *)
From Coq Require Import Reals ZArith List Lra Lia Psatz.
From Verif Require Import Arith RInst F64 F64Spec F64Proof RoundSpec RoundProof AccF64 AccCount Machine Rules Par LegendreData Legendre LegAsym.
Local Open Scope R_scope.

Ltac side := unfold rng, cnt; repeat match goal with |- _ /\ _ => split end; lra.
Ltac alit := apply apx_lit; [reflexivity|lit|side].
Section F.
Variable be : Backend.
Notation A := (F64 be).
Lemma sf1t_apx : forall (x : A) (y : RA) d, apx x y (5 / 2) d -> d <= 10 ^ 9 -> apx (@sf1t A x) (@sf1t RA y) (54 / 1000) (6 * d + 1313 / 100).
Proof.
  intros x y d Hx Hd. pose proof Hx as (_ & _ & _ & _ & [d0 _]). unfold sf1t.
  apply (hmA be _ _ _ _ _ _ (46 / 10000) (5 / 2) (42 / 1000) (54 / 1000) (5 * d + 1111 / 100) d (101 / 100) (6 * d + 1313 / 100)); [|exact Hx|alit|side..].
  apply (hpA be _ _ _ _ _ _ (16 / 100000) (5 / 2) (42 / 10000) (46 / 10000) (4 * d + 909 / 100) d (101 / 100) (5 * d + 1111 / 100)); [|exact Hx|alit|side..].
  apply (hmA be _ _ _ _ _ _ (29 / 10000000) (5 / 2) (15 / 100000) (16 / 100000) (3 * d + 707 / 100) d (101 / 100) (4 * d + 909 / 100)); [|exact Hx|alit|side..].
  apply (hpA be _ _ _ _ _ _ (33 / 1000000000) (5 / 2) (28 / 10000000) (29 / 10000000) (2 * d + 505 / 100) d (101 / 100) (3 * d + 707 / 100)); [|exact Hx|alit|side..].
  apply (hmA be _ _ _ _ _ _ (26 / 100000000000) (5 / 2) (32 / 1000000000) (33 / 1000000000) (1 * d + 303 / 100) d (101 / 100) (2 * d + 505 / 100)); [|exact Hx|alit|side..].
  apply (hpA be _ _ _ _ _ _ (13 / 10000000000000) (5 / 2) (25 / 100000000000) (26 / 100000000000) (101 / 100) d (101 / 100) (1 * d + 303 / 100)); [|exact Hx|alit|side..].
  alit.
Qed.
Lemma sf2t_apx : forall (x : A) (y : RA) d, apx x y (5 / 2) d -> d <= 10 ^ 9 -> apx (@sf2t A x) (@sf2t RA y) (16 / 1000) (6 * d + 1313 / 100).
Proof.
  intros x y d Hx Hd. pose proof Hx as (_ & _ & _ & _ & [d0 _]). unfold sf2t.
  apply (hpA be _ _ _ _ _ _ (31 / 10000) (5 / 2) (82 / 10000) (16 / 1000) (5 * d + 1111 / 100) d (101 / 100) (6 * d + 1313 / 100)); [|exact Hx|alit|side..].
  apply (hmA be _ _ _ _ _ _ (37 / 100000) (5 / 2) (21 / 10000) (31 / 10000) (4 * d + 909 / 100) d (101 / 100) (5 * d + 1111 / 100)); [|exact Hx|alit|side..].
  apply (hpA be _ _ _ _ _ _ (31 / 1000000) (5 / 2) (29 / 100000) (37 / 100000) (3 * d + 707 / 100) d (101 / 100) (4 * d + 909 / 100)); [|exact Hx|alit|side..].
  apply (hmA be _ _ _ _ _ _ (20 / 10000000) (5 / 2) (26 / 1000000) (31 / 1000000) (2 * d + 505 / 100) d (101 / 100) (3 * d + 707 / 100)); [|exact Hx|alit|side..].
  apply (hpA be _ _ _ _ _ _ (82 / 1000000000) (5 / 2) (17 / 10000000) (20 / 10000000) (1 * d + 303 / 100) d (101 / 100) (2 * d + 505 / 100)); [|exact Hx|alit|side..].
  apply (hmA be _ _ _ _ _ _ (23 / 10000000000) (5 / 2) (76 / 1000000000) (82 / 1000000000) (101 / 100) d (101 / 100) (1 * d + 303 / 100)); [|exact Hx|alit|side..].
  alit.
Qed.
Lemma sf3t_apx : forall (x : A) (y : RA) d, apx x y (5 / 2) d -> d <= 10 ^ 9 -> apx (@sf3t A x) (@sf3t RA y) (11 / 1000) (6 * d + 1313 / 100).
Proof.
  intros x y d Hx Hd. pose proof Hx as (_ & _ & _ & _ & [d0 _]). unfold sf3t.
  apply (hmA be _ _ _ _ _ _ (24 / 10000) (5 / 2) (42 / 10000) (11 / 1000) (5 * d + 1111 / 100) d (101 / 100) (6 * d + 1313 / 100)); [|exact Hx|alit|side..].
  apply (hpA be _ _ _ _ _ _ (42 / 100000) (5 / 2) (13 / 10000) (24 / 10000) (4 * d + 909 / 100) d (101 / 100) (5 * d + 1111 / 100)); [|exact Hx|alit|side..].
  apply (hmA be _ _ _ _ _ _ (61 / 1000000) (5 / 2) (26 / 100000) (42 / 100000) (3 * d + 707 / 100) d (101 / 100) (4 * d + 909 / 100)); [|exact Hx|alit|side..].
  apply (hpA be _ _ _ _ _ _ (73 / 10000000) (5 / 2) (42 / 1000000) (61 / 1000000) (2 * d + 505 / 100) d (101 / 100) (3 * d + 707 / 100)); [|exact Hx|alit|side..].
  apply (hmA be _ _ _ _ _ _ (64 / 100000000) (5 / 2) (57 / 10000000) (73 / 10000000) (1 * d + 303 / 100) d (101 / 100) (2 * d + 505 / 100)); [|exact Hx|alit|side..].
  apply (hpA be _ _ _ _ _ _ (30 / 1000000000) (5 / 2) (56 / 100000000) (64 / 100000000) (101 / 100) d (101 / 100) (1 * d + 303 / 100)); [|exact Hx|alit|side..].
  alit.
Qed.
Lemma wsf1t_apx : forall (x : A) (y : RA) d, apx x y (5 / 2) d -> d <= 10 ^ 9 -> apx (@wsf1t A x) (@wsf1t RA y) (20 / 100) (9 * d + 1919 / 100).
Proof.
  intros x y d Hx Hd. pose proof Hx as (_ & _ & _ & _ & [d0 _]). unfold wsf1t.
  apply (hpA be _ _ _ _ _ _ (45 / 1000) (5 / 2) (84 / 1000) (20 / 100) (8 * d + 1717 / 100) d (101 / 100) (9 * d + 1919 / 100)); [|exact Hx|alit|side..].
  apply (hmA be _ _ _ _ _ _ (54 / 10000) (5 / 2) (31 / 1000) (45 / 1000) (7 * d + 1515 / 100) d (101 / 100) (8 * d + 1717 / 100)); [|exact Hx|alit|side..].
  apply (hpA be _ _ _ _ _ _ (38 / 100000) (5 / 2) (44 / 10000) (54 / 10000) (6 * d + 1313 / 100) d (101 / 100) (7 * d + 1515 / 100)); [|exact Hx|alit|side..].
  apply (hmA be _ _ _ _ _ _ (17 / 1000000) (5 / 2) (33 / 100000) (38 / 100000) (5 * d + 1111 / 100) d (101 / 100) (6 * d + 1313 / 100)); [|exact Hx|alit|side..].
  apply (hpA be _ _ _ _ _ _ (50 / 100000000) (5 / 2) (15 / 1000000) (17 / 1000000) (4 * d + 909 / 100) d (101 / 100) (5 * d + 1111 / 100)); [|exact Hx|alit|side..].
  apply (hmA be _ _ _ _ _ _ (12 / 1000000000) (5 / 2) (47 / 100000000) (50 / 100000000) (3 * d + 707 / 100) d (101 / 100) (4 * d + 909 / 100)); [|exact Hx|alit|side..].
  apply (hpA be _ _ _ _ _ _ (19 / 100000000000) (5 / 2) (11 / 1000000000) (12 / 1000000000) (2 * d + 505 / 100) d (101 / 100) (3 * d + 707 / 100)); [|exact Hx|alit|side..].
  apply (hmA be _ _ _ _ _ _ (25 / 10000000000000) (5 / 2) (18 / 100000000000) (19 / 100000000000) (1 * d + 303 / 100) d (101 / 100) (2 * d + 505 / 100)); [|exact Hx|alit|side..].
  apply (hpA be _ _ _ _ _ _ (23 / 1000000000000000) (5 / 2) (24 / 10000000000000) (25 / 10000000000000) (101 / 100) d (101 / 100) (1 * d + 303 / 100)); [|exact Hx|alit|side..].
  alit.
Qed.
Lemma wsf2t_apx : forall (x : A) (y : RA) d, apx x y (5 / 2) d -> d <= 10 ^ 9 -> apx (@wsf2t A x) (@wsf2t RA y) (23 / 1000) (8 * d + 1717 / 100).
Proof.
  intros x y d Hx Hd. pose proof Hx as (_ & _ & _ & _ & [d0 _]). unfold wsf2t.
  apply (hmA be _ _ _ _ _ _ (41 / 10000) (5 / 2) (12 / 1000) (23 / 1000) (7 * d + 1515 / 100) d (101 / 100) (8 * d + 1717 / 100)); [|exact Hx|alit|side..].
  apply (hpA be _ _ _ _ _ _ (56 / 100000) (5 / 2) (27 / 10000) (41 / 10000) (6 * d + 1313 / 100) d (101 / 100) (7 * d + 1515 / 100)); [|exact Hx|alit|side..].
  apply (hmA be _ _ _ _ _ _ (59 / 1000000) (5 / 2) (41 / 100000) (56 / 100000) (5 * d + 1111 / 100) d (101 / 100) (6 * d + 1313 / 100)); [|exact Hx|alit|side..].
  apply (hpA be _ _ _ _ _ _ (45 / 10000000) (5 / 2) (47 / 1000000) (59 / 1000000) (4 * d + 909 / 100) d (101 / 100) (5 * d + 1111 / 100)); [|exact Hx|alit|side..].
  apply (hmA be _ _ _ _ _ _ (24 / 100000000) (5 / 2) (39 / 10000000) (45 / 10000000) (3 * d + 707 / 100) d (101 / 100) (4 * d + 909 / 100)); [|exact Hx|alit|side..].
  apply (hpA be _ _ _ _ _ _ (75 / 10000000000) (5 / 2) (22 / 100000000) (24 / 100000000) (2 * d + 505 / 100) d (101 / 100) (3 * d + 707 / 100)); [|exact Hx|alit|side..].
  apply (hmA be _ _ _ _ _ _ (87 / 1000000000000) (5 / 2) (72 / 10000000000) (75 / 10000000000) (1 * d + 303 / 100) d (101 / 100) (2 * d + 505 / 100)); [|exact Hx|alit|side..].
  apply (hpA be _ _ _ _ _ _ (37 / 10000000000000) (5 / 2) (77 / 1000000000000) (87 / 1000000000000) (101 / 100) d (101 / 100) (1 * d + 303 / 100)); [|exact Hx|alit|side..].
  alit.
Qed.
Lemma wsf3t_apx : forall (x : A) (y : RA) d, apx x y (5 / 2) d -> d <= 10 ^ 9 -> apx (@wsf3t A x) (@wsf3t RA y) (99 / 10000) (8 * d + 1717 / 100).
Proof.
  intros x y d Hx Hd. pose proof Hx as (_ & _ & _ & _ & [d0 _]). unfold wsf3t.
  apply (hpA be _ _ _ _ _ _ (13 / 10000) (5 / 2) (66 / 10000) (99 / 10000) (7 * d + 1515 / 100) d (101 / 100) (8 * d + 1717 / 100)); [|exact Hx|alit|side..].
  apply (hmA be _ _ _ _ _ _ (46 / 100000) (5 / 2) (95 / 1000000) (13 / 10000) (6 * d + 1313 / 100) d (101 / 100) (7 * d + 1515 / 100)); [|exact Hx|alit|side..].
  apply (hmA be _ _ _ _ _ _ (14 / 100000) (5 / 2) (11 / 100000) (46 / 100000) (5 * d + 1111 / 100) d (101 / 100) (6 * d + 1313 / 100)); [|exact Hx|alit|side..].
  apply (hmA be _ _ _ _ _ _ (35 / 1000000) (5 / 2) (43 / 1000000) (14 / 100000) (4 * d + 909 / 100) d (101 / 100) (5 * d + 1111 / 100)); [|exact Hx|alit|side..].
  apply (hpA be _ _ _ _ _ _ (56 / 10000000) (5 / 2) (21 / 1000000) (35 / 1000000) (3 * d + 707 / 100) d (101 / 100) (4 * d + 909 / 100)); [|exact Hx|alit|side..].
  apply (hmA be _ _ _ _ _ _ (64 / 100000000) (5 / 2) (40 / 10000000) (56 / 10000000) (2 * d + 505 / 100) d (101 / 100) (3 * d + 707 / 100)); [|exact Hx|alit|side..].
  apply (hpA be _ _ _ _ _ _ (50 / 1000000000) (5 / 2) (51 / 100000000) (64 / 100000000) (1 * d + 303 / 100) d (101 / 100) (2 * d + 505 / 100)); [|exact Hx|alit|side..].
  apply (hmA be _ _ _ _ _ _ (21 / 10000000000) (5 / 2) (44 / 1000000000) (50 / 1000000000) (101 / 100) d (101 / 100) (1 * d + 303 / 100)); [|exact Hx|alit|side..].
  alit.
Qed.
End F.
