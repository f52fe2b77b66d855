(** The computations that compare the tabulated angles and weights with the zeros of the Legendre polynomials, in fixed point. *)
From Coq Require Import ZArith List Bool.
From Verif Require Import LegendreData LegTable Fix63 FixPoint LegCheck.
Import ListNotations.
Local Open Scope Z_scope.

(** (k+1)/(k+2) for k = 0, ..., 98 *)
Definition rho (k : nat) : F := ofZ (SC * (Z.of_nat k + 1) / (Z.of_nat k + 2)).
Definition rhos : list F := Eval vm_compute in map rho (seq 0 99).
(** two neighbouring Legendre polynomials at x *)
Fixpoint legs (x : F) (rs : list F) (p q : F) : F * F :=
  match rs with
  | [] => (p, q)
  | r :: rs => let m := fmul x q in legs x rs q (fadd m (fmul r (fsub m p)))
  end.
Definition ev (n : nat) (c : F) : F * F := legs c (firstn (n - 1) rhos) fone c.
(** the cosine of z / 10^30 *)
Definition cosz (z : Z) : F := let t := dec z in cosF (fmul t t) recips.

(** one Newton step *)
Definition newton (n : nat) (z : Z) : Z :=
  let c := cosz z in let pq := ev n c in let x := sz c in
  z + sz (snd pq) * Z.sqrt (SC * SC - x * x) * 10 ^ 30 / (Z.of_nat n * sz (fst pq) * SC).
Definition hints : list (list Z) := Eval vm_compute in map (fun n => map (fun d => newton n (fix30 (fst d))) (entries n)) (seq 0 101).
(** 10^-26 *)
Definition dz : Z := 10000.
Definition p28 : Z := Eval vm_compute in 10 ^ 28.
Definition p26 : Z := Eval vm_compute in 10 ^ 26.
Definition p18 : Z := Eval vm_compute in 10 ^ 18.
Definition p17 : Z := Eval vm_compute in 10 ^ 17.
Definition p13 : Z := Eval vm_compute in 10 ^ 13.
Definition p12 : Z := Eval vm_compute in 10 ^ 12.
Definition p8 : Z := Eval vm_compute in 10 ^ 8.
Definition near_zero (n : nat) (z y : Z) : bool := (Z.abs (z - y) + dz <=? 21 * p13) && (p28 <=? z) && (z <=? 156 * p28).
Definition steep (N a b : Z) : bool := p26 * (Z.abs b + p8) + p18 <=? N * (Z.abs a - Z.abs b - p8).
Definition weighs (N W X S2 : Z) : bool := (N * W <=? 4 * SC) && (p17 * (Z.abs (N * (N * X) - 2 * S2) + (5 * p13 * N + p12)) <=? 42 * (S2 - p12)).
(** the tabulated angle y / 10^30 and weight w / 10^30, with z / 10^30 close to the zero *)
Definition pair_check (n : nat) (z y w : Z) : bool :=
  let N := Z.of_nat n in let c := cosz z in let pq := ev n c in let v := dec w in
  near_zero n z y && steep N (sz (fst pq)) (sz (snd pq)) && weighs N (sz v) (sz (fmul v (fmul (fst pq) (fst pq)))) (SC - sz (fmul c c)).
Fixpoint pairs_check (n : nat) (zs : list Z) (es : list ((Z * Z) * (Z * Z))) : bool :=
  match es, zs with
  | [], _ => true
  | d :: es, z :: zs => pair_check n z (fix30 (fst d)) (fix30 (snd d)) && pairs_check n zs es
  | _, [] => false
  end.
Definition zeros_check (n : nat) : bool := pairs_check n (nth n hints []) (entries n).
(** the middle node of an odd rule *)
Definition middle_check (n : nat) : bool :=
  if Nat.odd n then
    let d := fst (ev n fzero) in let D2 := sz (fmul d d) in let k := fix30 (cl_entry n) in let N := Z.of_nat n * Z.of_nat n in
    10 ^ 17 * (Z.abs (N * D2 * 10 ^ 60 - k * k * SC) + N * 10 ^ 9 * 10 ^ 60) <=? 21 * (k * k * SC)
  else true.
