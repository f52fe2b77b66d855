(** The computations that check the tabulated Gauss-Legendre rules, in fixed point. *)
From Coq Require Import ZArith List Bool.
From Verif Require Import LegendreData LegTable Fix63 FixPoint.
Import ListNotations.
Local Open Scope Z_scope.

Definition entries (n : nat) : list ((Z * Z) * (Z * Z)) := if Nat.ltb n 2 then [] else combine (theta_row n) (weight_row n).

(** a multiple of 10^-30 *)
Definition kappa : F := Eval vm_compute in ofZ (2 ^ 221 / 10 ^ 30).
Definition dec (z : Z) : F := fmul (ofZ (z * 2 ^ 19)) kappa.
(** fixed-point angle, square of the angle, square of the cosine, cosine of the double angle, weight *)
Definition TH (d : (Z * Z) * (Z * Z)) : F := dec (fix30 (fst d)).
Definition T2 (d : (Z * Z) * (Z * Z)) : F := let t := TH d in fmul t t.
Definition X2 (d : (Z * Z) * (Z * Z)) : F := let c := cosF (T2 d) recips in fmul c c.
Definition C2 (x : F) : F := fsub (fadd x x) fone.
Definition W (d : (Z * Z) * (Z * Z)) : F := dec (fix30 (snd d)).
(** weight of the middle node *)
Definition MID (n : nat) : Z :=
  if Nat.odd n then (2 * 10 ^ 60 * SC) / (fix30 (cl_entry n) * fix30 (cl_entry n)) else 0.

(** moments of x^(2j) *)
Definition mom_defect (m : Z) (j : Z) (s : Z) : Z :=
  Z.abs (2 * s + (if j =? 0 then m else 0) - 2 * SC / (2 * j + 1)).
Fixpoint mom_steps (m : Z) (tol : Z) (k : nat) (j : Z) (st : list (F * F)) : bool :=
  match k with
  | O => true
  | S k => (mom_defect m j (sz (fsum (map fst st))) <=? tol) &&
           mom_steps m tol k (j + 1) (map (fun px => (fmul (fst px) (snd px), snd px)) st)
  end.
(** 1.4e-16 *)
Definition mom_tol : Z := Eval vm_compute in 14 * SC / 10 ^ 17.

(** Chebyshev moments, sum of the squares of the errors *)
Definition cheb_defect (j : Z) (s m : Z) : Z :=
  Z.abs (2 * s + (if Z.even j then m else - m) - (if j =? 0 then 2 * SC else - (2 * SC / (4 * j * j - 1)))).
Definition slack : Z := 2000000000.
Definition cstep (q : (F * F) * (F * F)) : (F * F) * (F * F) :=
  let m := fmul (fst (snd q)) (snd (fst q)) in ((snd (fst q), fsub (fadd m m) (fst (fst q))), snd q).
Fixpoint cheb_steps (m : Z) (k : nat) (j : Z) (st : list ((F * F) * (F * F))) (acc : Z) : Z :=
  match k with
  | O => acc
  | S k => let e := cheb_defect j (sz (fsum (map (fun q => fmul (fst (fst q)) (snd (snd q))) st))) m + slack in
           cheb_steps m k (j + 1) (map cstep st) (acc + e * e)
  end.
(** 2.1e-14 *)
Definition cheb_tol : Z := Eval vm_compute in 21 * SC / 10 ^ 15.
Definition prep (n : nat) : list (F * F) := map (fun d => (W d, X2 d)) (entries n).
Definition cprep (wx : F * F) : (F * F) * (F * F) := let c := C2 (snd wx) in ((fone, c), (c, fst wx)).

Definition weights_small (n : nat) : bool := fold_left (fun s d => s + fix30 d) (weight_row n) 0 <=? 2 * 10 ^ 30.
Definition n_check (n : nat) : bool :=
  let m := MID n in
  let st := prep n in
  mom_steps m mom_tol n 0 st && (cheb_steps m n 0 (map cprep st) 0 <=? cheb_tol * cheb_tol).
