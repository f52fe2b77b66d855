(** Gauss-Legendre: Bogaert's algorithm, src/legendre/bogaert/mod.rs, and the
    rule itself, src/legendre/mod.rs. *)
From Coq Require Import ZArith List Bool.
From Verif Require Import Arith Machine Rules Par LegendreData.
Import ListNotations.
Local Open Scope num_scope.

Section Legendre.
Context {A : Arith}.
Variable t : Target.

(** A table entry: the decimal literal in the source, as a number. *)
Definition dec (d : Z * Z) : A := nlit (fst d) (snd d).
(** [TABLE[i]] and [TABLE[i][j]] *)
Definition tab (l : list (Z * Z)) (i : Z) : Res A :=
  let! d := index l i in Ok (dec d).
Definition tab2 (l : list (list (Z * Z))) (i j : Z) : Res A :=
  let! row := index l i in tab row j.

(** src/legendre/bogaert/mod.rs:32-41 *)
Definition bessel_j0_zero (k : Z) : Res A :=
  if (20 <? k)%Z then
    let z := npi [*] (nofZ k [-] nlit 25 (-2)) in
    let r := lit1 [/] z in
    let r2 := r [*] r in
    Ok (z [+] r [*] (nlit 125 (-3) [+] r2 [*] (nlit (-8072916666666667) (-17) [+] r2 [*] (nlit 24602864583333334 (-17) [+] r2 [*] (nlit (-1824438767206101) (-15) [+] r2 [*] (nlit 25336414797343906 (-15) [+] r2 [*] (nlit (-5676444121351834) (-13) [+] r2 [*] (nlit 18690476528232066 (-12) [+] r2 [*] (nlit (-8493535802991488) (-10) [+] nlit 5092254624022268 (-8) [*] r2)))))))))
  else
    let! i := usize_sub t k 1 in tab JZ i.

(** src/legendre/bogaert/mod.rs:53-61 *)
Definition bessel_j1_squared (k : Z) : Res A :=
  if (21 <? k)%Z then
    let x := lit1 [/] (nofZ k [-] nlit 25 (-2)) in
    let x2 := x [*] x in
    Ok (x [*] (nlit 20264236728467555 (-17) [+] x2 [*] x2 [*] (nlit (-30338042971129027) (-20) [+] x2 [*] (nlit 1989243642459693 (-19) [+] x2 [*] (nlit (-22896990277211166) (-20) [+] x2 [*] (nlit 4337107191307463 (-19) [+] x2 [*] (nlit (-1236323497271754) (-18) [+] x2 [*] (nlit 49610142326888314 (-19) [+] x2 [*] (nlit (-26683739370232377) (-18) [+] nlit 18539539820634562 (-17) [*] x2)))))))))
  else
    let! i := usize_sub t k 1 in tab J1 i.

(** src/legendre/bogaert/mod.rs:141-148: Chebyshev interpolants. *)
Definition sf1t (x : A) : A := (((((nlit (-12905299627428051) (-28) [*] x [+] nlit 24072468586433013 (-26)) [*] x [-] nlit 31314865463599204 (-24)) [*] x [+] nlit 27557316896206124 (-22)) [*] x [-] nlit 14880952371390914 (-20)) [*] x [+] nlit 4166666666651934 (-18)) [*] x [-] nlit 416666666666663 (-16).
Definition sf2t (x : A) : A := (((((nlit 220639421781871 (-23) [*] x [-] nlit 7530367713737693 (-23)) [*] x [+] nlit 16196925945383627 (-22)) [*] x [-] nlit 253300326008232 (-19)) [*] x [+] nlit 28211688605756045 (-20)) [*] x [-] nlit 2090222483878529 (-18)) [*] x [+] nlit 8159722217729322 (-18).
Definition sf3t (x : A) : A := (((((nlit (-29705822537552623) (-24) [*] x [+] nlit 5558453302237962 (-22)) [*] x [-] nlit 5677978413568331 (-21)) [*] x [+] nlit 4184981003295046 (-20)) [*] x [-] nlit 2513952932839659 (-19)) [*] x [+] nlit 12865419854284513 (-19)) [*] x [-] nlit 4160121656202043 (-18).
Definition wsf1t (x : A) : A := ((((((((nlit (-22090286104461664) (-30) [*] x [+] nlit 23036572686037738 (-28)) [*] x [-] nlit 1752577007354238 (-25)) [*] x [+] nlit 1037560669279168 (-23)) [*] x [-] nlit 4639686475532213 (-22)) [*] x [+] nlit 14964459362502864 (-21)) [*] x [-] nlit 3262786595944122 (-19)) [*] x [+] nlit 4365079365075981 (-18)) [*] x [-] nlit 305555555555553 (-16)) [*] x [+] nlit 8333333333333333 (-17).
Definition wsf2t (x : A) : A := (((((((nlit 3631174121526548 (-27) [*] x [+] nlit 7676435450698932 (-26)) [*] x [-] nlit 7129128572336422 (-24)) [*] x [+] nlit 21148388068594716 (-23)) [*] x [-] nlit 3818179186800454 (-21)) [*] x [+] nlit 4659695306949684 (-20)) [*] x [-] nlit 40729718561133575 (-20)) [*] x [+] nlit 2689594356947297 (-18)) [*] x [-] nlit 11111111111121492 (-18).
Definition wsf3t (x : A) : A := (((((((nlit 2018267912567033 (-24) [*] x [-] nlit 4386471225202067 (-23)) [*] x [+] nlit 5088983472886716 (-22)) [*] x [-] nlit 39793331651913525 (-22)) [*] x [+] nlit 20055932639645834 (-21)) [*] x [-] nlit 4228880592829212 (-20)) [*] x [-] nlit 10564605025407614 (-20)) [*] x [-] nlit 9479693089585773 (-20)) [*] x [+] nlit 6569664899264848 (-18).

(** src/legendre/bogaert/mod.rs:131-160 after the two Bessel quantities [nu] and
    [b] are known; a ThetaWeightPair is a pair (theta, weight). *)
Definition expansion (n : Z) (nu b : A) : A * A :=
  let w := lit1 [/] (nofZ n [+] lit_half) in
  let theta := w [*] nu in
  let x := theta [*] theta in
  let nu_o_sin := nu [/] nsin theta in
  let b_nu_o_sin := b [*] nu_o_sin in
  let w_inv_sinc := w [*] w [*] nu_o_sin in
  let wis2 := w_inv_sinc [*] w_inv_sinc in
  (w [*] (nu [+] theta [*] w_inv_sinc [*] (sf1t x [+] wis2 [*] (sf2t x [+] wis2 [*] sf3t x))),
   lit2 [*] w [/] (b_nu_o_sin [+] b_nu_o_sin [*] wis2 [*] (wsf1t x [+] wis2 [*] (wsf2t x [+] wis2 [*] wsf3t x)))).

(** src/legendre/bogaert/mod.rs:130-161 *)
Definition compute_pair (n k : Z) : Res (A * A) :=
  let! nu := bessel_j0_zero k in
  let! b := bessel_j1_squared k in
  Ok (expansion n nu b).

(** src/legendre/bogaert/mod.rs:169-199 *)
Definition tabulated_pair (n k : Z) : Res (A * A) :=
  if (n mod 2 =? 1)%Z then
    let! nm1 := usize_sub t n 1 in
    let n2 := (nm1 / 2)%Z in
    match (k ?= n2)%Z with
    | Eq =>
        let! c := tab CL n in
        Ok (npi [/] lit2, lit2 [/] (c [*] c))
    | Lt =>
        let! i := usize_sub t n2 1 in
        let! d := usize_sub t n2 k in
        let! j := usize_sub t d 1 in
        let! theta := tab2 ODD_THETA_ZEROS i j in
        let! weight := tab2 ODD_WEIGHTS i j in
        Ok (theta, weight)
    | Gt =>
        let! i := usize_sub t n2 1 in
        let! d := usize_sub t k n2 in
        let! j := usize_sub t d 1 in
        let! theta := tab2 ODD_THETA_ZEROS i j in
        let! weight := tab2 ODD_WEIGHTS i j in
        Ok (npi [-] theta, weight)
    end
  else
    let n2 := (n / 2)%Z in
    match (k ?= n2)%Z with
    | Lt =>
        let! i := usize_sub t n2 1 in
        let! d := usize_sub t n2 k in
        let! j := usize_sub t d 1 in
        let! theta := tab2 EVEN_THETA_ZEROS i j in
        let! weight := tab2 EVEN_WEIGHTS i j in
        Ok (theta, weight)
    | Eq | Gt =>
        let! i := usize_sub t n2 1 in
        let! j := usize_sub t k n2 in
        let! theta := tab2 EVEN_THETA_ZEROS i j in
        let! weight := tab2 EVEN_WEIGHTS i j in
        Ok (npi [-] theta, weight)
    end.

(** src/legendre/bogaert/mod.rs:110-121 [ThetaWeightPair::new] *)
Definition theta_weight_pair (n k : Z) : Res (A * A) :=
  if (n <=? 100)%Z then
    let! i := usize_sub t k 1 in tabulated_pair n i
  else
    let! k2 := usize_mul t 2 k in
    let! k2m1 := usize_sub t k2 1 in
    if (n <? k2m1)%Z then
      let! d := usize_sub t n k in
      let! k' := usize_add t d 1 in
      let! p := compute_pair n k' in
      Ok (npi [-] fst p, snd p)
    else compute_pair n k.

(** src/legendre/bogaert/mod.rs:72-94 [NodeWeightPair::new], [into_tuple], [From] *)
Definition node_weight_pair (n k : Z) : Res (A * A) :=
  let! p := theta_weight_pair n k in
  Ok (ncos (fst p), snd p).

(** src/legendre/mod.rs:92-99 [new] *)
Definition legendre_new (degree : Z) : Res (GaussLegendre A) :=
  let! top := usize_add t degree 1 in
  let! ps := collect_res (fun k => node_weight_pair degree k) (rev (zrange 1 top)) in
  Ok {| legendre_pairs := ps |}.

(** src/legendre/mod.rs:103-111 [par_new] *)
Definition legendre_par_new (sch : Sched) (degree : Z) : Res (GaussLegendre A) :=
  let! top := usize_add t degree 1 in
  let! ps := par_collect_res sch (fun k => node_weight_pair degree k) (rev (zrange 1 top)) in
  Ok {| legendre_pairs := ps |}.

(** src/legendre/mod.rs:113-119 *)
Definition legendre_argument_transformation (x a b : A) : A :=
  lit_half [*] ((b [-] a) [*] x [+] (b [+] a)).
Definition legendre_scale_factor (a b : A) : A := lit_half [*] (b [-] a).

(** src/legendre/mod.rs:134-144 *)
Definition legendre_integrate {S} (integrand : S -> A -> A * S)
  (r : GaussLegendre A) (a b : A) (s : S) : A * S :=
  let '(result, s) :=
    iter_sum (fun s '(x, w) =>
                let '(v, s) := integrand s (legendre_argument_transformation x a b) in
                (v [*] w, s)) (legendre_pairs r) s in
  (legendre_scale_factor a b [*] result, s).

(** src/legendre/mod.rs:158-168 *)
Definition legendre_par_integrate (sch : Sched) (integrand : A -> A)
  (r : GaussLegendre A) (a b : A) : A :=
  legendre_scale_factor a b [*]
  par_sum sch (fun '(x, w) => integrand (legendre_argument_transformation x a b) [*] w)
          (legendre_pairs r).

End Legendre.
