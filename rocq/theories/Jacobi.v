(** Gauss-Jacobi, src/jacobi/mod.rs. *)
From Coq Require Import ZArith List Bool.
From Verif Require Import Arith Machine Param Rules Par GolubWelsch Gamma Chebyshev Legendre.
Import ListNotations.
Local Open Scope num_scope.

Section Jacobi.
Context {A : Arith}.

(** src/jacobi/mod.rs:199-235 the From conversions (the constants are
    [FiniteAboveNegOneF64::new(c).unwrap()], evaluated at compile time). *)
Definition jacobi_from_legendre (r : GaussLegendre A) : GaussJacobi A :=
  {| jacobi_pairs := legendre_pairs r; jacobi_alpha := MkParam lit0; jacobi_beta := MkParam lit0 |}.
Definition jacobi_from_chebyshev1 (r : GaussChebyshevFirstKind A) : GaussJacobi A :=
  {| jacobi_pairs := chebyshev1_pairs r;
     jacobi_alpha := MkParam lit_neg_half; jacobi_beta := MkParam lit_neg_half |}.
Definition jacobi_from_chebyshev2 (r : GaussChebyshevSecondKind A) : GaussJacobi A :=
  {| jacobi_pairs := chebyshev2_pairs r;
     jacobi_alpha := MkParam lit_half; jacobi_beta := MkParam lit_half |}.

(** src/jacobi/mod.rs:103-111 *)
Definition jacobi_diag (alpha beta : A) (idx : nat) : A :=
  match idx with
  | O => (beta [-] alpha) [/] (lit2 [+] beta [+] alpha)
  | _ =>
      let denom_sum := lit2 [*] nofZ (Z.of_nat idx) [+] alpha [+] beta in
      (beta [*] beta [-] alpha [*] alpha) [/] (denom_sum [*] (denom_sum [+] lit2))
  end.

(** src/jacobi/mod.rs:112-124 *)
Definition jacobi_off_diag (alpha beta : A) (idx : nat) : A :=
  let idx_f64 := nofZ (Z.of_nat idx) in
  let idx_p1 := idx_f64 [+] lit1 in
  let denom_sum := lit2 [*] idx_p1 [+] alpha [+] beta in
  lit2 [/] denom_sum
  [*] nsqrt (idx_p1 [*] (idx_p1 [+] alpha) [*] (idx_p1 [+] beta) [*] (idx_p1 [+] alpha [+] beta)
            [/] ((denom_sum [+] lit1) [*] (denom_sum [-] lit1))).

(** src/jacobi/mod.rs:125-129 *)
Definition jacobi_scale (alpha beta : A) : A :=
  npow lit2 (alpha [+] beta [+] lit1) [*] gamma (alpha [+] lit1) [*] gamma (beta [+] lit1)
  [/] gamma (alpha [+] beta [+] lit1) [/] (alpha [+] beta [+] lit1).

(** src/jacobi/mod.rs:89-93: the rule of degree one. *)
Definition jacobi_one_node (alpha beta : A) : A := (beta [-] alpha) [/] (alpha [+] beta [+] lit2).
Definition jacobi_one_weight (alpha beta : A) : A :=
  npow lit2 (alpha [+] beta [+] lit1) [*] gamma (alpha [+] lit1) [*] gamma (beta [+] lit1)
  [/] gamma (alpha [+] beta [+] lit2).

(** src/jacobi/mod.rs:135-137: [node_weight_pairs[deg.get() / 2].0 = 0.0]. *)
Definition zero_node (ps : Pairs A) (i : nat) : Res (Pairs A) :=
  match nth_error ps i with
  | None => Panic
  | Some (_, w) => list_set ps i (lit0, w)
  end.

(** src/jacobi/mod.rs:77-144 [new].  The patterns of the match at 80-85 compare
    floats with [==], in this order. *)
Definition jacobi_new (t : Target) (ext : Linalg A) (deg : Z) (alpha beta : Param A)
  : Res (GaussJacobi A) :=
  let al := param_get alpha in
  let be := param_get beta in
  if neqb al lit0 && neqb be lit0 then
    let! r := legendre_new t deg in Ok (jacobi_from_legendre r)
  else if neqb al lit_neg_half && neqb be lit_neg_half then
    let! r := chebyshev1_new t deg in Ok (jacobi_from_chebyshev1 r)
  else if neqb al lit_half && neqb be lit_half then
    let! r := chebyshev2_new t deg in Ok (jacobi_from_chebyshev2 r)
  else if (deg =? 1)%Z then
    Ok {| jacobi_pairs := [(jacobi_one_node al be, jacobi_one_weight al be)];
          jacobi_alpha := alpha; jacobi_beta := beta |}
  else
    let! ps := golub_welsch ext (Z.to_nat deg) (jacobi_diag al be) (jacobi_off_diag al be)
                 (jacobi_scale al be) in
    let! ps := if (deg mod 2 =? 1)%Z then zero_node ps (Z.to_nat (deg / 2)) else Ok ps in
    Ok {| jacobi_pairs := ps; jacobi_alpha := alpha; jacobi_beta := beta |}.

(** src/jacobi/mod.rs:146-152 *)
Definition jacobi_argument_transformation (x a b : A) : A :=
  lit_half [*] ((b [-] a) [*] x [+] (b [+] a)).
Definition jacobi_scale_factor (a b : A) : A := lit_half [*] (b [-] a).

(** src/jacobi/mod.rs:157-167 *)
Definition jacobi_integrate {S} (integrand : S -> A -> A * S)
  (r : GaussJacobi A) (a b : A) (s : S) : A * S :=
  let '(result, s) :=
    iter_sum (fun s '(x, w) =>
                let '(v, s) := integrand s (jacobi_argument_transformation x a b) in
                (v [*] w, s)) (jacobi_pairs r) s in
  (jacobi_scale_factor a b [*] result, s).

(** src/jacobi/mod.rs:171-181 *)
Definition jacobi_par_integrate (sch : Sched) (integrand : A -> A)
  (r : GaussJacobi A) (a b : A) : A :=
  jacobi_scale_factor a b [*]
  par_sum sch (fun '(x, w) => integrand (jacobi_argument_transformation x a b) [*] w)
          (jacobi_pairs r).

(** src/jacobi/mod.rs:185-193 the accessors [alpha], [beta] *)
Definition jacobi_get_alpha (r : GaussJacobi A) : Param A := jacobi_alpha r.
Definition jacobi_get_beta (r : GaussJacobi A) : Param A := jacobi_beta r.

End Jacobi.
