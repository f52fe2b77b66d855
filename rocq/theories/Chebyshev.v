(** Gauss-Chebyshev rules, src/chebyshev/mod.rs. *)
From Coq Require Import ZArith List.
From Verif Require Import Arith Machine Rules Par.
Import ListNotations.
Local Open Scope num_scope.

Section Chebyshev.
Context {A : Arith}.

(** The closure of src/chebyshev/mod.rs:56 (and 78):
    [(cos(PI * (2.0 * (i as f64) - 1.0) / (2.0 * n)), PI / n)]. *)
Definition chebyshev1_pair (n : A) (i : Z) : A * A :=
  (ncos (npi [*] (lit2 [*] nofZ i [-] lit1) [/] (lit2 [*] n)), npi [/] n).

(** src/chebyshev/mod.rs:50-59 [new]; [degree.get() + 1] may overflow. *)
Definition chebyshev1_new (t : Target) (degree : Z) : Res (GaussChebyshevFirstKind A) :=
  let n := nofZ degree in
  let! top := usize_add t degree 1 in
  Ok {| chebyshev1_pairs := map (chebyshev1_pair n) (rev (zrange 1 top)) |}.

(** src/chebyshev/mod.rs:71-81 [par_new] *)
Definition chebyshev1_par_new (t : Target) (sch : Sched) (degree : Z)
  : Res (GaussChebyshevFirstKind A) :=
  let n := nofZ degree in
  let! top := usize_add t degree 1 in
  let! ps := par_collect_res sch (fun i => Ok (chebyshev1_pair n i)) (rev (zrange 1 top)) in
  Ok {| chebyshev1_pairs := ps |}.

(** src/chebyshev/mod.rs:61-67 (and 187-193) *)
Definition chebyshev_argument_transformation (x a b : A) : A :=
  lit_half [*] ((b [-] a) [*] x [+] (b [+] a)).
Definition chebyshev_scale_factor (a b : A) : A := lit_half [*] (b [-] a).

(** The closure of src/chebyshev/mod.rs:154-161 (and 175-182). *)
Definition chebyshev2_pair (n : A) (i : Z) : A * A :=
  let over_n_plus_1 := lit1 [/] (n [+] lit1) in
  let sin_val := nsin (npi [*] nofZ i [*] over_n_plus_1) in
  (ncos (npi [*] nofZ i [*] over_n_plus_1), npi [*] over_n_plus_1 [*] sin_val [*] sin_val).

(** src/chebyshev/mod.rs:148-164 [new] *)
Definition chebyshev2_new (t : Target) (degree : Z) : Res (GaussChebyshevSecondKind A) :=
  let n := nofZ degree in
  let! top := usize_add t degree 1 in
  Ok {| chebyshev2_pairs := map (chebyshev2_pair n) (rev (zrange 1 top)) |}.

(** src/chebyshev/mod.rs:168-185 [par_new] *)
Definition chebyshev2_par_new (t : Target) (sch : Sched) (degree : Z)
  : Res (GaussChebyshevSecondKind A) :=
  let n := nofZ degree in
  let! top := usize_add t degree 1 in
  let! ps := par_collect_res sch (fun i => Ok (chebyshev2_pair n i)) (rev (zrange 1 top)) in
  Ok {| chebyshev2_pairs := ps |}.

(** The loop of src/chebyshev/mod.rs:95-105 and 207-217 [integrate]. *)
Definition chebyshev1_integrate {S} (integrand : S -> A -> A * S)
  (r : GaussChebyshevFirstKind A) (a b : A) (s : S) : A * S :=
  let '(result, s) :=
    iter_sum (fun s '(x, w) =>
                let '(v, s) := integrand s (chebyshev_argument_transformation x a b) in
                (v [*] w, s)) (chebyshev1_pairs r) s in
  (result [*] chebyshev_scale_factor a b, s).
Definition chebyshev2_integrate {S} (integrand : S -> A -> A * S)
  (r : GaussChebyshevSecondKind A) (a b : A) (s : S) : A * S :=
  let '(result, s) :=
    iter_sum (fun s '(x, w) =>
                let '(v, s) := integrand s (chebyshev_argument_transformation x a b) in
                (v [*] w, s)) (chebyshev2_pairs r) s in
  (result [*] chebyshev_scale_factor a b, s).

(** src/chebyshev/mod.rs:109-119 and 221-231 [par_integrate] *)
Definition chebyshev1_par_integrate (t : Sched) (integrand : A -> A)
  (r : GaussChebyshevFirstKind A) (a b : A) : A :=
  par_sum t (fun '(x, w) => integrand (chebyshev_argument_transformation x a b) [*] w)
          (chebyshev1_pairs r) [*] chebyshev_scale_factor a b.
Definition chebyshev2_par_integrate (t : Sched) (integrand : A -> A)
  (r : GaussChebyshevSecondKind A) (a b : A) : A :=
  par_sum t (fun '(x, w) => integrand (chebyshev_argument_transformation x a b) [*] w)
          (chebyshev2_pairs r) [*] chebyshev_scale_factor a b.

End Chebyshev.
