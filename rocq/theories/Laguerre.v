(** Gauss-Laguerre, src/laguerre/mod.rs. *)
From Coq Require Import ZArith List.
From Verif Require Import Arith Machine Param Rules Par GolubWelsch Gamma.
Import ListNotations.
Local Open Scope num_scope.

Section Laguerre.
Context {A : Arith}.

(** src/laguerre/mod.rs:75-90: the closures and the scale factor. *)
Definition laguerre_diag (alpha : A) (idx : nat) : A :=
  alpha [+] lit1 [+] lit2 [*] nofZ (Z.of_nat idx).
Definition laguerre_off_diag (alpha : A) (idx : nat) : A :=
  let idx_f64_p1 := lit1 [+] nofZ (Z.of_nat idx) in
  nsqrt (idx_f64_p1 [*] (idx_f64_p1 [+] alpha)).
Definition laguerre_new (ext : Linalg A) (degree : Z) (alpha : Param A)
  : Res (GaussLaguerre A) :=
  let! p := golub_welsch ext (Z.to_nat degree) (laguerre_diag (param_get alpha))
              (laguerre_off_diag (param_get alpha)) (gamma (param_get alpha [+] lit1)) in
  Ok {| laguerre_pairs := p; laguerre_alpha := alpha |}.

(** src/laguerre/mod.rs:95-105 *)
Definition laguerre_integrate {S} (integrand : S -> A -> A * S) (r : GaussLaguerre A) (s : S)
  : A * S :=
  let '(result, s) :=
    iter_sum (fun s '(x, w) => let '(v, s) := integrand s x in (v [*] w, s))
             (laguerre_pairs r) s in
  (result, s).

(** src/laguerre/mod.rs:109-119 *)
Definition laguerre_par_integrate (t : Sched) (integrand : A -> A) (r : GaussLaguerre A) : A :=
  par_sum t (fun '(x, w) => integrand x [*] w) (laguerre_pairs r).

(** src/laguerre/mod.rs:123-125 [alpha] is the field itself. *)
Definition laguerre_get_alpha (r : GaussLaguerre A) : Param A := laguerre_alpha r.

End Laguerre.
