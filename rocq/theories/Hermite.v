(** Gauss-Hermite, src/hermite/mod.rs. *)
From Coq Require Import ZArith List.
From Verif Require Import Arith Machine Rules Par GolubWelsch.
Import ListNotations.
Local Open Scope num_scope.

Section Hermite.
Context {A : Arith}.

(** src/hermite/mod.rs:71-76: the closures and the scale factor. *)
Definition hermite_diag (idx : nat) : A := lit0.
Definition hermite_off_diag (idx : nat) : A :=
  nsqrt ((lit1 [+] nofZ (Z.of_nat idx)) [*] lit_half).
Definition hermite_new (ext : Linalg A) (deg : Z) : Res (GaussHermite A) :=
  let! p := golub_welsch ext (Z.to_nat deg) hermite_diag hermite_off_diag (nsqrt npi) in
  Ok {| hermite_pairs := p |}.

(** src/hermite/mod.rs:79-89 *)
Definition hermite_integrate {S} (integrand : S -> A -> A * S) (r : GaussHermite A) (s : S)
  : A * S :=
  let '(result, s) :=
    iter_sum (fun s '(x, w) => let '(v, s) := integrand s x in (v [*] w, s))
             (hermite_pairs r) s in
  (result, s).

(** src/hermite/mod.rs:93-103 *)
Definition hermite_par_integrate (t : Sched) (integrand : A -> A) (r : GaussHermite A) : A :=
  par_sum t (fun '(x, w) => integrand x [*] w) (hermite_pairs r).

End Hermite.
