(** Property C33: the Golub-Welsch driver yields a Gauss rule.
    [ext] is any eigenvalue solver that is exact on the one matrix it is given here
    ([exact_on], EigenSpec.v) together with any routine that sorts. *)
From Coq Require Import Reals List.
From Verif Require Import Arith RInst Machine RSum GolubWelsch GWSpec PolySpec EigenSpec Spectral.
Local Open Scope R_scope.

(** [L] is any linear functional for which the polynomials of the recurrence are
    orthogonal and whose total mass is the scale factor. *)
Theorem C33_exact_on_polynomials : forall (ext : Linalg RA) n (a b : nat -> R) (s : R), (1 <= n)%nat ->
  (forall i, (i < n - 1)%nat -> b i <> 0) -> sorts ext -> exact_on ext n a b ->
  forall (ps : list (R * R)) (L : (R -> R) -> R), @golub_welsch RA ext n a b s = Ok ps ->
  linear_on_polynomials L -> L (fun _ => 1) = s -> orthogonal_up_to n L (monic a b) ->
  forall f, polynomial (2 * n - 1) f -> apply_rule ps f = L f.
Proof. exact gwx_gauss. Qed.
Print Assumptions C33_exact_on_polynomials.

Theorem C33_weights_sum_to_scale : forall (ext : Linalg RA) n (a b : nat -> R) (s : R), (1 <= n)%nat ->
  sorts ext -> exact_on ext n a b ->
  forall ps, @golub_welsch RA ext n a b s = Ok ps -> lsum (map snd ps) = s.
Proof. exact gwx_sum. Qed.
Print Assumptions C33_weights_sum_to_scale.

Theorem C33_weights_positive : forall (ext : Linalg RA) n (a b : nat -> R) (s : R), (1 <= n)%nat ->
  (forall i, (i < n - 1)%nat -> b i <> 0) -> sorts ext -> exact_on ext n a b ->
  forall ps, @golub_welsch RA ext n a b s = Ok ps -> 0 < s -> Forall (fun xw => 0 < snd xw) ps.
Proof. exact gwx_pos. Qed.
Print Assumptions C33_weights_positive.

Theorem C33_nodes_distinct : forall (ext : Linalg RA) n (a b : nat -> R) (s : R), (1 <= n)%nat ->
  (forall i, (i < n - 1)%nat -> b i <> 0) -> sorts ext -> exact_on ext n a b ->
  forall ps, @golub_welsch RA ext n a b s = Ok ps -> NoDup (map fst ps).
Proof. exact gwx_distinct. Qed.
Print Assumptions C33_nodes_distinct.

(** With such a solver the driver does return a rule. *)
Theorem C33_returns_a_rule : forall (ext : Linalg RA) n (a b : nat -> R) (s : R), (1 <= n)%nat ->
  exact_on ext n a b -> exists ps, @golub_welsch RA ext n a b s = Ok ps.
Proof. exact gwx_ok. Qed.
Print Assumptions C33_returns_a_rule.

(** The hypotheses can be met: for every such matrix there is an exact solver (the
    spectral theorem for tridiagonal matrices). Functionals with orthogonal
    polynomials: the integrals of C34, C35, C36. *)
Theorem C33_exact_solver_exists : forall n (a b : nat -> R), (1 <= n)%nat ->
  (forall i, (i < n - 1)%nat -> b i <> 0) -> exists ext, sorts ext /\ exact_on ext n a b.
Proof. exact exact_solver_exists. Qed.
Print Assumptions C33_exact_solver_exists.
