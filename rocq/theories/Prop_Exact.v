(** Properties C34, C35, C36, C39, C40 and C12 (odd Jacobi degrees): the rules built by
    Golub-Welsch, in exact arithmetic and with an exact eigenvalue solver ([exact_on],
    EigenSpec.v: exact on the one tridiagonal matrix in question). *)
From Coq Require Import Reals List ZArith Lra Lia.
From Coquelicot Require Import Coquelicot.
From Verif Require Import Arith RInst Machine Param Rules PolySpec GolubWelsch GWSpec EigenSpec WeightSpec MassSpec
  Gamma Hermite Laguerre Jacobi RuleSpec Spectral GaussExact JacobiMore.
Import ListNotations.
Local Open Scope R_scope.

(** * Hermite *)
Theorem C34_hermite_exact : forall (ext : Linalg RA) n (r : GaussHermite RA), (1 <= n)%Z -> sorts ext ->
  exact_on ext (Z.to_nat n) (@hermite_diag RA) (@hermite_off_diag RA) -> hermite_new ext n = Ok r ->
  forall f, polynomial (2 * Z.to_nat n - 1) f -> hermite_integral f (hermite_value r f).
Proof. exact hermite_exact. Qed.
Print Assumptions C34_hermite_exact.

(** * Laguerre.  [G] is the true value of Gamma(alpha+1). *)
Theorem C35_laguerre_exact : forall (ext : Linalg RA) n (al : Param RA) (r : GaussLaguerre RA) (G : R), (1 <= n)%Z ->
  -1 < param_get al -> sorts ext ->
  exact_on ext (Z.to_nat n) (@laguerre_diag RA (param_get al)) (@laguerre_off_diag RA (param_get al)) ->
  laguerre_new ext n al = Ok r -> is_Gamma (param_get al + 1) G ->
  forall f, polynomial (2 * Z.to_nat n - 1) f ->
  exists v, laguerre_integral (param_get al) f v /\ laguerre_value r f = @gamma RA (param_get al + 1) / G * v.
Proof. exact laguerre_exact. Qed.
Print Assumptions C35_laguerre_exact.

Theorem C35_gamma_integral_exists : forall al, -1 < al -> exists G, 0 < G /\ is_Gamma (al + 1) G.
Proof. exact gamma_exists. Qed.
Print Assumptions C35_gamma_integral_exists.

(** * Jacobi.  [M] is the true total mass of the weight. *)
Theorem C36_jacobi_even_exact : forall t (ext : Linalg RA) n (pa pb : Param RA) (r : GaussJacobi RA), (2 <= n)%Z ->
  -1 < param_get pa -> -1 < param_get pb -> param_get pa + param_get pb <> -1 ->
  ~ delegated (param_get pa) (param_get pb) -> sorts ext ->
  exact_on ext (Z.to_nat n) (@jacobi_diag RA (param_get pa) (param_get pb)) (@jacobi_off_diag RA (param_get pa) (param_get pb)) ->
  jacobi_new t ext n pa pb = Ok r -> (n mod 2 = 0)%Z ->
  forall M, jacobi_integral (param_get pa) (param_get pb) (fun _ => 1) M ->
  forall f, polynomial (2 * Z.to_nat n - 1) f ->
  exists v, jacobi_integral (param_get pa) (param_get pb) f v /\
    jacobi_value r (-1) 1 f = jacobi_mass (param_get pa) (param_get pb) / M * v.
Proof. exact jacobi_even_exact. Qed.
Print Assumptions C36_jacobi_even_exact.

Theorem C36_jacobi_odd_symmetric_exact : forall t (ext : Linalg RA) n (pa pb : Param RA) (r : GaussJacobi RA), (2 <= n)%Z ->
  -1 < param_get pa -> -1 < param_get pb -> param_get pa + param_get pb <> -1 ->
  ~ delegated (param_get pa) (param_get pb) -> sorts ext ->
  exact_on ext (Z.to_nat n) (@jacobi_diag RA (param_get pa) (param_get pb)) (@jacobi_off_diag RA (param_get pa) (param_get pb)) ->
  jacobi_new t ext n pa pb = Ok r -> (n mod 2 = 1)%Z -> param_get pa = param_get pb ->
  forall M, jacobi_integral (param_get pa) (param_get pb) (fun _ => 1) M ->
  forall f, polynomial (2 * Z.to_nat n - 1) f ->
  exists v, jacobi_integral (param_get pa) (param_get pb) f v /\
    jacobi_value r (-1) 1 f = jacobi_mass (param_get pa) (param_get pb) / M * v.
Proof. exact jacobi_odd_symmetric_exact. Qed.
Print Assumptions C36_jacobi_odd_symmetric_exact.

(** Odd degree in general: the middle node, which should be [x], is stored as zero, so
    the value is off by w (f 0 - f x). *)
Theorem C36_jacobi_odd_defect : forall t (ext : Linalg RA) n (pa pb : Param RA) (r : GaussJacobi RA), (2 <= n)%Z ->
  -1 < param_get pa -> -1 < param_get pb -> param_get pa + param_get pb <> -1 ->
  ~ delegated (param_get pa) (param_get pb) -> sorts ext ->
  exact_on ext (Z.to_nat n) (@jacobi_diag RA (param_get pa) (param_get pb)) (@jacobi_off_diag RA (param_get pa) (param_get pb)) ->
  jacobi_new t ext n pa pb = Ok r -> (n mod 2 = 1)%Z ->
  forall M, jacobi_integral (param_get pa) (param_get pb) (fun _ => 1) M ->
  exists x w, monic (@jacobi_diag RA (param_get pa) (param_get pb)) (@jacobi_off_diag RA (param_get pa) (param_get pb)) (Z.to_nat n) x = 0 /\
  0 < w /\ nth (Z.to_nat (n / 2)) (jacobi_pairs r) (0, 0) = (0, w) /\
  forall f, polynomial (2 * Z.to_nat n - 1) f ->
  exists v, jacobi_integral (param_get pa) (param_get pb) f v /\
    jacobi_value r (-1) 1 f = jacobi_mass (param_get pa) (param_get pb) / M * v + w * (f 0 - f x).
Proof. exact jacobi_odd_defect. Qed.
Print Assumptions C36_jacobi_odd_defect.

(** Degree 3, alpha = 1, beta = 0: f(x) = x is integrated wrongly, even relative to the
    integral of 1. *)
Theorem C36_jacobi_odd_refuted : exists (n : Z) (al be : R), (1 <= n)%Z /\ -1 < al /\ -1 < be /\
  forall t (ext : Linalg RA) (r : GaussJacobi RA), sorts ext ->
  exact_on ext (Z.to_nat n) (@jacobi_diag RA al be) (@jacobi_off_diag RA al be) ->
  jacobi_new t ext n (@MkParam RA al) (@MkParam RA be) = Ok r ->
  exists M m1, jacobi_integral al be (fun _ => 1) M /\ jacobi_integral al be (fun x => x) m1 /\
    jacobi_value r (-1) 1 (fun x => x) * M <> jacobi_value r (-1) 1 (fun _ => 1) * m1.
Proof.
  exists 3%Z, 1, 0. split; [lia|]. split; [lra|]. split; [lra|]. exact jacobi_odd_wrong.
Qed.
Print Assumptions C36_jacobi_odd_refuted.

(** * Jacobi of degree one *)
Theorem C39_jacobi_degree_one : forall t (ext : Linalg RA) (pa pb : Param RA) (r : GaussJacobi RA) M,
  -1 < param_get pa -> -1 < param_get pb -> ~ delegated (param_get pa) (param_get pb) ->
  jacobi_new t ext 1 pa pb = Ok r -> jacobi_integral (param_get pa) (param_get pb) (fun _ => 1) M ->
  exists x, jacobi_pairs r = [(x, jacobi_mass1 (param_get pa) (param_get pb))] /\
    x = (param_get pb - param_get pa) / (param_get pa + param_get pb + 2) /\ -1 < x < 1 /\
    0 < jacobi_mass1 (param_get pa) (param_get pb) /\
    forall f, polynomial 1 f -> exists v, jacobi_integral (param_get pa) (param_get pb) f v /\
      jacobi_value r (-1) 1 f = jacobi_mass1 (param_get pa) (param_get pb) / M * v.
Proof. exact jacobi_one_exact. Qed.
Print Assumptions C39_jacobi_degree_one.

Theorem C39_jacobi_degree_one_total : forall t (ext : Linalg RA) (pa pb : Param RA),
  ~ delegated (param_get pa) (param_get pb) -> exists r, jacobi_new t ext 1 pa pb = Ok r.
Proof. exact jacobi_one_total. Qed.
Print Assumptions C39_jacobi_degree_one_total.

(** * Nodes inside the domain, positive weights, strict order *)
Theorem C40_hermite_symmetric_ascending : forall (ext : Linalg RA) n (r : GaussHermite RA), (1 <= n)%Z -> sorts ext ->
  exact_on ext (Z.to_nat n) (@hermite_diag RA) (@hermite_off_diag RA) -> hermite_new ext n = Ok r ->
  symmetric_rule (hermite_pairs r) /\ strictly_ascending (hermite_pairs r) /\
  List.Forall (fun xw : R * R => 0 < snd xw) (hermite_pairs r).
Proof. exact hermite_interior. Qed.
Print Assumptions C40_hermite_symmetric_ascending.

Theorem C40_laguerre_inside : forall (ext : Linalg RA) n (al : Param RA) (r : GaussLaguerre RA), (1 <= n)%Z ->
  -1 < param_get al -> sorts ext ->
  exact_on ext (Z.to_nat n) (@laguerre_diag RA (param_get al)) (@laguerre_off_diag RA (param_get al)) ->
  laguerre_new ext n al = Ok r ->
  List.Forall (fun xw : R * R => 0 < fst xw /\ 0 < snd xw) (laguerre_pairs r) /\ strictly_ascending (laguerre_pairs r).
Proof. exact laguerre_interior. Qed.
Print Assumptions C40_laguerre_inside.

Theorem C40_jacobi_inside : forall t (ext : Linalg RA) n (pa pb : Param RA) (r : GaussJacobi RA), (2 <= n)%Z ->
  -1 < param_get pa -> -1 < param_get pb -> param_get pa + param_get pb <> -1 ->
  ~ delegated (param_get pa) (param_get pb) -> sorts ext ->
  exact_on ext (Z.to_nat n) (@jacobi_diag RA (param_get pa) (param_get pb)) (@jacobi_off_diag RA (param_get pa) (param_get pb)) ->
  jacobi_new t ext n pa pb = Ok r ->
  List.Forall (fun xw : R * R => -1 < fst xw < 1 /\ 0 < snd xw) (jacobi_pairs r) /\
  ((n mod 2 = 0)%Z \/ param_get pa = param_get pb -> strictly_ascending (jacobi_pairs r)).
Proof. exact jacobi_interior. Qed.
Print Assumptions C40_jacobi_inside.

(** Degree 3, alpha = 42, beta = 0: all three eigenvalues are negative, the middle one
    becomes zero, and the stored nodes are not in ascending order. *)
Theorem C12_jacobi_odd_order_refuted : exists (n : Z) (al be : R), (1 <= n)%Z /\ -1 < al /\ -1 < be /\
  forall t (ext : Linalg RA) (r : GaussJacobi RA), sorts ext ->
  exact_on ext (Z.to_nat n) (@jacobi_diag RA al be) (@jacobi_off_diag RA al be) ->
  jacobi_new t ext n (@MkParam RA al) (@MkParam RA be) = Ok r -> ~ @ascending RA (jacobi_pairs r).
Proof.
  exists 3%Z, 42, 0. split; [lia|]. split; [lra|]. split; [lra|]. exact jacobi_odd_unsorted.
Qed.
Print Assumptions C12_jacobi_odd_order_refuted.

(** * The hypotheses can be met: for every degree and parameter there is an exact solver
    with which [new] returns a rule. *)
Example hermite_hypotheses : forall n, (1 <= n)%Z -> exists (ext : Linalg RA) (r : GaussHermite RA), sorts ext /\
  exact_on ext (Z.to_nat n) (@hermite_diag RA) (@hermite_off_diag RA) /\ hermite_new ext n = Ok r.
Proof. exact hermite_solver. Qed.
Example laguerre_hypotheses : forall n (al : Param RA), (1 <= n)%Z -> -1 < param_get al ->
  exists (ext : Linalg RA) (r : GaussLaguerre RA) (G : R), sorts ext /\
  exact_on ext (Z.to_nat n) (@laguerre_diag RA (param_get al)) (@laguerre_off_diag RA (param_get al)) /\
  laguerre_new ext n al = Ok r /\ is_Gamma (param_get al + 1) G.
Proof. exact laguerre_solver. Qed.
Example jacobi_hypotheses : forall t n (pa pb : Param RA), (2 <= n)%Z -> -1 < param_get pa -> -1 < param_get pb ->
  param_get pa + param_get pb <> -1 -> ~ delegated (param_get pa) (param_get pb) ->
  exists (ext : Linalg RA) (r : GaussJacobi RA) (M : R), sorts ext /\
  exact_on ext (Z.to_nat n) (@jacobi_diag RA (param_get pa) (param_get pb)) (@jacobi_off_diag RA (param_get pa) (param_get pb)) /\
  jacobi_new t ext n pa pb = Ok r /\ jacobi_integral (param_get pa) (param_get pb) (fun _ => 1) M.
Proof. exact jacobi_solver. Qed.
Example not_delegated_pair : ~ delegated 1 0 /\ ~ delegated 42 0 /\ ~ delegated 2 2.
Proof. repeat split; unfold delegated; intros [[? ?]|[[? ?]|[? ?]]]; lra. Qed.
Example degree_five_polynomial : polynomial (2 * Z.to_nat 3 - 1) (fun x => x ^ 5).
Proof. exact (PolyProof.poly_pow 5). Qed.
