(** Properties C10, C11, C12 (Golub-Welsch rules), C32: building rules.
    The eigenvalue solver and the sorting routine are arbitrary ([ext]) up to the
    documented behaviour in GWSpec ([shape_preserving], [sorts]); [t] is any
    target (overflow behaviour, usize::MAX). *)
From Coq Require Import ZArith List Bool Permutation.
From Verif Require Import Arith F64 Machine Param Rules Par Chebyshev GolubWelsch Gamma Hermite Laguerre
  Legendre Jacobi GWSpec GWProof SizeProof.
Import ListNotations.
Local Open Scope Z_scope.

(** C10: a rule that is returned has the requested number of nodes. *)
Theorem C10_legendre_degree : forall (A : Arith) (t : Target) n (r : GaussLegendre A), 1 <= n < usize_max t ->
  legendre_new t n = Ok r -> rule_degree (legendre_pairs r) = Z.to_nat n.
Proof. exact @legendre_degree. Qed.
Print Assumptions C10_legendre_degree.
Theorem C10_chebyshev1_degree : forall (A : Arith) (t : Target) n (r : GaussChebyshevFirstKind A),
  1 <= n < usize_max t -> chebyshev1_new t n = Ok r -> rule_degree (chebyshev1_pairs r) = Z.to_nat n.
Proof. exact @chebyshev1_degree. Qed.
Print Assumptions C10_chebyshev1_degree.
Theorem C10_chebyshev2_degree : forall (A : Arith) (t : Target) n (r : GaussChebyshevSecondKind A),
  1 <= n < usize_max t -> chebyshev2_new t n = Ok r -> rule_degree (chebyshev2_pairs r) = Z.to_nat n.
Proof. exact @chebyshev2_degree. Qed.
Print Assumptions C10_chebyshev2_degree.
Theorem C10_hermite_degree : forall (A : Arith) (ext : Linalg A) n (r : GaussHermite A),
  1 <= n -> shape_preserving ext -> sorts ext ->
  hermite_new ext n = Ok r -> rule_degree (hermite_pairs r) = Z.to_nat n.
Proof. exact @hermite_degree. Qed.
Print Assumptions C10_hermite_degree.
Theorem C10_laguerre_degree : forall (A : Arith) (ext : Linalg A) n alpha (r : GaussLaguerre A),
  1 <= n -> shape_preserving ext -> sorts ext ->
  laguerre_new ext n alpha = Ok r -> rule_degree (laguerre_pairs r) = Z.to_nat n.
Proof. exact @laguerre_degree. Qed.
Print Assumptions C10_laguerre_degree.
Theorem C10_jacobi_degree : forall (A : Arith) (t : Target) (ext : Linalg A) n alpha beta (r : GaussJacobi A),
  1 <= n < usize_max t -> shape_preserving ext -> sorts ext ->
  jacobi_new t ext n alpha beta = Ok r -> rule_degree (jacobi_pairs r) = Z.to_nat n.
Proof. exact @jacobi_degree. Qed.
Print Assumptions C10_jacobi_degree.
(** The hypotheses on the external code can be met in any arithmetic. *)
Example C10_example : forall A : Arith, exists ext : Linalg A, shape_preserving ext /\ sorts ext.
Proof. exact (fun A => ex_intro _ toy_linalg (conj toy_shape toy_sorts)). Qed.
(** The largest degree: degree + 1 overflows; a release build returns a rule
    without nodes instead of the requested one. *)
Theorem C10_max_degree_refuted : exists (m : Z) (t : Target), 0 < m /\ usize_max t = m /\ forall A : Arith,
  (exists r, @legendre_new A t m = Ok r /\ rule_degree (legendre_pairs r) = 0%nat) /\
  (exists r, @chebyshev1_new A t m = Ok r /\ rule_degree (chebyshev1_pairs r) = 0%nat) /\
  (exists r, @chebyshev2_new A t m = Ok r /\ rule_degree (chebyshev2_pairs r) = 0%nat).
Proof. exact max_degree_witness. Qed.
Print Assumptions C10_max_degree_refuted.

(** C11: no panic (out-of-bounds index, integer underflow) for any degree whose
    rule fits into the address space. *)
Theorem C11_legendre_never_panics : forall (A : Arith) (t : Target) n,
  100 <= usize_max t -> 1 <= n -> 2 * n <= usize_max t ->
  exists r, @legendre_new A t n = Ok r /\ rule_degree (legendre_pairs r) = Z.to_nat n.
Proof. exact @legendre_new_ok. Qed.
Print Assumptions C11_legendre_never_panics.
(** Every node can be computed on its own, for the documented range of indices. *)
Theorem C11_node_never_panics : forall (A : Arith) (t : Target) n k,
  100 <= usize_max t -> 1 <= n -> 2 * n <= usize_max t -> 1 <= k <= n ->
  exists p, @node_weight_pair A t n k = Ok p.
Proof. exact @node_weight_ok. Qed.
Print Assumptions C11_node_never_panics.
(** The same for the other constructors. *)
Theorem C11_chebyshev1_never_panics : forall (A : Arith) (t : Target) n, 1 <= n < usize_max t ->
  exists r, @chebyshev1_new A t n = Ok r /\ rule_degree (chebyshev1_pairs r) = Z.to_nat n.
Proof. exact @chebyshev1_new_ok. Qed.
Print Assumptions C11_chebyshev1_never_panics.
Theorem C11_chebyshev2_never_panics : forall (A : Arith) (t : Target) n, 1 <= n < usize_max t ->
  exists r, @chebyshev2_new A t n = Ok r /\ rule_degree (chebyshev2_pairs r) = Z.to_nat n.
Proof. exact @chebyshev2_new_ok. Qed.
Print Assumptions C11_chebyshev2_never_panics.
Theorem C11_hermite_never_panics : forall (A : Arith) (ext : Linalg A) n,
  1 <= n -> shape_preserving ext -> sorts ext ->
  exists r, @hermite_new A ext n = Ok r /\ rule_degree (hermite_pairs r) = Z.to_nat n.
Proof. exact @hermite_new_ok. Qed.
Print Assumptions C11_hermite_never_panics.
Theorem C11_laguerre_never_panics : forall (A : Arith) (ext : Linalg A) n alpha,
  1 <= n -> shape_preserving ext -> sorts ext ->
  exists r, @laguerre_new A ext n alpha = Ok r /\ rule_degree (laguerre_pairs r) = Z.to_nat n.
Proof. exact @laguerre_new_ok. Qed.
Print Assumptions C11_laguerre_never_panics.
Theorem C11_jacobi_never_panics : forall (A : Arith) (t : Target) (ext : Linalg A) n alpha beta,
  100 <= usize_max t -> 1 <= n -> 2 * n <= usize_max t -> shape_preserving ext -> sorts ext ->
  exists r, @jacobi_new A t ext n alpha beta = Ok r /\ rule_degree (jacobi_pairs r) = Z.to_nat n.
Proof. exact @jacobi_new_ok. Qed.
Print Assumptions C11_jacobi_never_panics.
(** At usize::MAX a debug build panics. *)
Theorem C11_max_degree_refuted : exists (m : Z) (t : Target), 0 < m /\ usize_max t = m /\ forall A : Arith,
  @legendre_new A t m = Panic /\ @chebyshev1_new A t m = Panic /\ @chebyshev2_new A t m = Panic.
Proof. exact max_degree_panic. Qed.
Print Assumptions C11_max_degree_refuted.

(** C12: the pairs are in ascending order of total_cmp and are the pairs
    (eigenvalue, scaled squared first component of the eigenvector) of the
    companion matrix; [total_preorder] holds for IEEE doubles, see below. *)
Theorem C12_hermite_sorted : forall (A : Arith) (ext : Linalg A),
  total_preorder (@ntotal_cmp A) -> shape_preserving ext -> sorts ext ->
  forall n r, 1 <= n -> hermite_new ext n = Ok r ->
  ascending (hermite_pairs r) /\
  exists m row0 rest, companion_matrix (Z.to_nat n) hermite_diag hermite_off_diag = Ok m /\
    snd (symmetric_eigen ext m) = row0 :: rest /\
    Permutation (hermite_pairs r)
      (combine (fst (symmetric_eigen ext m)) (map (fun x => nmul (nmul x x) (nsqrt npi)) row0)).
Proof. exact @hermite_sorted. Qed.
Print Assumptions C12_hermite_sorted.
Theorem C12_laguerre_sorted : forall (A : Arith) (ext : Linalg A),
  total_preorder (@ntotal_cmp A) -> shape_preserving ext -> sorts ext ->
  forall n alpha r, 1 <= n -> laguerre_new ext n alpha = Ok r ->
  ascending (laguerre_pairs r) /\
  exists m row0 rest, companion_matrix (Z.to_nat n) (laguerre_diag (param_get alpha))
      (laguerre_off_diag (param_get alpha)) = Ok m /\
    snd (symmetric_eigen ext m) = row0 :: rest /\
    Permutation (laguerre_pairs r)
      (combine (fst (symmetric_eigen ext m))
         (map (fun x => nmul (nmul x x) (gamma (nadd (param_get alpha) lit1))) row0)).
Proof. exact @laguerre_sorted. Qed.
Print Assumptions C12_laguerre_sorted.
Theorem C12_jacobi_even_degree_sorted_partial : forall (A : Arith) (ext : Linalg A),
  total_preorder (@ntotal_cmp A) -> shape_preserving ext -> sorts ext ->
  forall t n alpha beta r, 1 <= n -> n mod 2 = 0 ->
  neqb (param_get alpha) lit0 && neqb (param_get beta) lit0 = false ->
  neqb (param_get alpha) lit_neg_half && neqb (param_get beta) lit_neg_half = false ->
  neqb (param_get alpha) lit_half && neqb (param_get beta) lit_half = false ->
  jacobi_new t ext n alpha beta = Ok r ->
  ascending (jacobi_pairs r) /\
  exists m row0 rest, companion_matrix (Z.to_nat n) (jacobi_diag (param_get alpha) (param_get beta))
      (jacobi_off_diag (param_get alpha) (param_get beta)) = Ok m /\
    snd (symmetric_eigen ext m) = row0 :: rest /\
    Permutation (jacobi_pairs r)
      (combine (fst (symmetric_eigen ext m))
         (map (fun x => nmul (nmul x x) (jacobi_scale (param_get alpha) (param_get beta))) row0)).
Proof. exact @jacobi_even_sorted. Qed.
Print Assumptions C12_jacobi_even_degree_sorted_partial.
Example C12_example : forall be : Backend, total_preorder (@ntotal_cmp (F64 be)).
Proof. exact f64_total_preorder. Qed.

(** C32: the companion matrix is built without a panic and is the symmetric
    tridiagonal matrix of the coefficients; no other coefficient is used. *)
Theorem C32_companion_matrix : forall (A : Arith) (n : nat) (diag off : nat -> A), (1 <= n)%nat ->
  exists m : list (list A), companion_matrix n diag off = Ok m /\ square n m /\
  forall i j, (i < n)%nat -> (j < n)%nat -> entry m i j = tridiagonal diag off i j.
Proof. exact @companion_ok. Qed.
Print Assumptions C32_companion_matrix.
Theorem C32_companion_uses_only_these : forall (A : Arith) (n : nat) (diag off diag' off' : nat -> A), (1 <= n)%nat ->
  (forall i, (i < n)%nat -> diag i = diag' i) -> (forall i, (i < n - 1)%nat -> off i = off' i) ->
  companion_matrix n diag off = companion_matrix (A := A) n diag' off'.
Proof. exact @companion_uses. Qed.
Print Assumptions C32_companion_uses_only_these.
