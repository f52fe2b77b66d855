(** Rule types and the data access API, src/data_api.rs:194-278, 490-533. *)
From Coq Require Import ZArith List Bool.
From Verif Require Import Arith Machine Iter Param.
Import ListNotations.

Section Rules.
Context {A : Arith}.

(** [Box<[(Node, Weight)]>] *)
Definition Pairs : Type := list (A * A).

(** src/legendre/mod.rs GaussLegendre, src/chebyshev/mod.rs:44-46, 139-141,
    src/hermite/mod.rs: structs with the single field [node_weight_pairs]. *)
Record GaussLegendre := { legendre_pairs : Pairs }.
Record GaussChebyshevFirstKind := { chebyshev1_pairs : Pairs }.
Record GaussChebyshevSecondKind := { chebyshev2_pairs : Pairs }.
Record GaussHermite := { hermite_pairs : Pairs }.
(** src/laguerre/mod.rs, src/jacobi/mod.rs: pairs and parameters. *)
Record GaussLaguerre := { laguerre_pairs : Pairs; laguerre_alpha : Param A }.
Record GaussJacobi := { jacobi_pairs : Pairs; jacobi_alpha : Param A; jacobi_beta : Param A }.

(** The accessors that [__impl_node_weight_rule!] generates, as functions of
    the field [node_weight_pairs]. *)
(* src/data_api.rs:231-238 and 255-257 *)
Definition rule_iter (p : Pairs) : SliceIter (A * A) := slice_iter p.
Definition rule_ref_into_iter (p : Pairs) : SliceIter (A * A) := slice_iter p.
(* src/data_api.rs:216-223 *)
Definition rule_into_iter (p : Pairs) : SliceIter (A * A) := slice_iter p.
(* src/data_api.rs:243-251 *)
Definition rule_nodes (p : Pairs) : SliceIter (A * A) := slice_iter p.
Definition rule_weights (p : Pairs) : SliceIter (A * A) := slice_iter p.
(* src/data_api.rs:261-272 *)
Definition rule_as_node_weight_pairs (p : Pairs) : Pairs := p.
Definition rule_into_node_weight_pairs (p : Pairs) : Pairs := p.
(* src/data_api.rs:276-278 *)
Definition rule_degree (p : Pairs) : nat := length p.

(** derive(PartialEq) on Box<[(f64, f64)]>: same length and elementwise [==]. *)
Fixpoint pairs_eqb (p q : Pairs) : bool :=
  match p, q with
  | [], [] => true
  | (x, w) :: p', (y, v) :: q' => neqb x y && neqb w v && pairs_eqb p' q'
  | _, _ => false
  end.
Definition laguerre_eqb (r s : GaussLaguerre) : bool :=
  pairs_eqb (laguerre_pairs r) (laguerre_pairs s)
  && param_eqb (laguerre_alpha r) (laguerre_alpha s).
Definition jacobi_eqb (r s : GaussJacobi) : bool :=
  pairs_eqb (jacobi_pairs r) (jacobi_pairs s)
  && param_eqb (jacobi_alpha r) (jacobi_alpha s)
  && param_eqb (jacobi_beta r) (jacobi_beta s).

(** src/data_api.rs:523-525 [iter] of a node rule:
    [(0..self.degree.get()).map(|d| d as f64)]. *)
Definition node_rule_iter (degree : Z) : RangeIter := {| r_start := 0; r_end := degree |}.
(** The items it delivers when it is consumed. *)
Definition node_rule_items (degree : Z) : list A :=
  drain (it_next (NodeRuleIter (@nofZ A))) (Z.to_nat degree) (node_rule_iter degree).

(** [iter.map(f).sum::<f64>()] for a stateful closure [f]: a left fold of [+]
    that starts with -0.0 (core's [impl Sum for f64]). *)
Fixpoint sum_from {X S : Type} (f : S -> X -> A * S) (acc : A) (l : list X) (s : S) : A * S :=
  match l with
  | [] => (acc, s)
  | x :: r => let '(v, s') := f s x in sum_from f (nadd acc v) r s'
  end.
Definition iter_sum {X S : Type} (f : S -> X -> A * S) (l : list X) (s : S) : A * S :=
  sum_from f nnegzero l s.

End Rules.
Arguments Pairs : clear implicits.
Arguments GaussLegendre : clear implicits. Arguments GaussChebyshevFirstKind : clear implicits.
Arguments GaussChebyshevSecondKind : clear implicits. Arguments GaussHermite : clear implicits.
Arguments GaussLaguerre : clear implicits. Arguments GaussJacobi : clear implicits.
