(** Properties C07-C09, C13, C23: the data access API and the calls made by the
    Newton-Cotes rules.  Vocabulary: IterSpec (deques), IntegrateSpec. *)
From Coq Require Import ZArith List Reals.
From Verif Require Import Arith F64 F64Spec Machine Iter Rules NewtonCotes
  IterSpec IterProof IntegrateSpec IntegrateProof DegreeProof.
Import ListNotations.
Local Open Scope num_scope.

(** C07: all views show the same pairs in the same order. *)
Theorem C07_all_views_agree : forall (A : Arith) (p : Pairs A),
  yields (RuleIter (A * A)) (rule_iter p) p /\
  yields (RuleIter (A * A)) (rule_ref_into_iter p) p /\
  yields (RuleIntoIter (A * A)) (rule_into_iter p) p /\
  yields (RuleNodes A A) (rule_nodes p) (map fst p) /\
  yields (RuleWeights A A) (rule_weights p) (map snd p) /\
  rule_as_node_weight_pairs p = p /\
  rule_into_node_weight_pairs p = p /\
  rule_degree p = length p.
Proof. exact views_agree. Qed.
Print Assumptions C07_all_views_agree.

(** C08: under every interleaving of calls the iterators are deques. *)
Theorem C08_iterators_are_deques : forall (A : Arith) (p : Pairs A),
  behaves_like_deque (RuleIter (A * A)) (rule_iter p) p /\
  behaves_like_deque (RuleIter (A * A)) (rule_ref_into_iter p) p /\
  behaves_like_deque (RuleIntoIter (A * A)) (rule_into_iter p) p /\
  behaves_like_deque (RuleNodes A A) (rule_nodes p) (map fst p) /\
  behaves_like_deque (RuleWeights A A) (rule_weights p) (map snd p).
Proof. exact views_deque. Qed.
Print Assumptions C08_iterators_are_deques.
(** as_slice / as_ref show the elements that are left. *)
Theorem C08_as_slice_shows_the_rest : forall X (d : list X) ops,
  slice_as_slice (snd (impl_run (RuleIter X) ops (slice_iter d))) = snd (deque_run ops d) /\
  slice_as_slice (snd (impl_run (RuleIntoIter X) ops (slice_iter d))) = snd (deque_run ops d).
Proof. exact as_slice_run. Qed.
Print Assumptions C08_as_slice_shows_the_rest.
(** A non-trivial interleaving. *)
Example C08_example :
  fst (deque_run [ONth 1; ONextBack; OLen; ONthBack 1; ONext; ONext] [10; 11; 12; 13; 14; 15]%Z)
  = [Item (Some 11); Item (Some 15); Len 3; Item (Some 13); Item (Some 12); Item None]%Z.
Proof. reflexivity. Qed.

(** C09: the iterator of a Newton-Cotes rule is a deque of the doubles
    0.0, 1.0, ..., degree-1, each exact. *)
Theorem C09_node_rule_iterator : forall (be : Backend) (d : Z), nonzero_u32 d ->
  exists xs : list f64,
    behaves_like_deque (NodeRuleIter (@nofZ (F64 be))) (node_rule_iter d) xs /\
    Forall ffin xs /\ map fval xs = map IZR (ints 0 (Z.to_nat d)).
Proof. exact node_iter_items. Qed.
Print Assumptions C09_node_rule_iterator.
Example C09_example : nonzero_u32 4294967295. Proof. split; reflexivity || discriminate. Qed.

(** C13: the calls made by integrate, in order, and the value returned, in any
    arithmetic (in particular IEEE doubles) and for any stateful integrand. *)
Theorem C13_midpoint_calls : forall (A : Arith) S (f : S -> A -> A * S) n a b s, (1 <= n)%Z ->
  let h := (b [-] a) [/] nofZ n in
  midpoint_integrate f (midpoint_new n) a b s =
  let '(vs, s') := call_all f (map (fun i => a [+] h [*] (lit_half [+] nofZ i)) (ints 0 (Z.to_nat n))) s in
  (float_sum vs [*] h, s').
Proof. exact @midpoint_calls. Qed.
Print Assumptions C13_midpoint_calls.
Theorem C13_trapezoid_calls : forall (A : Arith) S (f : S -> A -> A * S) n a b s, (1 <= n)%Z ->
  let h := (b [-] a) [/] nofZ n in
  trapezoid_integrate f (trapezoid_new n) a b s =
  let '(ends, s1) := call_all f [a; b] s in
  let '(vs, s2) := call_all f (map (fun i => a [+] nofZ i [*] h) (ints 1 (Z.to_nat (n - 1)))) s1 in
  (((nth 0 ends a [+] nth 1 ends a) [/] lit2 [+] float_sum vs) [*] h, s2).
Proof. exact @trapezoid_calls. Qed.
Print Assumptions C13_trapezoid_calls.
Theorem C13_simpson_calls : forall (A : Arith) S (f : S -> A -> A * S) n a b s, (1 <= n)%Z ->
  let h := (b [-] a) [/] nofZ n in
  simpson_integrate f (simpson_new n) a b s =
  let '(edges, s1) := call_all f (map (fun i => a [+] nofZ i [*] h) (ints 1 (Z.to_nat (n - 1)))) s in
  let '(mids, s2) := call_all f (map (fun i => a [+] (lit2 [*] nofZ i [-] lit1) [*] h [/] lit2)
                                     (ints 1 (Z.to_nat (n - 1)))) s1 in
  let '(ends, s3) := call_all f [a [+] (lit2 [*] nofZ n [-] lit1) [*] h [/] lit2; a; b] s2 in
  (h [/] nlit 6 0 [*] (lit2 [*] float_sum edges [+] nlit 4 0 [*] float_sum mids
     [+] nlit 4 0 [*] nth 0 ends a [+] nth 1 ends a [+] nth 2 ends a), s3).
Proof. exact @simpson_calls. Qed.
Print Assumptions C13_simpson_calls.

(** C23: after any history of change_degree calls the rule is the fresh one. *)
Theorem C23_midpoint_degree_history : forall ds d r,
  fold_left midpoint_change_degree (ds ++ [d]) r = midpoint_new d /\ midpoint_from d = midpoint_new d
  /\ midpoint_degree (midpoint_new d) = d.
Proof. exact midpoint_no_trace. Qed.
Print Assumptions C23_midpoint_degree_history.
Theorem C23_trapezoid_degree_history : forall ds d r,
  fold_left trapezoid_change_degree (ds ++ [d]) r = trapezoid_new d /\ trapezoid_from d = trapezoid_new d
  /\ trapezoid_degree (trapezoid_new d) = d.
Proof. exact trapezoid_no_trace. Qed.
Print Assumptions C23_trapezoid_degree_history.
Theorem C23_simpson_degree_history : forall ds d r,
  fold_left simpson_change_degree (ds ++ [d]) r = simpson_new d /\ simpson_from d = simpson_new d
  /\ simpson_degree (simpson_new d) = d.
Proof. exact simpson_no_trace. Qed.
Print Assumptions C23_simpson_degree_history.
