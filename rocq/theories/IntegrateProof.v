(** Call order and number of calls of [integrate], for stateful integrands and
    any arithmetic. *)
From Coq Require Import List ZArith Lia.
From Verif Require Import Arith Machine Iter Rules IterProof NewtonCotes IntegrateSpec.
Import ListNotations.
Local Open Scope num_scope.

Section Gen.
Context {A : Arith}.

Lemma call_all_app : forall P V S (f : S -> P -> V * S) l m s,
  call_all f (l ++ m) s =
  let '(v1, s1) := call_all f l s in let '(v2, s2) := call_all f m s1 in (v1 ++ v2, s2).
Proof.
  intros P V S f l. induction l as [|x l IH]; intros m s; simpl.
  - destruct (call_all f m s); reflexivity.
  - destruct (f s x) as [v s1]. rewrite IH.
    destruct (call_all f l s1) as [v1 s2]. destruct (call_all f m s2). reflexivity.
Qed.

Lemma call_all_length : forall P V S (f : S -> P -> V * S) l s,
  length (fst (call_all f l s)) = length l.
Proof.
  intros P V S f l. induction l as [|x l IH]; intros s; simpl; [reflexivity|].
  destruct (f s x) as [v s1]. specialize (IH s1). destruct (call_all f l s1). simpl in *. congruence.
Qed.

Lemma sum_from_call : forall X S (f : S -> A -> A * S) (p : X -> A) l acc s,
  sum_from (fun s x => f s (p x)) acc l s =
  let '(vs, s') := call_all f (map p l) s in (fold_left nadd vs acc, s').
Proof.
  intros X S f p l. induction l as [|x l IH]; intros acc s; simpl; [reflexivity|].
  destruct (f s (p x)) as [v s1]. rewrite IH.
  destruct (call_all f (map p l) s1). reflexivity.
Qed.

Lemma iter_sum_call : forall X S (f : S -> A -> A * S) (p : X -> A) l s,
  iter_sum (fun s x => f s (p x)) l s =
  let '(vs, s') := call_all f (map p l) s in (float_sum vs, s').
Proof. intros. apply sum_from_call. Qed.

(** weighted version: the closure multiplies the value by a weight *)
Lemma sum_from_call_w : forall X S (f : S -> A -> A * S) (p w : X -> A) l acc s,
  sum_from (fun s x => let '(v, s') := f s (p x) in (v [*] w x, s')) acc l s =
  let '(vs, s') := call_all f (map p l) s in
  (fold_left nadd (map (fun vw => fst vw [*] snd vw) (combine vs (map w l))) acc, s').
Proof.
  intros X S f p w l. induction l as [|x l IH]; intros acc s; simpl; [reflexivity|].
  destruct (f s (p x)) as [v s1]. rewrite IH.
  destruct (call_all f (map p l) s1). reflexivity.
Qed.

Lemma zrange_ints : forall lo hi, zrange lo hi = ints lo (Z.to_nat (hi - lo)).
Proof. reflexivity. Qed.

Lemma midpoint_calls : forall S (f : S -> A -> A * S) n a b s, (1 <= n)%Z ->
  let h := (b [-] a) [/] nofZ n in
  midpoint_integrate f (midpoint_new n) a b s =
  let '(vs, s') := call_all f (map (fun i => a [+] h [*] (lit_half [+] nofZ i)) (ints 0 (Z.to_nat n))) s in
  (float_sum vs [*] h, s').
Proof.
  intros S f n a b s Hn h. unfold midpoint_integrate. simpl midpoint_degree. fold h.
  rewrite node_rule_items_eq.
  rewrite (iter_sum_call A S f (fun node => a [+] h [*] (lit_half [+] node))).
  rewrite map_map, zrange_ints, Z.sub_0_r.
  destruct (call_all f _ s). reflexivity.
Qed.

Lemma trapezoid_calls : forall S (f : S -> A -> A * S) n a b s, (1 <= n)%Z ->
  let h := (b [-] a) [/] nofZ n in
  trapezoid_integrate f (trapezoid_new n) a b s =
  let '(ends, s1) := call_all f [a; b] s in
  let '(vs, s2) := call_all f (map (fun i => a [+] nofZ i [*] h) (ints 1 (Z.to_nat (n - 1)))) s1 in
  (((nth 0 ends a [+] nth 1 ends a) [/] lit2 [+] float_sum vs) [*] h, s2).
Proof.
  intros S f n a b s Hn h. unfold trapezoid_integrate. simpl trapezoid_degree. fold h.
  simpl. destruct (f s a) as [fa s1]. destruct (f s1 b) as [fb s2]. simpl.
  rewrite (iter_sum_call Z S f (fun x => a [+] nofZ x [*] h)). rewrite zrange_ints.
  destruct (call_all f _ s2). reflexivity.
Qed.

Lemma simpson_calls : forall S (f : S -> A -> A * S) n a b s, (1 <= n)%Z ->
  let h := (b [-] a) [/] nofZ n in
  simpson_integrate f (simpson_new n) a b s =
  let '(edges, s1) := call_all f (map (fun i => a [+] nofZ i [*] h) (ints 1 (Z.to_nat (n - 1)))) s in
  let '(mids, s2) := call_all f (map (fun i => a [+] (lit2 [*] nofZ i [-] lit1) [*] h [/] lit2)
                                     (ints 1 (Z.to_nat (n - 1)))) s1 in
  let '(ends, s3) := call_all f [a [+] (lit2 [*] nofZ n [-] lit1) [*] h [/] lit2; a; b] s2 in
  (h [/] nlit 6 0 [*] (lit2 [*] float_sum edges [+] nlit 4 0 [*] float_sum mids
     [+] nlit 4 0 [*] nth 0 ends a [+] nth 1 ends a [+] nth 2 ends a), s3).
Proof.
  intros S f n a b s Hn h. unfold simpson_integrate. simpl simpson_degree.
  unfold node_rule_iter. rewrite node_rule_count. rewrite Z2Nat.id by lia. fold h.
  rewrite node_rule_items_eq. rewrite (zrange_cons 0 n) by lia.
  change (skipn 1 (map nofZ (0%Z :: zrange (0 + 1) n))) with (map (@nofZ A) (zrange (0 + 1) n)).
  rewrite zrange_ints. replace (n - (0 + 1))%Z with (n - 1)%Z by lia.
  change (0 + 1)%Z with 1%Z.
  rewrite (iter_sum_call A S f (fun node => a [+] node [*] h)). rewrite map_map.
  destruct (call_all f _ s) as [edges s1].
  rewrite (iter_sum_call A S f (fun node => a [+] (lit2 [*] node [-] lit1) [*] h [/] lit2)).
  rewrite map_map.
  destruct (call_all f _ s1) as [mids s2]. simpl.
  destruct (f s2 _) as [v1 s3]. destruct (f s3 a) as [v2 s4]. destruct (f s4 b) as [v3 s5].
  reflexivity.
Qed.

End Gen.
