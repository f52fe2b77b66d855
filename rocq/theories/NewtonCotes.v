(** Midpoint, Trapezoid and Simpson rules. *)
From Coq Require Import ZArith List.
From Verif Require Import Arith Machine Iter Rules Par.
Import ListNotations.
Local Open Scope num_scope.

(** src/midpoint/mod.rs:61-65, src/trapezoid/mod.rs:50-54, src/simpson/mod.rs:
    57-59: structs with the single field [degree: NonZeroU32]. *)
Record Midpoint := { midpoint_degree : Z }.
Record Trapezoid := { trapezoid_degree : Z }.
Record Simpson := { simpson_degree : Z }.

(** Values of NonZeroU32. *)
Definition nonzero_u32 (z : Z) : Prop := (1 <= z < 2 ^ 32)%Z.

(** src/midpoint/mod.rs:71, src/trapezoid/mod.rs:58, src/simpson/mod.rs:63 [new] *)
Definition midpoint_new (degree : Z) : Midpoint := {| midpoint_degree := degree |}.
Definition trapezoid_new (degree : Z) : Trapezoid := {| trapezoid_degree := degree |}.
Definition simpson_new (degree : Z) : Simpson := {| simpson_degree := degree |}.
(** src/midpoint/mod.rs:114-119, src/trapezoid/mod.rs:111-116,
    src/simpson/mod.rs:140-145 [From<NonZeroU32>] *)
Definition midpoint_from (degree : Z) : Midpoint := {| midpoint_degree := degree |}.
Definition trapezoid_from (degree : Z) : Trapezoid := {| trapezoid_degree := degree |}.
Definition simpson_from (degree : Z) : Simpson := {| simpson_degree := degree |}.
(** src/midpoint/mod.rs:107-109, src/trapezoid/mod.rs:104-106,
    src/simpson/mod.rs:133-135 [change_degree] *)
Definition midpoint_change_degree (r : Midpoint) (new_degree : Z) : Midpoint :=
  {| midpoint_degree := new_degree |}.
Definition trapezoid_change_degree (r : Trapezoid) (new_degree : Z) : Trapezoid :=
  {| trapezoid_degree := new_degree |}.
Definition simpson_change_degree (r : Simpson) (new_degree : Z) : Simpson :=
  {| simpson_degree := new_degree |}.

Section Integrate.
Context {A : Arith} {S : Type}.
(** The integrand, [FnMut(f64) -> f64], with its captured mutable state. *)
Variable integrand : S -> A -> A * S.

(** src/midpoint/mod.rs:76-88 *)
Definition midpoint_integrate (r : Midpoint) (a b : A) (s : S) : A * S :=
  let rect_width := (b [-] a) [/] nofZ (midpoint_degree r) in
  let '(sum, s) :=
    iter_sum (fun s node => integrand s (a [+] rect_width [*] (lit_half [+] node)))
             (node_rule_items (midpoint_degree r)) s in
  (sum [*] rect_width, s).

(** src/trapezoid/mod.rs:74-85 *)
Definition trapezoid_integrate (r : Trapezoid) (a b : A) (s : S) : A * S :=
  let degree := trapezoid_degree r in
  let delta_x := (b [-] a) [/] nofZ degree in
  let '(fa, s) := integrand s a in
  let '(fb, s) := integrand s b in
  let edge_points := (fa [+] fb) [/] lit2 in
  let '(sum, s) :=
    iter_sum (fun s x => integrand s (a [+] nofZ x [*] delta_x)) (zrange 1 degree) s in
  ((edge_points [+] sum) [*] delta_x, s).

(** src/simpson/mod.rs:68-97 *)
Definition simpson_integrate (r : Simpson) (a b : A) (s : S) : A * S :=
  let n := nofZ (Z.of_nat (it_count (NodeRuleIter (@nofZ A)) (node_rule_iter (simpson_degree r)))) in
  let h := (b [-] a) [/] n in
  let '(sum_over_interval_edges, s) :=
    iter_sum (fun s node => integrand s (a [+] node [*] h))
             (skipn 1 (node_rule_items (simpson_degree r))) s in
  let '(sum_over_midpoints, s) :=
    iter_sum (fun s node => integrand s (a [+] (lit2 [*] node [-] lit1) [*] h [/] lit2))
             (skipn 1 (node_rule_items (simpson_degree r))) s in
  let '(f_last, s) := integrand s (a [+] (lit2 [*] n [-] lit1) [*] h [/] lit2) in
  let '(fa, s) := integrand s a in
  let '(fb, s) := integrand s b in
  (h [/] nlit 6 0 [*] (lit2 [*] sum_over_interval_edges
                     [+] nlit 4 0 [*] sum_over_midpoints
                     [+] nlit 4 0 [*] f_last
                     [+] fa
                     [+] fb), s).
End Integrate.

Section ParIntegrate.
Context {A : Arith}.
(** The integrand, [Fn(f64) -> f64 + Sync]. *)
Variable integrand : A -> A.

(** src/midpoint/mod.rs:92-104 *)
Definition midpoint_par_integrate (t : Sched) (r : Midpoint) (a b : A) : A :=
  let rect_width := (b [-] a) [/] nofZ (midpoint_degree r) in
  let sum := par_sum t (fun node => integrand (a [+] rect_width [*] (lit_half [+] nofZ node)))
                     (zrange 0 (midpoint_degree r)) in
  sum [*] rect_width.

(** src/trapezoid/mod.rs:89-101 *)
Definition trapezoid_par_integrate (t : Sched) (r : Trapezoid) (a b : A) : A :=
  let degree := trapezoid_degree r in
  let delta_x := (b [-] a) [/] nofZ degree in
  let edge_points := (integrand a [+] integrand b) [/] lit2 in
  let sum := par_sum t (fun x => integrand (a [+] nofZ x [*] delta_x)) (zrange 1 degree) in
  (edge_points [+] sum) [*] delta_x.

(** src/simpson/mod.rs:101-130; the two closures given to [rayon::join] have
    their own schedules [t1] and [t2]. *)
Definition simpson_par_integrate (t1 t2 : Sched) (r : Simpson) (a b : A) : A :=
  let n := nofZ (simpson_degree r) in
  let h := (b [-] a) [/] n in
  let sum_over_interval_edges :=
    par_sum t1 (fun node => integrand (a [+] nofZ node [*] h)) (zrange 1 (simpson_degree r)) in
  let sum_over_midpoints :=
    par_sum t2 (fun node => integrand (a [+] (lit2 [*] nofZ node [-] lit1) [*] h [/] lit2))
            (zrange 1 (simpson_degree r)) in
  h [/] nlit 6 0 [*] (lit2 [*] sum_over_interval_edges
                    [+] nlit 4 0 [*] sum_over_midpoints
                    [+] nlit 4 0 [*] integrand (a [+] (lit2 [*] n [-] lit1) [*] h [/] lit2)
                    [+] integrand a
                    [+] integrand b).
End ParIntegrate.
