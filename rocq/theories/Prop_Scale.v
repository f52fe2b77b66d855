(** Property C90: changing the unit of measurement by a power of two changes nothing else. Multiplying the integrand
    by 2^k multiplies the result of integrate and par_integrate by exactly 2^k; rescaling the variable by 2^k (both
    bounds multiplied, integrand composed with the inverse) multiplies the points by exactly 2^k, leaves the
    sequence of calls seen by the integrand as it was, and multiplies the result by exactly 2^k. Double
    arithmetic, for every rule, provided nothing overflows or comes near underflow; C90_underflow_limit shows that the
    lower limits on the values cannot be dropped.
    Vocabulary: [times_power], [not_below], [outer_factor], [stored_nodes], [rescaled], [normal_sized] (ScaleSpec.v),
    [ffin], [fval] (F64Spec.v), [run], [points], [call_all] (NestSpec.v, IntegrateSpec.v). *)
From Coq Require Import Reals ZArith List.
From Flocq Require Import Core IEEE754.Binary.
From Verif Require Import Arith F64 F64Spec Machine Rules Par NewtonCotes IntegrateSpec NestSpec ExcSpec ScaleSpec Scale ScaleVar ScaleEx.
Import ListNotations.
Local Open Scope R_scope.

Theorem C90_values : forall be k (q : quadrature (F64 be)) (S S' : Type) (f : S -> F64 be -> F64 be * S) (f' : S' -> F64 be -> F64 be * S') s s' v w h, usable q ->
  Forall2 (times_power k) (fst (call_all f (points q) s)) (fst (call_all f' (points q) s')) ->
  Forall (not_below (- v)) (fst (call_all f (points q) s)) -> Forall (not_below (- v)) (fst (call_all f' (points q) s')) ->
  Forall (not_below (- w)) (weights q) -> not_below (- h) (outer_factor q) -> (0 <= w)%Z -> (0 <= h)%Z -> (v + w + h <= 900)%Z ->
  ffin (fst (run q f s)) -> ffin (fst (run q f' s')) -> times_power k (fst (run q f s)) (fst (run q f' s')).
Proof. exact run_scaled. Qed.
Print Assumptions C90_values.
Theorem C90_values_par : forall be k t1 t2 (q : quadrature (F64 be)) (g g' : F64 be -> F64 be) v w h, usable q ->
  Forall2 (times_power k) (map g (points q)) (map g' (points q)) ->
  Forall (not_below (- v)) (map g (points q)) -> Forall (not_below (- v)) (map g' (points q)) ->
  Forall (not_below (- w)) (weights q) -> not_below (- h) (outer_factor q) -> (0 <= w)%Z -> (0 <= h)%Z -> (v + w + h <= 900)%Z ->
  ffin (par_run t1 t2 q g) -> ffin (par_run t1 t2 q g') -> times_power k (par_run t1 t2 q g) (par_run t1 t2 q g').
Proof. exact par_scaled. Qed.
Print Assumptions C90_values_par.
Theorem C90_points : forall be k (q q' : quadrature (F64 be)) v w, rescaled k q q' -> (0 <= v)%Z -> (0 <= w)%Z -> (v + w <= 700)%Z ->
  Forall (not_below (- v)) (bounds q) -> Forall (not_below (- v)) (bounds q') -> Forall (not_below (- w)) (stored_nodes q) ->
  Forall ffin (points q) -> Forall ffin (points q') -> Forall2 (times_power k) (points q) (points q').
Proof. exact points_scaled. Qed.
Print Assumptions C90_points.
Theorem C90_variable : forall be k (q q' : quadrature (F64 be)) (S : Type) (f f' : S -> F64 be -> F64 be * S) s v w, rescaled k q q' -> (0 <= v)%Z -> (0 <= w)%Z -> (v + w <= 700)%Z ->
  Forall (not_below (- v)) (bounds q) -> Forall (not_below (- v)) (bounds q') -> Forall (not_below (- w)) (stored_nodes q) ->
  Forall ffin (points q) -> Forall ffin (points q') -> (forall s x y, times_power k x y -> f' s y = f s x) ->
  snd (run q' f' s) = snd (run q f s) /\
  (normal_sized (fst (run q f s)) -> normal_sized (fst (run q' f' s)) -> times_power k (fst (run q f s)) (fst (run q' f' s))).
Proof. exact var_scaled. Qed.
Print Assumptions C90_variable.
Theorem C90_variable_par : forall be k t1 t2 (q q' : quadrature (F64 be)) (g g' : F64 be -> F64 be) v w, rescaled k q q' -> (0 <= v)%Z -> (0 <= w)%Z -> (v + w <= 700)%Z ->
  Forall (not_below (- v)) (bounds q) -> Forall (not_below (- v)) (bounds q') -> Forall (not_below (- w)) (stored_nodes q) ->
  Forall ffin (points q) -> Forall ffin (points q') -> (forall x y, times_power k x y -> g' y = g x) ->
  normal_sized (par_run t1 t2 q g) -> normal_sized (par_run t1 t2 q' g') -> times_power k (par_run t1 t2 q g) (par_run t1 t2 q' g').
Proof. exact par_var_scaled. Qed.
Print Assumptions C90_variable_par.
(** 2^-1074 and 2^-1073 integrated over [0, 1/2]: the first integral is rounded to zero, the second is not. *)
Theorem C90_underflow_limit : forall be, exists (q : quadrature (F64 be)) (c c2 : F64 be), usable q /\
  Forall2 (times_power 1) (map (fun _ => c) (points q)) (map (fun _ => c2) (points q)) /\
  Forall (not_below 0) (weights q) /\ not_below (-1) (outer_factor q) /\ ffin (value q (fun _ => c)) /\ ffin (value q (fun _ => c2)) /\
  ~ times_power 1 (value q (fun _ => c)) (value q (fun _ => c2)).
Proof. exact underflow_cases. Qed.
Print Assumptions C90_underflow_limit.

(** The constants 1 and 2 over [0, 1] meet the hypotheses of C90_values, the intervals [0, 1] and [0, 2] those of C90_variable. *)
Example C90_values_case : forall be, let q : quadrature (F64 be) := cell be in
  usable q /\ Forall2 (times_power 1) (map (fun _ => one be) (points q)) (map (fun _ => two be) (points q)) /\
  Forall (not_below 0) (map (fun _ => one be) (points q)) /\ Forall (not_below 0) (map (fun _ => two be) (points q)) /\
  Forall (not_below 0) (weights q) /\ not_below 0 (outer_factor q) /\ ffin (value q (fun _ => one be)) /\ ffin (value q (fun _ => two be)).
Proof. exact values_case. Qed.
Example C90_variable_case : forall be, let q : quadrature (F64 be) := cell be in let q' := wide be in
  rescaled 1 q q' /\ Forall (not_below 0) (bounds q) /\ Forall (not_below 0) (bounds q') /\ Forall ffin (points q) /\ Forall ffin (points q') /\
  normal_sized (value q (fun _ => one be)) /\ normal_sized (value q' (fun _ => one be)).
Proof. exact variable_case. Qed.
