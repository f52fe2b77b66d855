(** Property C94: how the error of the Newton-Cotes rules decreases for smooth integrands, and that the usual error estimate
    is right. n^2 times the error of the midpoint and trapezoid rules, n^4 times that of the Simpson rule, has a limit, given
    by the derivatives at the two ends; so twice as many cells divide the error by 4 (16), and a third (a fifteenth) of the
    difference of the two results estimates the error of the second one, with relative error tending to 0 - unless the
    limit is 0. Exact arithmetic; [midpoint_value], ...: what integrate returns (NCSpec.v). *)
From Coq Require Import Reals Lra Lia.
From Coquelicot Require Import Coquelicot.
From Verif Require Import NCSpec LeadUse.
Local Open Scope R_scope.

Theorem C94_midpoint : forall (f f1 f2 : R -> R) a b, a < b ->
  (forall x, a <= x <= b -> is_derive f x (f1 x)) -> (forall x, a <= x <= b -> is_derive f1 x (f2 x)) ->
  (forall x, a <= x <= b -> continuous f2 x) ->
  is_lim_seq (fun n => INR (S n) ^ 2 * (midpoint_value (S n) a b f - RInt f a b)) (- (b - a) ^ 2 / 24 * (f1 b - f1 a)).
Proof. exact midpoint_lead. Qed.
Print Assumptions C94_midpoint.
Theorem C94_trapezoid : forall (f f1 f2 : R -> R) a b, a < b ->
  (forall x, a <= x <= b -> is_derive f x (f1 x)) -> (forall x, a <= x <= b -> is_derive f1 x (f2 x)) ->
  (forall x, a <= x <= b -> continuous f2 x) ->
  is_lim_seq (fun n => INR (S n) ^ 2 * (trapezoid_value (S n) a b f - RInt f a b)) ((b - a) ^ 2 / 12 * (f1 b - f1 a)).
Proof. exact trapezoid_lead. Qed.
Print Assumptions C94_trapezoid.
Theorem C94_simpson : forall (f f1 f2 f3 f4 : R -> R) a b, a < b ->
  (forall x, a <= x <= b -> is_derive f x (f1 x)) -> (forall x, a <= x <= b -> is_derive f1 x (f2 x)) ->
  (forall x, a <= x <= b -> is_derive f2 x (f3 x)) -> (forall x, a <= x <= b -> is_derive f3 x (f4 x)) ->
  (forall x, a <= x <= b -> continuous f4 x) ->
  is_lim_seq (fun n => INR (S n) ^ 4 * (simpson_value (S n) a b f - RInt f a b)) ((b - a) ^ 4 / 2880 * (f3 b - f3 a)).
Proof. exact simpson_lead. Qed.
Print Assumptions C94_simpson.
(** Twice as many cells *)
Theorem C94_midpoint_doubling : forall (f f1 f2 : R -> R) a b, a < b ->
  (forall x, a <= x <= b -> is_derive f x (f1 x)) -> (forall x, a <= x <= b -> is_derive f1 x (f2 x)) -> (forall x, a <= x <= b -> continuous f2 x) ->
  f1 b <> f1 a ->
  is_lim_seq (fun n => (midpoint_value (2 * S n) a b f - RInt f a b) / (midpoint_value (S n) a b f - RInt f a b)) (/ 4) /\
  is_lim_seq (fun n => (midpoint_value (S n) a b f - midpoint_value (2 * S n) a b f) / 3 / (midpoint_value (2 * S n) a b f - RInt f a b)) 1.
Proof. exact midpoint_doubling. Qed.
Print Assumptions C94_midpoint_doubling.
Theorem C94_trapezoid_doubling : forall (f f1 f2 : R -> R) a b, a < b ->
  (forall x, a <= x <= b -> is_derive f x (f1 x)) -> (forall x, a <= x <= b -> is_derive f1 x (f2 x)) -> (forall x, a <= x <= b -> continuous f2 x) ->
  f1 b <> f1 a ->
  is_lim_seq (fun n => (trapezoid_value (2 * S n) a b f - RInt f a b) / (trapezoid_value (S n) a b f - RInt f a b)) (/ 4) /\
  is_lim_seq (fun n => (trapezoid_value (S n) a b f - trapezoid_value (2 * S n) a b f) / 3 / (trapezoid_value (2 * S n) a b f - RInt f a b)) 1.
Proof. exact trapezoid_doubling. Qed.
Print Assumptions C94_trapezoid_doubling.
Theorem C94_simpson_doubling : forall (f f1 f2 f3 f4 : R -> R) a b, a < b ->
  (forall x, a <= x <= b -> is_derive f x (f1 x)) -> (forall x, a <= x <= b -> is_derive f1 x (f2 x)) -> (forall x, a <= x <= b -> is_derive f2 x (f3 x)) ->
  (forall x, a <= x <= b -> is_derive f3 x (f4 x)) -> (forall x, a <= x <= b -> continuous f4 x) ->
  f3 b <> f3 a ->
  is_lim_seq (fun n => (simpson_value (2 * S n) a b f - RInt f a b) / (simpson_value (S n) a b f - RInt f a b)) (/ 16) /\
  is_lim_seq (fun n => (simpson_value (S n) a b f - simpson_value (2 * S n) a b f) / 15 / (simpson_value (2 * S n) a b f - RInt f a b)) 1.
Proof. exact simpson_doubling. Qed.
Print Assumptions C94_simpson_doubling.

(** The exponential function on any interval *)
Example C94_exp : forall a b, a < b -> (forall x, is_derive exp x (exp x)) /\ (forall x, continuous exp x) /\ exp b <> exp a.
Proof.
  intros a b H. split; [exact is_derive_exp|]. split.
  - intros x. apply (ex_derive_continuous (V := R_NormedModule)). eexists. apply is_derive_exp.
  - pose proof (exp_increasing a b H). lra.
Qed.
