(** Property C78: the tabulated Gauss-Legendre rules (at most 100 points) are the Gauss rules to the
    last digits of the tables, in exact arithmetic and in doubles; every number of points.
    Vocabulary: GaussRuleSpec.v ([gauss_rule]), ErrorSpec.v ([closed_between], [oscillation]),
    RuleSpec.v ([legendre_value]), TrigSpec.v ([accurate_trig]). *)
From Coq Require Import Reals ZArith List.
From Coquelicot Require Import Coquelicot.
From Flocq Require Import Core.
From Verif Require Import Arith RInst F64 F64Spec Machine Rules Legendre PolySpec MassSpec RuleSpec ErrorSpec TrigSpec GaussRuleSpec BogUse LegZeroRule LegZeroUse Prop_Legendre TrigEx.
Local Open Scope R_scope.

(** The i-th node, as an angle and as a number, lies within 2.1e-16 of the i-th node of the Gauss
    rule, and its weight within the relative distance 2.1e-16. *)
Theorem C78_tables : forall (t : Target) (n : nat),
  (100 <= usize_max t)%Z -> (1 <= n <= 100)%nat -> (2 * Z.of_nat n <= usize_max t)%Z ->
  forall r : GaussLegendre RA, legendre_new t (Z.of_nat n) = Ok r -> forall l, gauss_rule n l ->
  Forall2 (fun computed exact : R * R =>
    Rabs (acos (fst computed) - acos (fst exact)) <= 21 / 10 ^ 17 /\
    Rabs (fst computed - fst exact) <= 21 / 10 ^ 17 /\
    Rabs (snd computed - snd exact) <= 21 / 10 ^ 17 * snd exact) (legendre_pairs r) l.
Proof. exact table_close. Qed.
Print Assumptions C78_tables.

(** Any integrand: the value of the exact Gauss rule *)
Theorem C78_same_as_gauss : forall (t : Target) (n : nat) (r : GaussLegendre RA),
  (100 <= usize_max t)%Z -> (2 * Z.of_nat n <= usize_max t)%Z -> legendre_new t (Z.of_nat n) = Ok r -> (1 <= n <= 100)%nat ->
  forall l, gauss_rule n l -> forall a b f M omega, (forall x, closed_between a b x -> Rabs (f x) <= M) ->
  oscillation a b f (21 / 10 ^ 17 * (Rabs (b - a) / 2)) omega ->
  Rabs (legendre_value r a b f - (b - a) / 2 * apply_rule l (fun x => f ((b - a) / 2 * x + (a + b) / 2)))
    <= (omega + 21 / 10 ^ 17 * M) * Rabs (b - a).
Proof. exact table_same. Qed.
Print Assumptions C78_same_as_gauss.

(** Every number of points *)
Theorem C78_every_degree : forall (t : Target) (n : nat) (r : GaussLegendre RA),
  (100 <= usize_max t)%Z -> (2 * Z.of_nat n <= usize_max t)%Z -> legendre_new t (Z.of_nat n) = Ok r -> (1 <= n)%nat ->
  forall l, gauss_rule n l ->
  Forall2 (fun computed exact : R * R =>
    Rabs (acos (fst computed) - acos (fst exact)) <= 71 / 10 ^ 15 / (INR n + / 2) /\
    Rabs (fst computed - fst exact) <= 71 / 10 ^ 15 / (INR n + / 2) /\
    Rabs (snd computed - snd exact) <= 24 / 10 ^ 14 * snd exact) (legendre_pairs r) l.
Proof. exact every_close. Qed.
Print Assumptions C78_every_degree.

(** The rule that the program returns, in doubles *)
Theorem C78_doubles : forall (be : Backend) kappa, accurate_trig be kappa ->
  forall t (n : nat) (r : GaussLegendre (F64 be)), (100 <= usize_max t)%Z -> (1 <= n <= 100)%nat -> (2 * Z.of_nat n <= usize_max t)%Z ->
  legendre_new t (Z.of_nat n) = Ok r -> forall l, gauss_rule n l ->
  Forall2 (fun p q => (ffin (fst p) /\ Rabs (fval (fst p) - fst q) <= kappa + 11 / 10 ^ 16) /\
    (ffin (snd p) /\ Rabs (fval (snd p) - snd q) <= 2 / 10 ^ 15 / INR n + 21 / 10 ^ 17 * snd q)) (legendre_pairs r) l.
Proof. exact table_gauss_close. Qed.
Print Assumptions C78_doubles.

(** The rule of 7 points and a library that rounds correctly *)
Example C78_rule : exists r : GaussLegendre RA, legendre_new target64 (Z.of_nat 7) = Ok r.
Proof. eexists. reflexivity. Qed.
Example C78_exact_rule : exists l, gauss_rule 7 l /\ forall m, gauss_rule 7 m -> m = l.
Proof. exact (gauss_rule_exists 7 (le_S _ _ (le_S _ _ (le_S _ _ (le_S _ _ (le_S _ _ (le_S _ _ (le_n 1)))))))). Qed.
Example C78_double_rule : forall be : Backend, exists r : GaussLegendre (F64 be), legendre_new target64 (Z.of_nat 7) = Ok r.
Proof. intros be. eexists. reflexivity. Qed.
Example C78_library : accurate_trig correct_library (bpow radix2 (-53)).
Proof. exact correct_accurate. Qed.
