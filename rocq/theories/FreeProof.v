(** Parallel integration calls the integrand at the same points. *)
From Coq Require Import ZArith List Lia Permutation.
From Verif Require Import Arith Machine Iter Rules Par Chebyshev GolubWelsch Hermite
  Laguerre Legendre Jacobi NewtonCotes IntegrateSpec IntegrateProof GaussSpec GaussProof TraceProof FreeSpec.
Import ListNotations.

Lemma sum_from_calls : forall X (f : X -> expr) l acc,
  calls (fst (sum_from (A := FA) (fun (_ : unit) x => (f x, tt)) acc l tt)) =
  calls acc ++ flat_map (fun x => calls (f x)) l.
Proof.
  intros X f l. induction l as [|x l IH]; intros acc; simpl.
  - symmetry. apply app_nil_r.
  - rewrite IH. simpl. rewrite <- app_assoc. reflexivity.
Qed.
Lemma par_sum_calls : forall X t (f : X -> expr) l,
  calls (par_sum (A := FA) t f l) = flat_map (fun x => calls (f x)) l.
Proof.
  intros X t. induction t as [|m tl IHl tr IHr]; intros f l; simpl.
  - unfold iter_sum. rewrite sum_from_calls. reflexivity.
  - rewrite IHl, IHr, <- flat_map_app, firstn_skipn. reflexivity.
Qed.
Lemma flat_map_single : forall X Y (f : X -> Y) l, flat_map (fun x => [f x]) l = map f l.
Proof. intros. induction l; simpl; congruence. Qed.
Lemma flat_map_weighted : forall (p : expr -> expr) (l : list (expr * expr)), call_free l ->
  flat_map (fun x : expr * expr => calls (let '(x, w) := x in Fun2 2 (Call (p x)) w)) l = map p (map fst l).
Proof.
  intros p l H. induction H as [|[x w] l [_ H] _ IH]; [reflexivity|]. simpl in *.
  rewrite H, IH. reflexivity.
Qed.

Section Gauss.
Variables (t : Sched) (a b : expr).
Hypotheses (Ha : calls a = []) (Hb : calls b = []).

Lemma half_calls : calls (@half_width FA a b) = [].
Proof. simpl. rewrite Ha, Hb. reflexivity. Qed.
Lemma par_calls : forall l, call_free l ->
  calls (par_sum (A := FA) t (fun '(x, w) => Fun2 2 (Call (@to_interval FA a b x)) w) l)
  = map (@to_interval FA a b) (map fst l).
Proof. intros l H. rewrite par_sum_calls. apply (flat_map_weighted (@to_interval FA a b) l H). Qed.

Lemma legendre_par_points : forall r : GaussLegendre FA, call_free (legendre_pairs r) ->
  calls (legendre_par_integrate (A := FA) t Call r a b) =
  snd (legendre_integrate (A := FA) (traced Call) r a b []).
Proof.
  intros r H. rewrite legendre_calls, (call_all_traced expr expr Call). cbn [snd app].
  refine (eq_trans _ (par_calls _ H)). change (calls (half_width (A := FA) a b) ++
    calls (par_sum (A := FA) t (fun '(x, w) => Fun2 2 (Call (@to_interval FA a b x)) w) (legendre_pairs r)) = 
    calls (par_sum (A := FA) t (fun '(x, w) => Fun2 2 (Call (@to_interval FA a b x)) w) (legendre_pairs r))).
  rewrite half_calls. reflexivity.
Qed.
Lemma jacobi_par_points : forall r : GaussJacobi FA, call_free (jacobi_pairs r) ->
  calls (jacobi_par_integrate (A := FA) t Call r a b) =
  snd (jacobi_integrate (A := FA) (traced Call) r a b []).
Proof.
  intros r H. rewrite jacobi_calls, (call_all_traced expr expr Call). cbn [snd app].
  refine (eq_trans _ (par_calls _ H)). change (calls (half_width (A := FA) a b) ++
    calls (par_sum (A := FA) t (fun '(x, w) => Fun2 2 (Call (@to_interval FA a b x)) w) (jacobi_pairs r)) = 
    calls (par_sum (A := FA) t (fun '(x, w) => Fun2 2 (Call (@to_interval FA a b x)) w) (jacobi_pairs r))).
  rewrite half_calls. reflexivity.
Qed.
Lemma chebyshev1_par_points : forall r : GaussChebyshevFirstKind FA, call_free (chebyshev1_pairs r) ->
  calls (chebyshev1_par_integrate (A := FA) t Call r a b) =
  snd (chebyshev1_integrate (A := FA) (traced Call) r a b []).
Proof.
  intros r H. rewrite chebyshev1_calls, (call_all_traced expr expr Call). cbn [snd app].
  refine (eq_trans _ (par_calls _ H)). change (
    calls (par_sum (A := FA) t (fun '(x, w) => Fun2 2 (Call (@to_interval FA a b x)) w) (chebyshev1_pairs r))
    ++ calls (half_width (A := FA) a b) = 
    calls (par_sum (A := FA) t (fun '(x, w) => Fun2 2 (Call (@to_interval FA a b x)) w) (chebyshev1_pairs r))).
  rewrite half_calls. apply app_nil_r.
Qed.
Lemma chebyshev2_par_points : forall r : GaussChebyshevSecondKind FA, call_free (chebyshev2_pairs r) ->
  calls (chebyshev2_par_integrate (A := FA) t Call r a b) =
  snd (chebyshev2_integrate (A := FA) (traced Call) r a b []).
Proof.
  intros r H. rewrite chebyshev2_calls, (call_all_traced expr expr Call). cbn [snd app].
  refine (eq_trans _ (par_calls _ H)). change (
    calls (par_sum (A := FA) t (fun '(x, w) => Fun2 2 (Call (@to_interval FA a b x)) w) (chebyshev2_pairs r))
    ++ calls (half_width (A := FA) a b) = 
    calls (par_sum (A := FA) t (fun '(x, w) => Fun2 2 (Call (@to_interval FA a b x)) w) (chebyshev2_pairs r))).
  rewrite half_calls. apply app_nil_r.
Qed.
Lemma hermite_par_points : forall r : GaussHermite FA, call_free (hermite_pairs r) ->
  calls (hermite_par_integrate (A := FA) t Call r) = snd (hermite_integrate (A := FA) (traced Call) r []).
Proof.
  intros r H. rewrite hermite_calls, (call_all_traced expr expr Call). cbn [snd app].
  unfold hermite_par_integrate. rewrite par_sum_calls.
  refine (eq_trans (flat_map_weighted (fun x => x) _ H) _). apply map_id.
Qed.
Lemma laguerre_par_points : forall r : GaussLaguerre FA, call_free (laguerre_pairs r) ->
  calls (laguerre_par_integrate (A := FA) t Call r) = snd (laguerre_integrate (A := FA) (traced Call) r []).
Proof.
  intros r H. rewrite laguerre_calls, (call_all_traced expr expr Call). cbn [snd app].
  unfold laguerre_par_integrate. rewrite par_sum_calls.
  refine (eq_trans (flat_map_weighted (fun x => x) _ H) _). apply map_id.
Qed.

Lemma midpoint_par_points : forall n, (1 <= n)%Z ->
  calls (midpoint_par_integrate (A := FA) Call t (midpoint_new n) a b) =
  snd (midpoint_integrate (A := FA) (traced Call) (midpoint_new n) a b []).
Proof.
  intros n H. rewrite midpoint_calls by exact H. rewrite (call_all_traced expr expr Call). cbn [snd app].
  unfold midpoint_par_integrate. simpl calls. rewrite par_sum_calls, Ha, Hb. simpl. rewrite app_nil_r.
  rewrite flat_map_single. unfold zrange, ints. rewrite Z.sub_0_r. reflexivity.
Qed.
Lemma trapezoid_par_points : forall n, (1 <= n)%Z ->
  calls (trapezoid_par_integrate (A := FA) Call t (trapezoid_new n) a b) =
  snd (trapezoid_integrate (A := FA) (traced Call) (trapezoid_new n) a b []).
Proof.
  intros n H. rewrite trapezoid_calls by exact H. rewrite !(call_all_traced expr expr Call). cbn [snd app].
  unfold trapezoid_par_integrate. simpl calls. rewrite par_sum_calls, Ha, Hb. simpl. rewrite app_nil_r.
  rewrite flat_map_single. unfold zrange, ints. reflexivity.
Qed.
Lemma simpson_par_points : forall t2 n, (1 <= n)%Z ->
  calls (simpson_par_integrate (A := FA) Call t t2 (simpson_new n) a b) =
  snd (simpson_integrate (A := FA) (traced Call) (simpson_new n) a b []).
Proof.
  intros t2 n H. rewrite simpson_calls by exact H. rewrite !(call_all_traced expr expr Call). cbn [snd app].
  unfold simpson_par_integrate. simpl calls. rewrite !par_sum_calls, Ha, Hb. simpl.
  rewrite !flat_map_single. unfold zrange, ints. rewrite <- !app_assoc. reflexivity.
Qed.
End Gauss.
