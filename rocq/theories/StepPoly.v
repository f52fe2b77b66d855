(** Polynomial majorants of step functions, and what they give for monotone integrands. *)
From Coq Require Import Reals Lra Lia List Arith Sorted.
From Coquelicot Require Import Coquelicot.
From Verif Require Import RSum PolySpec PolyProof MassSpec MonoSpec.
Import ListNotations.
Local Open Scope R_scope.

(** ** functions whose divided differences alternate in sign right of [a] *)
Inductive alt (a : R) : (R -> R) -> Prop :=
| alt_const : forall c, 0 <= c -> alt a (fun _ => c)
| alt_div : forall g b, alt a g -> b <= a -> alt a (fun x => g x / (x - b))
| alt_add : forall g h, alt a g -> alt a h -> alt a (fun x => g x + h x).

Lemma alt_pos : forall a g, alt a g -> forall x, a < x -> 0 <= g x.
Proof.
  intros a g H. induction H as [c Hc|g b _ IH Hb|g h _ IH1 _ IH2]; intros x Hx; [exact Hc| |].
  - apply Rmult_le_pos; [apply IH, Hx|]. left. apply Rinv_0_lt_compat. lra.
  - specialize (IH1 x Hx). specialize (IH2 x Hx). lra.
Qed.
Lemma alt_diff : forall a g, alt a g -> forall y, a < y -> exists h, alt a h /\ forall x, a < x -> g x = g y + (y - x) * h x.
Proof.
  intros a g H. induction H as [c Hc|g b Hg IH Hb|g h Hg IH1 Hh IH2]; intros y Hy.
  - exists (fun _ => 0). split; [constructor; lra|]. intros; ring.
  - destruct (IH y Hy) as (h & Hh & E). exists (fun x => h x / (x - b) + (g y / (y - b)) / (x - b)). split.
    + constructor; apply alt_div; try assumption. constructor.
      apply Rmult_le_pos; [apply (alt_pos a g Hg y Hy)|]. left. apply Rinv_0_lt_compat. lra.
    + intros x Hx. rewrite (E x Hx). field. lra.
  - destruct (IH1 y Hy) as (h1 & H1 & E1). destruct (IH2 y Hy) as (h2 & H2 & E2). exists (fun x => h1 x + h2 x).
    split; [constructor; assumption|]. intros x Hx. rewrite (E1 x Hx), (E2 x Hx). ring.
Qed.

Definition gap (ys : list R) (x : R) : R := fold_right (fun y v => (y - x) * v) 1 ys.
Lemma alt_interp : forall a ys g, alt a g -> List.Forall (fun y => a < y) ys -> exists S h, polynomial (length ys) S /\ alt a h /\
  (forall x, a < x -> g x = S x + gap ys x * h x) /\ (forall x, List.Forall (fun y => x <= y) ys -> 0 <= S x).
Proof.
  intros a ys. induction ys as [|y ys IH]; intros g Hg F.
  - exists (fun _ => 0), g. split; [apply poly_const|]. split; [exact Hg|]. split; [intros; simpl; ring|intros; lra].
  - inversion F as [|? ? Fy Fr]; subst. destruct (alt_diff a g Hg y Fy) as (h & Hh & E).
    destruct (IH h Hh Fr) as (S & k & HS & Hk & E2 & P).
    exists (fun x => g y + (y - x) * S x), k. split; [|split; [exact Hk|split]].
    + apply poly_add; [apply poly_const|].
      change (length (y :: ys)) with (1 + length ys)%nat.
      apply poly_mul; [|exact HS]. apply (poly_sub 1 (fun _ => y) (fun x => x)); [apply poly_const|exact poly_id].
    + intros x Hx. rewrite (E x Hx), (E2 x Hx). simpl gap. ring.
    + intros x Fx. inversion Fx as [|? ? F1 F2]; subst. assert (A := alt_pos a g Hg y Fy). assert (B := P x F2).
      assert (0 <= (y - x) * S x) by (apply Rmult_le_pos; lra). lra.
Qed.

(** ** the majorant of one step *)
Definition sq (bs : list R) (x : R) : R := fold_right (fun b v => (x - b) * (x - b) * v) 1 bs.
Definition inv (bs : list R) (x : R) : R := fold_right (fun b v => v / (x - b) / (x - b)) 1 bs.
Definition dbl (cs : list R) : list R := fold_right (fun y l => y :: y :: l) [] cs.

Lemma inv_alt : forall a bs, List.Forall (fun b => b <= a) bs -> alt a (inv bs).
Proof.
  intros a bs. induction 1 as [|b bs Hb _ IH]; [apply (alt_const a 1); lra|].
  apply (alt_div a (fun x => inv bs x / (x - b)) b); [|exact Hb]. apply alt_div; assumption.
Qed.
Lemma sq_inv : forall a bs x, List.Forall (fun b => b <= a) bs -> a < x -> sq bs x * inv bs x = 1.
Proof.
  intros a bs x F Hx. induction F as [|b bs Hb _ IH]; [simpl; ring|]. simpl.
  transitivity (sq bs x * inv bs x); [field; lra|exact IH].
Qed.
Lemma sq_pos : forall bs x, 0 <= sq bs x.
Proof. induction bs as [|b bs IH]; intros x; simpl; [lra|]. apply Rmult_le_pos; [apply Rle_0_sqr|apply IH]. Qed.
Lemma sq_zero : forall bs x, In x bs -> sq bs x = 0.
Proof. induction bs as [|b bs IH]; [intros x []|]. intros x [E|E]; simpl; [subst; ring|rewrite (IH x E); ring]. Qed.
Lemma sq_poly : forall bs, polynomial (2 * length bs) (sq bs).
Proof.
  induction bs as [|b bs IH]; [apply poly_const|].
  replace (2 * length (b :: bs))%nat with (2 + 2 * length bs)%nat by (simpl; lia).
  apply (poly_mul 2 (2 * length bs) (fun x => (x - b) * (x - b)) (sq bs)); [|exact IH].
  assert (L : polynomial 1 (fun x => x - b)) by (apply (poly_sub 1 (fun x => x) (fun _ => b)); [exact poly_id|apply poly_const]).
  apply (poly_mul 1 1 _ _ L L).
Qed.
Lemma dbl_length : forall cs, length (dbl cs) = (2 * length cs)%nat.
Proof. induction cs as [|c cs IH]; simpl; [reflexivity|]. rewrite IH. lia. Qed.
Lemma dbl_forall : forall (P : R -> Prop) cs, List.Forall P cs -> List.Forall P (dbl cs).
Proof. induction 1; simpl; repeat constructor; assumption. Qed.
Lemma gap_dbl : forall cs x, 0 <= gap (dbl cs) x.
Proof.
  induction cs as [|c cs IH]; intros x; simpl; [lra|]. fold (dbl cs). fold (gap (dbl cs) x).
  rewrite <- Rmult_assoc. apply Rmult_le_pos; [apply Rle_0_sqr|apply IH].
Qed.
Lemma gap_zero : forall cs x, In x cs -> gap (dbl cs) x = 0.
Proof. induction cs as [|c cs IH]; [intros x []|]. intros x [E|E]; simpl; [subst; ring|]. fold (dbl cs). fold (gap (dbl cs) x). rewrite (IH x E). ring. Qed.

Lemma bound_below : forall bs c, List.Forall (fun b => b < c) bs -> exists a, a < c /\ List.Forall (fun b => b <= a) bs.
Proof.
  intros bs c. induction 1 as [|b bs Hb _ (a & Ha & F)]; [exists (c - 1); split; [lra|constructor]|].
  exists (Rmax a b). split; [apply Rmax_lub_lt; assumption|]. constructor; [apply Rmax_r|].
  eapply List.Forall_impl; [|exact F]. intros z Hz. eapply Rle_trans; [exact Hz|apply Rmax_l].
Qed.
Lemma step_majorant : forall bs c cs, List.Forall (fun b => b < c) bs -> List.Forall (fun y => c < y) cs ->
  exists P, polynomial (2 * length bs + S (2 * length cs)) P /\ (forall x, 0 <= P x) /\ (forall x, c <= x -> 1 <= P x) /\
  (forall x, In x bs -> P x = 0) /\ P c = 1 /\ forall x, In x cs -> P x = 1.
Proof.
  intros bs c cs Fb Fc. destruct (bound_below bs c Fb) as (a & Ha & Fa).
  destruct (alt_interp a (c :: dbl cs) (inv bs) (inv_alt a bs Fa)) as (S & h & HS & Hh & E & Po).
  { constructor; [exact Ha|]. apply dbl_forall. eapply List.Forall_impl; [|exact Fc]. intros y Hy. simpl in Hy. lra. }
  assert (Hit : forall x, a < x -> gap (c :: dbl cs) x = 0 -> sq bs x * S x = 1).
  { intros x Hx Z. rewrite <- (sq_inv a bs x Fa Hx), (E x Hx), Z. ring. }
  assert (Ab : forall x, c <= x -> 1 <= sq bs x * S x).
  { intros x Hx. rewrite <- (sq_inv a bs x Fa) by lra. apply Rmult_le_compat_l; [apply sq_pos|].
    rewrite (E x) by lra. simpl gap. assert (G := gap_dbl cs x). assert (K := alt_pos a h Hh x ltac:(lra)).
    fold (gap (dbl cs) x). assert (0 <= (x - c) * (gap (dbl cs) x * h x)) by (apply Rmult_le_pos; [lra|apply Rmult_le_pos; assumption]). lra. }
  exists (fun x => sq bs x * S x). split; [|split; [|split; [exact Ab|split; [|split]]]].
  - apply poly_mul; [apply sq_poly|]. simpl length in HS. rewrite dbl_length in HS. exact HS.
  - intros x. destruct (Rle_or_lt c x) as [L|L]; [specialize (Ab x L); lra|].
    apply Rmult_le_pos; [apply sq_pos|]. apply Po. constructor; [lra|]. apply dbl_forall.
    eapply List.Forall_impl; [|exact Fc]. intros y Hy. simpl in Hy. lra.
  - intros x Hx. rewrite sq_zero by exact Hx. ring.
  - apply Hit; [exact Ha|]. simpl. ring.
  - intros x Hx. rewrite List.Forall_forall in Fc. apply Hit; [specialize (Fc x Hx); lra|]. simpl. fold (gap (dbl cs) x).
    rewrite gap_zero by exact Hx. ring.
Qed.

(** ** the majorant of a monotone function that takes the next value at every node *)
Section Mono.
Variables (D : R -> Prop) (f : R -> R) (bot top : R).
Hypothesis Hf : rises_between D f bot top.
Definition next (l : list R) : R := match l with [] => top | y :: _ => f y end.

(** [bs] are the nodes already passed *)
Lemma mono_majorant : forall cs bs, StronglySorted Rlt cs -> List.Forall D cs -> (forall b c, In b bs -> In c cs -> b < c) ->
  exists P, polynomial (2 * length (bs ++ cs) - 1) P /\ (forall x, 0 <= P x) /\
  (forall x, D x -> cs <> [] -> f x - next cs <= P x) /\
  (forall x, In x bs -> P x = 0) /\
  forall us c vs, cs = us ++ c :: vs -> P c = next vs - next cs.
Proof.
  induction cs as [|c cs IH]; intros bs So Dc Sep.
  - exists (fun _ => 0). split; [apply poly_const|]. split; [intros; lra|]. split; [intros x _ N; contradiction|].
    split; [reflexivity|]. intros [|u us] c vs E; discriminate.
  - inversion So as [|? ? So' Lt]; subst. inversion Dc as [|? ? Dc1 Dc2]; subst.
    destruct (step_majorant bs c cs) as (Q & HQ & Qp & Q1 & Qb & Qc & Qcs).
    { apply List.Forall_forall. intros b Hb. apply Sep; [exact Hb|left; reflexivity]. }
    { exact Lt. }
    destruct (IH (bs ++ [c]) So' Dc2) as (P & HP & Pp & Pm & Pb & Pv).
    { intros b y Hb Hy. apply in_app_or in Hb. destruct Hb as [Hb|[Hb|[]]]; [apply Sep; [exact Hb|right; exact Hy]|].
      subst b. rewrite List.Forall_forall in Lt. apply Lt, Hy. }
    rewrite <- app_assoc in HP. simpl app in HP.
    assert (Up : f c <= next cs).
    { destruct cs as [|y cs']; [apply Hf, Dc1|]. inversion Lt; subst. inversion Dc2; subst. apply Hf; [assumption..|lra]. }
    exists (fun x => (next cs - f c) * Q x + P x). split; [|split; [|split; [|split]]].
    + apply poly_add; [|exact HP]. apply poly_scal. apply (poly_weaken (2 * length bs + S (2 * length cs))); [|exact HQ].
      rewrite app_length. simpl. lia.
    + intros x. assert (0 <= (next cs - f c) * Q x) by (apply Rmult_le_pos; [lra|apply Qp]). specialize (Pp x). lra.
    + intros x Dx _. simpl next in *. specialize (Pp x).
      destruct (Rle_or_lt c x) as [L|L].
      * assert (B : (next cs - f c) * 1 <= (next cs - f c) * Q x) by (apply Rmult_le_compat_l; [lra|apply Q1, L]).
        destruct cs as [|y cs']; [simpl in *; assert (T := proj2 (proj2 Hf x Dx)); lra|].
        destruct (Rle_or_lt y x) as [L2|L2].
        -- assert (K := Pm x Dx ltac:(discriminate)). lra.
        -- inversion Dc2; subst. assert (f x <= f y) by (apply Hf; [assumption..|lra]). simpl next in *. lra.
      * assert (f x <= f c) by (apply Hf; [assumption..|lra]).
        assert (0 <= (next cs - f c) * Q x) by (apply Rmult_le_pos; [lra|apply Qp]). lra.
    + intros x Hx. rewrite (Qb x Hx), Pb by (apply in_or_app; left; exact Hx). ring.
    + intros us y vs E. destruct us as [|u us]; inversion E; subst.
      * rewrite Qc, Pb by (apply in_or_app; right; left; reflexivity). simpl. ring.
      * rewrite Qcs, (Pv us y vs eq_refl) by (apply in_or_app; right; left; reflexivity). change (next ((u :: us) ++ y :: vs)) with (f u) in *. change (next (u :: us ++ y :: vs)) with (f u). ring.
Qed.

Lemma mono_above : forall cs, StronglySorted Rlt cs -> List.Forall D cs -> cs <> [] ->
  exists P, polynomial (2 * length cs - 1) P /\ (forall x, D x -> f x <= P x) /\
  forall us c vs, cs = us ++ c :: vs -> P c = next vs.
Proof.
  intros cs So Dc Ne. destruct (mono_majorant cs [] So Dc) as (P & HP & _ & Pm & _ & Pv); [intros b c []|].
  exists (fun x => next cs + P x). split; [apply poly_add; [apply poly_const|exact HP]|].
  split; [intros x Dx; specialize (Pm x Dx Ne); lra|].
  intros us c vs E. rewrite (Pv us c vs E). ring.
Qed.
End Mono.

Lemma sorted_app : forall (u v : list R), StronglySorted Rlt u -> StronglySorted Rlt v -> (forall x y, In x u -> In y v -> x < y) -> StronglySorted Rlt (u ++ v).
Proof.
  intros u v Su Sv. induction Su as [|a u Su IH F]; intros H; [exact Sv|]. simpl. constructor.
  - apply IH. intros x y Hx Hy. apply H; [right; exact Hx|exact Hy].
  - apply List.Forall_app. split; [exact F|]. apply List.Forall_forall. intros y Hy. apply H; [left; reflexivity|exact Hy].
Qed.
Lemma sorted_mirror : forall l, StronglySorted Rlt l -> StronglySorted Rlt (rev (map Ropp l)).
Proof.
  intros l. induction 1 as [|a l So IH F]; [constructor|]. simpl. apply sorted_app; [exact IH|repeat constructor|].
  intros x y Hx [<-|[]]. apply in_rev in Hx. apply in_map_iff in Hx. destruct Hx as (z & <- & Hz).
  rewrite List.Forall_forall in F. specialize (F z Hz). lra.
Qed.
Lemma mono_below : forall (D : R -> Prop) f bot top, rises_between D f bot top -> forall cs, StronglySorted Rlt cs -> List.Forall D cs -> cs <> [] ->
  exists P, polynomial (2 * length cs - 1) P /\ (forall x, D x -> P x <= f x) /\
  forall us c vs, cs = us ++ c :: vs -> P c = last (map f us) bot.
Proof.
  intros D f bot top [Mo Bo] cs So Dc Ne.
  destruct (mono_above (fun x => D (- x)) (fun x => - f (- x)) (- top) (- bot)) with (cs := rev (map Ropp cs)) as (P & HP & Pm & Pv).
  - split; [|intros x Hx; specialize (Bo _ Hx); lra]. intros x y Dx Dy L. apply Ropp_le_contravar, Mo; [assumption..|lra].
  - apply sorted_mirror, So.
  - apply List.Forall_forall. intros x Hx. apply in_rev in Hx. apply in_map_iff in Hx. destruct Hx as (z & <- & Hz).
    rewrite Ropp_involutive. rewrite List.Forall_forall in Dc. apply Dc, Hz.
  - intros E. apply (f_equal (@length R)) in E. rewrite rev_length, map_length in E. destruct cs; [apply Ne; reflexivity|discriminate].
  - rewrite rev_length, map_length in HP. exists (fun x => -1 * P (-1 * x + 0)). split; [|split].
    + apply poly_scal. apply (poly_affine _ P (-1) 0). exact HP.
    + intros x Dx. replace (-1 * x + 0) with (- x) by ring. specialize (Pm (- x)). cbv beta in Pm. rewrite Ropp_involutive in Pm. specialize (Pm Dx). lra.
    + intros us c vs E. replace (-1 * c + 0) with (- c) by ring.
      rewrite (Pv (rev (map Ropp vs)) (- c) (rev (map Ropp us))).
      2: { rewrite E, map_app, rev_app_distr. simpl. rewrite <- app_assoc. reflexivity. }
      destruct us as [|z us _] using rev_ind; [simpl; ring|].
      rewrite map_app, rev_app_distr, map_app. simpl. rewrite last_last, Ropp_involutive. ring.
Qed.

(** ** rules *)
Lemma rule_right : forall top f l g, (forall us x w vs, l = us ++ (x, w) :: vs -> g x = next f top (map fst vs)) -> apply_rule l g = sum_right top f l.
Proof.
  intros top f l g. unfold apply_rule. induction l as [|[x w] l IH]; intros H; [reflexivity|]. simpl. rewrite IH.
  - rewrite (H [] x w l eq_refl). destruct l as [|[y v] l]; simpl; ring.
  - intros us y v vs E. apply (H ((x, w) :: us) y v vs). rewrite E. reflexivity.
Qed.
Lemma rule_left : forall f l bot g, (forall us x w vs, l = us ++ (x, w) :: vs -> g x = last (map f (map fst us)) bot) -> apply_rule l g = sum_left bot f l.
Proof.
  intros f l. unfold apply_rule. induction l as [|[x w] l IH]; intros bot g H; [reflexivity|]. simpl. rewrite (IH (f x)).
  - rewrite (H [] x w l eq_refl). simpl. ring.
  - intros us y v vs E. rewrite (H ((x, w) :: us) y v vs) by (rewrite E; reflexivity).
    simpl. destruct us as [|[z u] us]; [reflexivity|]. simpl. generalize (f z) (map f (map fst us)). intros a m. revert a.
    induction m as [|b m IHm]; intros a; [reflexivity|]. apply IHm.
Qed.
Lemma fst_sorted : forall l, strictly_ascending l -> StronglySorted Rlt (map fst l).
Proof. induction 1 as [|a l So IH F]; simpl; constructor; [exact IH|]. apply List.Forall_map. exact F. Qed.
Lemma split_fst : forall (l us : list (R * R)) x w vs, l = us ++ (x, w) :: vs -> map fst l = map fst us ++ x :: map fst vs.
Proof. intros l us x w vs ->. apply map_app. Qed.

Lemma rule_majorant : forall (D : R -> Prop) f bot top l, rises_between D f bot top -> strictly_ascending l -> List.Forall (fun p => D (fst p)) l -> l <> [] ->
  (exists P, polynomial (2 * length l - 1) P /\ (forall x, D x -> f x <= P x) /\ apply_rule l P = sum_right top f l) /\
  (exists P, polynomial (2 * length l - 1) P /\ (forall x, D x -> P x <= f x) /\ apply_rule l P = sum_left bot f l).
Proof.
  intros D f bot top l Hf So Dl Ne.
  assert (Dm : List.Forall D (map fst l)) by (apply List.Forall_map; exact Dl).
  assert (Nm : map fst l <> []) by (destruct l; [contradiction|discriminate]).
  split.
  - destruct (mono_above D f bot top Hf (map fst l) (fst_sorted l So) Dm Nm) as (P & HP & Pm & Pv).
    rewrite map_length in HP. exists P. split; [exact HP|]. split; [exact Pm|]. apply rule_right. intros us x w vs E.
    apply (Pv (map fst us)). apply (split_fst l us x w vs E).
  - destruct (mono_below D f bot top Hf (map fst l) (fst_sorted l So) Dm Nm) as (P & HP & Pm & Pv).
    rewrite map_length in HP. exists P. split; [exact HP|]. split; [exact Pm|]. apply rule_left. intros us x w vs E.
    apply (Pv (map fst us) x (map fst vs)). apply (split_fst l us x w vs E).
Qed.

(** the distance of the two sums from the rule itself *)
Lemma right_excess : forall (D : R -> Prop) f bot top k l, rises_between D f bot top -> strictly_ascending l -> List.Forall (fun p => D (fst p) /\ 0 <= snd p <= k) l -> l <> [] ->
  0 <= sum_right top f l - apply_rule l f <= k * (top - f (fst (hd (0, 0) l))).
Proof.
  intros D f bot top k l [Mo Bo] So. induction So as [|[x w] l So IH F]; intros Al Ne; [contradiction|].
  inversion Al as [|? ? [A1 A2] Al']; subst. simpl fst in *. simpl snd in *. unfold apply_rule. simpl. fold (apply_rule l f).
  destruct l as [|[y v] l].
  - unfold apply_rule. simpl. assert (B := Bo x A1). assert (0 <= w * (top - f x) <= k * (top - f x)) by (split; [apply Rmult_le_pos|apply Rmult_le_compat_r]; lra). lra.
  - specialize (IH Al' ltac:(discriminate)). simpl hd in IH. simpl fst in IH. inversion Al' as [|? ? [C1 C2] _]; subst. inversion F as [|? ? Lt _]; subst. simpl fst in *.
    assert (f x <= f y) by (apply Mo; [assumption..|lra]).
    assert (0 <= w * (f y - f x) <= k * (f y - f x)) by (split; [apply Rmult_le_pos|apply Rmult_le_compat_r]; lra). lra.
Qed.
Lemma left_excess : forall (D : R -> Prop) f bot top k l b, rises_between D f bot top -> strictly_ascending l -> List.Forall (fun p => D (fst p) /\ 0 <= snd p <= k) l -> 0 <= k ->
  b <= top -> (forall x, In x (map fst l) -> b <= f x) -> 0 <= apply_rule l f - sum_left b f l <= k * (top - b).
Proof.
  intros D f bot top k l b [Mo Bo] So. revert b. induction So as [|[x w] l So IH F]; intros b Al Hk Hb Hx.
  - unfold apply_rule. simpl. assert (0 <= k * (top - b)) by (apply Rmult_le_pos; lra). lra.
  - inversion Al as [|? ? [A1 A2] Al']; subst. simpl fst in *. simpl snd in *. unfold apply_rule. simpl. fold (apply_rule l f).
    specialize (IH (f x) Al' Hk (proj2 (Bo x A1))).
    assert (L : b <= f x) by (apply Hx; left; reflexivity).
    assert (I := IH ltac:(intros y Hy; apply in_map_iff in Hy; destruct Hy as (p & <- & Hp); rewrite List.Forall_forall in F, Al'; apply Mo; [exact A1|apply (Al' p Hp)|left; apply (F p Hp)])).
    assert (0 <= w * (f x - b) <= k * (f x - b)) by (split; [apply Rmult_le_pos|apply Rmult_le_compat_r]; lra). lra.
Qed.
