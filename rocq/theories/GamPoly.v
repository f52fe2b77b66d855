(** Polynomials with integer coefficients, and the check that bounds the error of the gamma approximation. *)
From Coq Require Import Reals Lra Lia List ZArith.
From Coquelicot Require Import Coquelicot.
From Verif Require Import Arith RInst RInstProof Gamma GammaProof.
Import ListNotations.
Local Open Scope R_scope.

Fixpoint peval (p : list Z) (w : R) : R := match p with [] => 0 | a :: p => IZR a + w * peval p w end.
Fixpoint padd (p q : list Z) : list Z :=
  match p, q with [], _ => q | _, [] => p | a :: p, b :: q => (a + b)%Z :: padd p q end.
Definition pscal (c : Z) (p : list Z) : list Z := map (Z.mul c) p.
Fixpoint pmul (p q : list Z) : list Z := match p with [] => [] | a :: p => padd (pscal a q) (0%Z :: pmul p q) end.
Fixpoint ppow (p : list Z) (n : nat) : list Z := match n with O => [1%Z] | S n => pmul p (ppow p n) end.
Fixpoint pder' (k : Z) (p : list Z) : list Z := match p with [] => [] | a :: p => (k * a)%Z :: pder' (k + 1) p end.
Definition pder (p : list Z) : list Z := match p with [] => [] | _ :: p => pder' 1 p end.
(** p(1 + t) *)
Fixpoint pshift (p : list Z) : list Z := match p with [] => [] | a :: p => let s := pshift p in padd [a] (padd s (0%Z :: s)) end.
(** q^n p(t / q), n the degree *)
Fixpoint pscale (q : Z) (p : list Z) : list Z :=
  match p with [] => [] | a :: p => (q ^ Z.of_nat (length p) * a)%Z :: pscale q p end.
Definition pabs (p : list Z) : Z := fold_right (fun a s => (Z.abs a + s)%Z) 0%Z p.
(** sum of l_k y^(n-k) x^k for polynomials y, x *)
Fixpoint phom (y x : list Z) (l : list Z) : list Z :=
  match l with [] => [] | a :: l => padd (pscal a (ppow y (length l))) (pmul x (phom y x l)) end.

Lemma peval_add : forall p q w, peval (padd p q) w = peval p w + peval q w.
Proof.
  induction p as [|a p IH]; intros [|b q] w; simpl; try lra. rewrite plus_IZR, IH. ring.
Qed.
Lemma peval_scal : forall c p w, peval (pscal c p) w = IZR c * peval p w.
Proof. intros c p w. induction p as [|a p IH]; [simpl; ring|]. change (IZR (c * a) + w * peval (pscal c p) w = IZR c * (IZR a + w * peval p w)). rewrite mult_IZR, IH. ring. Qed.
Lemma peval_mul : forall p q w, peval (pmul p q) w = peval p w * peval q w.
Proof. induction p as [|a p IH]; intros q w; simpl; [ring|]. rewrite peval_add, peval_scal. cbn [peval]. rewrite IH. ring. Qed.
Lemma peval_pow : forall p n w, peval (ppow p n) w = peval p w ^ n.
Proof. induction n as [|n IH]; intros w; simpl; [ring|]. rewrite peval_mul, IH. reflexivity. Qed.
Lemma peval_shift : forall p t, peval (pshift p) t = peval p (1 + t).
Proof.
  induction p as [|a p IH]; intros t; [reflexivity|]. cbn [pshift]. cbv zeta. rewrite !peval_add. cbn [peval]. rewrite IH. ring.
Qed.
Lemma peval_scale : forall q p w, peval (pscale q p) (IZR q * w) = IZR q ^ (pred (length p)) * peval p w.
Proof.
  intros q p w. induction p as [|a p IH]; [simpl; ring|]. cbn [pscale peval length pred]. rewrite mult_IZR, <- pow_IZR, IH.
  destruct p as [|b p]; [simpl; ring|]. simpl length. simpl pred. simpl pow. ring.
Qed.
Lemma peval_abs : forall p t, -1 <= t <= 1 -> Rabs (peval p t) <= IZR (pabs p).
Proof.
  intros p t Ht. induction p as [|a p IH]; [simpl; rewrite Rabs_R0; lra|]. cbn [peval]. change (pabs (a :: p)) with (Z.abs a + pabs p)%Z.
  rewrite plus_IZR, abs_IZR. eapply Rle_trans; [apply Rabs_triang|]. apply Rplus_le_compat_l.
  rewrite Rabs_mult. assert (T : Rabs t <= 1) by (apply Rabs_le; lra). assert (P := Rabs_pos (peval p t)). 
  assert (Q := Rabs_pos t). nra.
Qed.
Lemma peval_hom : forall y x l w X, peval y w <> 0 -> peval x w = peval y w * X ->
  peval (phom y x l) w = peval y w ^ (pred (length l)) * peval l X.
Proof.
  intros y x l w X Hy Hx. induction l as [|a l IH]; [simpl; ring|]. cbn [phom peval length pred].
  rewrite peval_add, peval_scal, peval_mul, peval_pow, IH, Hx. destruct l as [|b l]; [simpl; ring|].
  simpl length. simpl pred. simpl pow. ring.
Qed.

(** bounds on 0 <= w <= 2/q *)
Lemma peval_bound : forall p q w, (0 < q)%Z -> 0 <= w -> IZR q * w <= 2 ->
  IZR q ^ (pred (length p)) * Rabs (peval p w) <= IZR (pabs (pshift (pscale q p))).
Proof.
  intros p q w Hq Hw Hw2. assert (Q : 0 < IZR q) by (apply IZR_lt; exact Hq).
  rewrite <- (Rabs_pos_eq (IZR q ^ pred (length p))) by (apply pow_le; lra). rewrite <- Rabs_mult, <- peval_scale.
  replace (IZR q * w) with (1 + (IZR q * w - 1)) by ring. rewrite <- peval_shift. apply peval_abs. split; nra.
Qed.
Lemma peval_low : forall p q w, (0 < q)%Z -> 0 <= w -> IZR q * w <= 2 ->
  match pshift (pscale q p) with [] => 0 | c :: s => IZR (c - pabs s) end <= IZR q ^ (pred (length p)) * peval p w.
Proof.
  intros p q w Hq Hw Hw2. assert (Q : 0 < IZR q) by (apply IZR_lt; exact Hq).
  rewrite <- peval_scale. replace (IZR q * w) with (1 + (IZR q * w - 1)) by ring. rewrite <- peval_shift.
  destruct (pshift (pscale q p)) as [|c s]; [simpl; lra|]. cbn [peval]. rewrite minus_IZR.
  set (t := IZR q * w - 1). assert (T : -1 <= t <= 1) by (unfold t; split; nra).
  assert (B := peval_abs s t T). assert (T2 : Rabs t <= 1) by (apply Rabs_le; lra).
  assert (C : Rabs (t * peval s t) <= IZR (pabs s)).
  { rewrite Rabs_mult. assert (P := Rabs_pos (peval s t)). assert (P2 := Rabs_pos t). nra. }
  assert (D := Rle_abs (- (t * peval s t))). rewrite Rabs_Ropp in D. lra.
Qed.

Lemma pder'_S : forall p k w, peval (pder' (k + 1) p) w = peval (pder' k p) w + peval p w.
Proof.
  induction p as [|a p IH]; intros k w; [simpl; ring|]. cbn [pder' peval]. rewrite (IH (k + 1)%Z), !mult_IZR, plus_IZR. ring.
Qed.
Lemma peval_derive : forall p w, is_derive (peval p) w (peval (pder p) w).
Proof.
  induction p as [|a p IH]; intros w.
  - apply (is_derive_const (V := R_NormedModule)).
  - cbn [pder]. assert (E : peval (pder' 1 p) w = 0 + (1 * peval p w + w * peval (pder p) w)).
    { destruct p as [|b p]; [simpl; ring|]. cbn [pder' pder]. change (peval ((1 * b)%Z :: pder' (1 + 1) p) w) with (IZR (1 * b) + w * peval (pder' (1 + 1) p) w).
      rewrite pder'_S, mult_IZR. cbn [peval]. ring. }
    rewrite E. apply (is_derive_plus (K := R_AbsRing) (V := R_NormedModule) (fun _ => IZR a) (fun w => w * peval p w)).
    + apply (is_derive_const (V := R_NormedModule)).
    + apply (is_derive_mult (fun w => w) (peval p)); [apply (is_derive_id (K := R_AbsRing))|apply IH|intros; apply Rmult_comm].
Qed.

(** ** The polynomials of the error bound, in w = 1/(10^6 z), z = x - 1/2 + g *)
Local Open Scope Z_scope.
Definition gT := 1000000.
Definition gnum : list Z := [3815406633973526847360000000000; 3655053526962568929116332872960; 1575679994936009667908241601152;
  402538353814262230419059088272; 67487675259344928071552026752; 7758779405455435925318409372; 619452889142176590271748208;
  33913662440149807928698488; 1218480703644286314602208; 25943405088086494459228; 248574089138753550000].
(** z x, z (x + 1), z (x + 10) divided by z^2: 1 + (1/2 - g) y etc. *)
Definition gC := -10400511.
Definition pA := phom [0; gT] [1; gC + gT] gnum.
Definition pA0 := phom [0; gT] [1; gC] gnum.
Definition pB := pmul pA0 [1; gC + 10 * gT].
(** their values, computed once *)
Definition pA_v := Eval vm_compute in pA.
Definition pB_v := Eval vm_compute in pB.
Definition pAB_v := Eval vm_compute in pmul pA_v pB_v.
Definition pW_v := Eval vm_compute in padd (pmul (pder pA_v) pB_v) (pscal (-1) (pmul pA_v (pder pB_v))).
Lemma pA_val : pA = pA_v. Proof. vm_compute. reflexivity. Qed.
Lemma pB_val : pB = pB_v. Proof. vm_compute. reflexivity. Qed.
Lemma pAB_val : pmul pA_v pB_v = pAB_v. Proof. vm_compute. reflexivity. Qed.
Lemma pW_val : padd (pmul (pder pA_v) pB_v) (pscal (-1) (pmul pA_v (pder pB_v))) = pW_v. Proof. vm_compute. reflexivity. Qed.
Definition pone := [1; gT].
(** lcm(1..16); p times the Taylor polynomial of lcm * ln (1 + u) of order 16, u = 10^6 w *)
Definition gL := 720720.
Fixpoint plog' (p : list Z) (n : nat) (k : Z) : list Z :=
  match n with O => [] | S n => padd (pscal (gL / k) p) (0 :: pscal (- gT) (plog' p n (k + 1))) end.
Definition plog (p : list Z) := 0 :: pscal gT (plog' p 16 1).
(** the correction v, times 10^22 *)
Definition gV := 10000000000000000000000.
Fixpoint pgeo (c : Z) (l : list Z) : list Z := match l with [] => [] | a :: l => (c * a) :: pgeo (c * gT) l end.
Definition pv := pgeo 1 [0; -161179516182; 8170056856708; -178692105709176; 2210210512501399; -17020511808166095; 84695744966405280;
  -274224925897997744; 572129531138302359; -757265445438394903; 573043069160800408].
Definition pdv := pder pv.
(** pone^9 * pdv(w / pone) *)
Fixpoint phv (l : list Z) : list Z := match l with [] => [] | a :: l => padd (pscal a (ppow pone (length l))) (0 :: phv l) end.
Definition pones (n : nat) (p : list Z) : list Z := Nat.iter n (pmul pone) p.
Definition pM : list Z :=
  padd (pones 10 (padd (pscal (- gV) (pmul pone (plog pAB_v)))
                       (padd (pscal (gV * gL) (pmul [0; gT; -9900511 * gT] pAB_v))
                             (pscal (gT * gL) (0 :: 0 :: pmul pone (padd (pscal gV pW_v) (pmul pdv pAB_v)))))))
       (pscal (- gT * gL) (0 :: 0 :: pmul (phv pdv) pAB_v)).
Definition pM_v := Eval vm_compute in pM.
Lemma pM_val : pM = pM_v. Proof. vm_compute. reflexivity. Qed.
Definition gq := 20971520.
Definition gbeta := 148 * 10 ^ 71.
Definition check_M : bool :=
  match pM_v with
  | a0 :: a1 :: a2 :: m => (a0 =? 0) && (a1 =? 0) && (a2 =? 0) && (pabs (pshift (pscale gq m)) <=? gq ^ Z.of_nat (pred (length m)) * gbeta)
  | _ => false
  end.
Definition check_low (p : list Z) (b : Z) : bool :=
  match pshift (pscale gq p) with [] => false | c :: s => gq ^ Z.of_nat (pred (length p)) * b <=? c - pabs s end.
Definition check_all : bool := (check_M && check_low pA_v (16 * 10 ^ 19) && check_low pB_v (24 * 10 ^ 19))%bool.
Lemma check_true : check_all = true.
Proof. vm_compute. reflexivity. Qed.
Local Close Scope Z_scope.
