(** Examples for C20, C61 and C62. *)
From Coq Require Import Reals Lra Lia Psatz.
From Coquelicot Require Import Coquelicot.
From Verif Require Import Arith RInst NewtonCotes RSum NCSpec NCReal NCExact NCMoreSpec NCMore.
Local Open Scope R_scope.

Lemma step_integrable : ex_RInt (fun x => if Rlt_dec x 0 then 0 else 1) (-1) 1.
Proof.
  apply (ex_RInt_Chasles _ (-1) 0 1).
  - apply (ex_RInt_ext (fun _ => 0)); [|apply ex_RInt_const]. intros x Hx.
    rewrite Rmin_left, Rmax_right in Hx by lra. destruct (Rlt_dec x 0); [reflexivity | lra].
  - apply (ex_RInt_ext (fun _ => 1)); [|apply ex_RInt_const]. intros x Hx.
    rewrite Rmin_left, Rmax_right in Hx by lra. destruct (Rlt_dec x 0); [lra | reflexivity].
Qed.
Lemma trapezoid_two_square : trapezoid_value 2 0 1 (fun x => x ^ 2) = 3 / 8.
Proof. rewrite trapezoid_square by lia. simpl. field. Qed.
Lemma shapes_exist : convex_on (-1) 1 Rabs /\ ex_RInt Rabs (-1) 1 /\
  increasing_on (-1) 1 (fun x => if Rlt_dec x 0 then 0 else 1).
Proof.
  split; [|split].
  - intros x y t _ _ Ht. eapply Rle_trans; [apply Rabs_triang|].
    rewrite !Rabs_mult, (Rabs_pos_eq t), (Rabs_pos_eq (1 - t)) by lra. lra.
  - apply (ex_RInt_continuous Rabs). intros z _. apply continuous_Rabs.
  - intros x y _ Hxy _. destruct (Rlt_dec x 0), (Rlt_dec y 0); lra.
Qed.
