(** Integrands for the examples of C64. *)
From Coq Require Import Reals Lra.
From Coquelicot Require Import Coquelicot.
From Verif Require Import ConvSpec.
Local Open Scope R_scope.

Lemma sqrt_half : continuous_half sqrt /\ polynomial_growth (fun x => 0 <= x) sqrt.
Proof.
  split.
  - intros x Hx eps He. assert (C : continuity_pt sqrt x) by (apply continuity_pt_filterlim, continuous_sqrt).
    destruct (C eps He) as (d & Hd & H). exists d. split; [exact Hd|]. intros y _ Hy. destruct (Req_dec x y) as [->|N].
    + rewrite Rminus_diag_eq, Rabs_R0 by reflexivity. exact He.
    + apply H. split; [split; [exact I|exact N]|exact Hy].
  - exists 1, 1%nat. intros x Hx. rewrite (Rabs_pos_eq x Hx), Rabs_pos_eq by apply sqrt_pos. simpl. assert (S := sqrt_sqrt x Hx). nra.
Qed.
Lemma abs_whole : (forall x, continuous Rabs x) /\ polynomial_growth (fun _ => True) Rabs.
Proof. split; [intros; apply continuous_Rabs|]. exists 1, 1%nat. intros x _. rewrite Rabs_Rabsolu. simpl. assert (P := Rabs_pos x). lra. Qed.
