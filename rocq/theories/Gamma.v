(** The gamma function, src/math.rs:94-136. *)
From Coq Require Import ZArith List.
From Verif Require Import Arith.
Import ListNotations.
Local Open Scope num_scope.

Section Gamma.
Context {A : Arith}.

(** src/math.rs:94 *)
Definition two_sqrt_e_over_pi : A := nlit 18603827342052657 (-16).
(** src/math.rs:97 *)
Definition gamma_r : A := nlit 10900511 (-6).
(** src/math.rs:100-112, first element and the rest with their indices. *)
Definition gamma_dk : list A := [
  nlit 24857408913875355 (-21);
  nlit 10514237858172197 (-16);
  nlit (-34568709722201625) (-16);
  nlit 4512277094668948 (-15);
  nlit (-29828522532357664) (-16);
  nlit 1056397115771267 (-15);
  nlit (-19542877319164587) (-17);
  nlit 1709705434044412 (-17);
  nlit (-5719261174043057) (-19);
  nlit 4633994733599057 (-21);
  nlit (-27199490848860772) (-25)].

(** [GAMMA_DK.iter().enumerate().skip(1).fold(GAMMA_DK[0], |s, t| s + t.1 / d(t.0))],
    src/math.rs:120-124 and 128-132. *)
Definition gamma_fold (d : Z -> A) : A :=
  match gamma_dk with
  | d0 :: r =>
      fold_left (fun s t => s [+] snd t [/] d (fst t))
                (combine (map Z.of_nat (seq 1 (length r))) r) d0
  | [] => lit0
  end.

(** src/math.rs:118-136 *)
Definition gamma (x : A) : A :=
  if nlt x lit_half then
    let s := gamma_fold (fun k => nofZ k [-] x) in
    npi [/] (nsin (npi [*] x) [*] s [*] two_sqrt_e_over_pi
            [*] npow ((lit_half [-] x [+] gamma_r) [/] neul) (lit_half [-] x))
  else
    let s := gamma_fold (fun k => x [+] nofZ k [-] lit1) in
    s [*] two_sqrt_e_over_pi [*] npow ((x [-] lit_half [+] gamma_r) [/] neul) (x [-] lit_half).

End Gamma.
