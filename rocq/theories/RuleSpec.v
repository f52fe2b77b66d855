(** What integrate of a Gauss rule returns for a pure integrand in exact
    arithmetic, and properties of its list of (node, weight) pairs. *)
From Coq Require Import Reals ZArith List.
From Verif Require Import Arith RInst Rules Chebyshev Hermite Laguerre Legendre Jacobi IntegrateSpec.
Import ListNotations.
Local Open Scope R_scope.

Definition legendre_value (r : GaussLegendre RA) (a b : R) (g : R -> R) : R :=
  fst (legendre_integrate (A := RA) (pure g) r a b tt).
Definition jacobi_value (r : GaussJacobi RA) (a b : R) (g : R -> R) : R :=
  fst (jacobi_integrate (A := RA) (pure g) r a b tt).
Definition chebyshev1_value (r : GaussChebyshevFirstKind RA) (a b : R) (g : R -> R) : R :=
  fst (chebyshev1_integrate (A := RA) (pure g) r a b tt).
Definition chebyshev2_value (r : GaussChebyshevSecondKind RA) (a b : R) (g : R -> R) : R :=
  fst (chebyshev2_integrate (A := RA) (pure g) r a b tt).
Definition hermite_value (r : GaussHermite RA) (g : R -> R) : R :=
  fst (hermite_integrate (A := RA) (pure g) r tt).
Definition laguerre_value (r : GaussLaguerre RA) (g : R -> R) : R :=
  fst (laguerre_integrate (A := RA) (pure g) r tt).

(** Reading the pairs backwards negates the nodes and keeps the weights. *)
Definition symmetric_rule (l : list (R * R)) : Prop :=
  map (fun xw => (- fst xw, snd xw)) l = rev l.
(** All nodes lie in [-1,1]. *)
Definition nodes_in_unit (l : list (R * R)) : Prop := Forall (fun xw => -1 <= fst xw <= 1) l.
