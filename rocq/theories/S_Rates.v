(** * Specification vocabulary used by the statements proved in P_Rates.v *)
From Coq Require Import Psatz.
From Verif Require Import Base Space Spec S_Exist.
Open Scope R_scope.

(** f is finite everywhere, f - s/2 |.|^2 is convex and f has an L-Lipschitz gradient *)
Definition regular {E : IPS} (s L : R) (f : efun E) : Prop :=
  exists h dh, f = etot h /\ strongly_convex s (etot h) /\ L_smooth h dh L.
(** the contraction factors: of a gradient step, of the reflected prox of such an f *)
Definition grad_rate (s L t : R) : R := Rmax (Rabs (1 - t * s)) (Rabs (1 - t * L)).
Definition refl_rate (s L t : R) : R := Rmax ((1 - t * s) / (1 + t * s)) ((t * L - 1) / (1 + t * L)).
