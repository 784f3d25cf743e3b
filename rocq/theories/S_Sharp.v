(** * Specification vocabulary used by the statements proved in P_Sharp.v *)
From Verif Require Import Base Space Spec.
Open Scope R_scope.

(** f grows at least with slope c around its minimiser xo *)
Definition sharp_min {E : IPS} (f : efun E) (c : R) (xo : E) : Prop :=
  edom f xo /\ forall y, edom f y -> eval f xo + c * norm (y [-] xo) <= eval f y.
(** a subgradient of f at p is still one at every proximal point of p *)
Definition keeps_subgrads {E : IPS} (f : efun E) : Prop :=
  forall t p q u, 0 < t -> is_subgrad f p u -> is_prox f t p q -> is_subgrad f q u.
