(** * Specification vocabulary used by the statements proved in P_Metric.v *)
From Verif Require Import Base Space Spec VSum M_ProxOp M_Count.
Open Scope result_scope.
Open Scope R_scope.

(** x is optimal for f given the dual vector y (and the linear term z), and the denoiser leaves A x unchanged when y/mu is added to it *)
Definition balancedA {E F : IPS} (f : efun E) (D : F -> F) (A : linop E F) (z : E) (mu : R) (x : E) (y : F) : Prop :=
  is_subgrad f x (vopp (ladj A y [+] z)) /\ D (A x [+] / mu [*] y) = A x.
(** the same as [serves], for the dual prox: cnt k is the counter before the k-th proxdual call and that call returns a point within e k of the proximal point of gs *)
Definition serves_dual {E : IPS} (o : COp E) (cnt : nat -> nat) (e : nat -> R) (t : R) (gs : efun E) : Prop :=
  exists Q : E -> E, (forall y, is_prox gs t y (Q y)) /\ forall k y, exists p, c_dual o (cnt k) y t = (cnt (S k), Ok p) /\ norm (p [-] Q y) <= e k.
(** the dual prox is the one inherited from ProxOperator (ProxOperator.py:104-108): one prox call at x/t with the step 1/t *)
Definition inherits {E : IPS} (o : COp E) : Prop :=
  forall c x t, 0 < t -> c_dual o c x t = let (c', r) := c_prox o c (/ t [*] x) (1 / t) in (c', match r with Ok p => Ok (x [-] t [*] p) | Err e => Err e end).
