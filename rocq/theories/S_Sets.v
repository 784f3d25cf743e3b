(** * Specification vocabulary used by the statements proved in P_Sets.v *)
From Coq Require Import Psatz.
From Verif Require Import Base Space Spec M_ProxOp MatFacts VSum M_Proj.
Open Scope result_scope.

(** [projects prox accepts C]: the pair (prox, __call__) of an operator is the projection on the
    convex set C.  Non-positive steps raise ValueError; for positive steps there is one map P, the
    same for all of them, and P x is the nearest point of C, accepted by __call__; P changes
    nothing the second time and fixes the points of C; P is firmly non-expansive, hence
    non-expansive. *)
Definition projects {E : IPS} (prox : E -> R -> result E) (accepts : E -> Prop) (C : E -> Prop) : Prop :=
  convex_set C /\
  (forall x tau, tau <= 0 -> prox x tau = Err ValueError) /\
  exists P : E -> E,
    (forall x tau, 0 < tau -> prox x tau = Ok (P x)) /\
    (forall x, is_proj C x (P x) /\ accepts (P x)) /\
    (forall x, P (P x) = P x) /\
    (forall x, C x <-> P x = x) /\
    (forall x y, norm2 (P x [-] P y) + norm2 ((x [-] P x) [-] (y [-] P y)) <= norm2 (x [-] y)) /\
    (forall x y, norm (P x [-] P y) <= norm (x [-] y)).
(** the call returns True *)
Definition yes {E : IPS} (o : Op E) (x : E) : Prop := o_call o x = Ok (VBool true).
(** the accuracy that the root search of Simplex grants for the input x with exact projection p *)
Definition search_err {n} (xtol : R) (x p : Vec n) : R := (xtol + bisect_rtol * Rmax 1 (2 * RS n (fun i => Rabs (get p i - get x i)))) * sqrt (INR n).
