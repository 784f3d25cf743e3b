(** * Specification vocabulary used by the statements proved in P_Pen3.v *)
From Coq Require Import Psatz Rtrigo1 Ratan Rpower Ranalysis FunctionalExtensionality.
From Verif Require Import Base.
Open Scope result_scope.

(** What is used of scipy's lambertw: on [-1/e, 0] it returns the solution w >= -1 of w exp(w) = t. *)
Definition lambert (W : R -> R) : Prop := forall t, 0 <= t <= exp (-1) -> W (- t) * exp (W (- t)) = - t /\ -1 <= W (- t).
