(** * Specification vocabulary used by the statements proved in P_Iter.v *)
From Coq Require Import String Psatz.
From Verif Require Import Base.
Open Scope result_scope.
Open Scope R_scope.

(** either no acceleration, or a relaxed step (eta different from 1, where the code ignores the acceleration) *)
Definition unaccelerated (accel : option string) (eta : R) : Prop :=
  accel = None \/ accel = Some "None"%string \/ (eta <> 1 /\ (accel = Some "vandenberghe"%string \/ accel = Some "fista"%string)).
