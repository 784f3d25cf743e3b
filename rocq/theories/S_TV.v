(** * Specification vocabulary used by the statements proved in P_TV.v *)
From Coq Require Import Psatz ZArith.
From Verif Require Import Base.
Open Scope result_scope.
Open Scope R_scope.

(** at least two samples along every axis *)
Definition dims_ok (dims : list nat) : Prop := forall n, In n dims -> (2 <= n)%nat.
