(** * Specification vocabulary used by the statements proved in P_Hankel.v *)
From Coq Require Import ZArith Psatz.
From Verif Require Import Base Space MatFacts.
Open Scope result_scope.

(** entries on the same antidiagonal agree *)
Definition hankel_mat {m n} (X : Vec (m * n)) : Prop := forall i j i' j', (i < m)%nat -> (j < n)%nat -> (i' < m)%nat -> (j' < n)%nat ->
  (i + j = i' + j')%nat -> get X (i * n + j) = get X (i' * n + j').
(** the counterexample of the membership test *)
Definition hk_x : Vec (2 * 2) := vtab (2 * 2) (fun p => nth p [0; 1000000; 1000001; 0] 0).
