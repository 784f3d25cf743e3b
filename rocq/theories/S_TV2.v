(** * Specification vocabulary used by the statements proved in P_TV2.v *)
From Coq Require Import Psatz ZArith.
From Verif Require Import Base Space MatFacts.
Open Scope result_scope.
Open Scope R_scope.

(** the array with the entries of a list *)
Definition ofl (m : nat) (l : list R) : Vec m := vtab m (fun i => nth i l 0).
