(** * Specification vocabulary used by the statements proved in P_Proj2.v *)
From Coq Require Import Psatz.
From Verif Require Import Base Space MatFacts.
Open Scope result_scope.

(** column j *)
Definition colv {r c} (x : Vec (r * c)) (j : nat) : Vec r := vtab r (fun i => get x (i * c + j)).
