(** * Specification vocabulary used by the statements proved in P_Proj3.v *)
From Coq Require Import Psatz.
From Verif Require Import Base Space MatFacts.
Open Scope result_scope.

(** the search on a single entry: x = 1/2, radius 1 *)
Definition half1 : Vec 1 := vtab 1 (fun _ => 1 / 2).
