(** * Specification vocabulary used by the statements proved in P_Pen2.v *)
From Coq Require Import Psatz Rtrigo1 Ratan Rpower Ranalysis.
From Verif Require Import Base.
Open Scope result_scope.

(** The documented SCAD function. *)
Definition scad_fun (sigma al a : R) : R :=
  if Rle_dec (Rabs a) sigma then sigma * Rabs a
  else if Rle_dec (Rabs a) (al * sigma) then (- (a * a) + 2 * al * sigma * Rabs a - sigma * sigma) / (2 * (al - 1))
  else (al + 1) * (sigma * sigma) / 2.
(** the documented quadratic envelope of mu times the cardinality, on one entry *)
Definition qec_fun (mu a : R) : R := mu - / 2 * (Rmax 0 (sqrt (2 * mu) - Rabs a))^2.
