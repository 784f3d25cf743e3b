(** * Specification vocabulary used by the statements proved in P_Resume.v *)
From Coq Require Import String Psatz.
From Verif Require Import Base Space M_ProxOp M_PD.
Open Scope result_scope.
Open Scope R_scope.

(** the steps left after k iterations: one number stays as it is, of an array the first k entries are dropped *)
Definition steps_left (k : nat) (s : steps) : steps := match s with Scalar t => Scalar t | Arr l => Arr (skipn k l) end.
(** one number for all iterations, or a list with one entry per iteration of a run of n *)
Definition per_iteration (l : list R) (n : nat) : Prop := List.length l = 1%nat \/ List.length l = n.
Definition list_left (k : nat) (l : list R) : list R := match l with [t] => [t] | _ => skipn k l end.

(** the convex function x^2/2 for x <= 1, 2 x^2 - 3 x + 3/2 for x > 1, with gradient x and 4 x - 3 *)
Definition bent1 : Op R_IPS := mkOp (E:=R_IPS)
  (fun x => Ok (VNum (if Rleb x 1 then x * x / 2 else 2 * (x * x) - 3 * x + 3 / 2))) (fun _ _ => Err NotImplementedError) (fun _ _ => Err NotImplementedError)
  (fun x => Ok (Some (if Rleb x 1 then x else 4 * x - 3))) true.
