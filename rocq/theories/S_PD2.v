(** * Specification vocabulary used by the statements proved in P_PD2.v *)
From Coq Require Import Psatz.
From Verif Require Import Base Space M_ProxOp.
Open Scope result_scope.
Open Scope R_scope.

(** g(x) = x^2/2 with its own proxdual (g is its own conjugate) *)
Definition half1 : Op R_IPS :=
  mkOp (E:=R_IPS) (fun x => Ok (VNum (1 / 2 * (x * x)))) (fun x tau => Ok (x / (1 + tau * 1))) (fun x tau => Ok (x / (1 + tau * 1)))
       (fun x => Ok (Some (1 * x))) true.
