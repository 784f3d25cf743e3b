(** * Specification vocabulary used by the statements proved in P_PG3.v *)
From Coq Require Import String Psatz.
From Verif Require Import Base Space M_ProxOp.
Open Scope result_scope.
Open Scope R_scope.

(** L2(sigma=c): c/2 x^2 (L2.py:194-206, 300-306 specialised to the real line); no prox needed. *)
Definition quad1 (c : R) : Op R_IPS :=
  mkOp (E:=R_IPS) (fun x => Ok (VNum (c / 2 * (x * x)))) (fun x tau => Ok (x / (1 + tau * c))) (fun x tau => Err NotImplementedError)
       (fun x => Ok (Some (c * x))) true.
(** A user operator with value 0 everywhere. *)
Definition zero1 : Op R_IPS := mkOp (E:=R_IPS) (fun _ => Ok (VNum 0)) (fun x _ => Ok x) (fun x _ => Ok 0) (fun _ => Ok (Some 0)) true.
