(** * Specification vocabulary used by the statements proved in P_Anderson3.v *)
From Coq Require Import Psatz String.
From Verif Require Import Base Space M_ProxOp.
Open Scope result_scope.
Open Scope R_scope.

(** a smooth user operator on the real line with value f and gradient df (its prox is not used) *)
Definition op1 (f df : R -> R) : Op R_IPS := mkOp (E:=R_IPS) (fun x => Ok (VNum (f x))) (fun x _ => Ok x) (fun x _ => Ok x) (fun x => Ok (Some (df x))) true.
(** a convex, differentiable function on the real line, minimal at -10.9: quadratic near its minimiser and flatter beyond *)
Definition sg_u (x : R) : R := x + 109 / 10.
(** its value *)
Definition sg_f (x : R) : R := let u := sg_u x in if Rle_dec u 1 then u * u / 2 else 1 / 2 + (u - 1) + (u - 1) * (u - 1) / 20.
(** its derivative *)
Definition sg_df (x : R) : R := let u := sg_u x in if Rle_dec u 1 then u else 1 + (u - 1) / 10.
