(** * Step sizes and relaxation at and beyond their limits (specification vocabulary) *)
From Verif Require Import Base Space Spec M_ProxOp.
Open Scope R_scope.

(** A user operator: the indicator of the point 0 on the real line; its conjugate is 0. *)
Definition pin1 : Op R_IPS :=
  mkOp (E:=R_IPS) (fun x => Ok (VBool (Reqb x 0))) (fun _ _ => Ok 0) (fun y _ => Ok y) (fun _ => Err NotImplementedError) false.
Definition pin_fun : efun R_IPS := indic (E:=R_IPS) (fun x => x = 0).
