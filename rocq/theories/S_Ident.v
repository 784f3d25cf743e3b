(** * Specification vocabulary used by the statements proved in P_Ident.v *)
From Verif Require Import Base Space Spec.
Open Scope R_scope.

(** the identity operator on vectors of n entries *)
Definition same_op n : linop (Vec n) (Vec n).
Proof. refine (mkLinop (Vec n) (Vec n) (fun x => x) (fun y => y) _ _ _); intros; reflexivity. Defined.
