(** * Specification vocabulary used by the statements proved in P_Nonlin.v *)
From Verif Require Import Base.
Open Scope result_scope.

(** The last accepted result of a history, or the start given to the constructor. *)
Definition last_result {E : Type} (x0 : option E) (rs : list (result E)) : option E :=
  fold_left (fun s r => match r with Ok p => Some p | Err _ => s end) rs x0.
