(** * Specification vocabulary used by the statements proved in P_L2b.v *)
From Verif Require Import Base Space M_L2.

(** the last accepted result in a history, or the start given to the constructor *)
Definition last_ok {E : Type} (x0 : option E) (rs : list (result E)) : option E :=
  fold_left (fun s r => match r with Ok p => Some p | Err _ => s end) rs x0.
(** a history of prox calls *)
Definition calls_of {E : IPS} (calls : list (E * R)) : list l2_action := map (fun c => ActProx (fst c) (snd c)) calls.
