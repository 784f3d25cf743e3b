(** * Specification vocabulary used by the statements proved in P_Equiv.v *)
From Coq Require Import String Psatz.
From Verif Require Import Base Space M_ProxOp.
Open Scope result_scope.
Open Scope R_scope.

(** the dual proximal operator with step 1/tau is computed from the proximal operator with step tau by Moreau's identity
    (ProxOperator.py:104-108, the default of every class that only defines prox) *)
Definition moreau_dual {E : IPS} (o : Op E) (tau : R) : Prop :=
  forall w, o_proxdual o w (1 / tau) = (p <- o_prox o (tau [*] w) tau ;; Ok (w [-] (1 / tau) [*] p)).
(** acceleration switched off *)
Definition no_acceleration (a : option string) : Prop := a = None \/ a = Some "None"%string.
