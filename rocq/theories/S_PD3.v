(** * Specification vocabulary used by the statements proved in P_PD3.v *)
From Coq Require Import Psatz.
From Verif Require Import Base Space Spec M_PD S_PD.
Open Scope result_scope.
Open Scope R_scope.

Section A.
Context {E F : IPS} (A : linop E F).
(** The documented iteration and the step adaptation (Goldstein et al.), with
    primal residual p and dual residual d *)
Definition adapt (eta s delta p d tau mu alpha tau' mu' alpha' : R) : Prop :=
  (s * d * delta < p /\ tau' = tau / (1 - alpha) /\ mu' = mu * (1 - alpha) /\ alpha' = alpha * eta) \/
  (p <= s * d * delta /\ p < s * d / delta /\ tau' = tau * (1 - alpha) /\ mu' = mu / (1 - alpha) /\ alpha' = alpha * eta) \/
  (s * d / delta <= p <= s * d * delta /\ tau' = tau /\ mu' = mu /\ alpha' = alpha).
(** one iteration takes the state st to st' *)
Definition apd_step (f : efun E) (gs : efun F) (z : option E) (rz : E -> option E) (eta s delta : R) (st st' : @apd_state E F) : Prop :=
  is_prox f (ap_tau st) (ap_x st [-] ap_tau st [*] (ap_ATy st [+] zvec z)) (ap_x st') /\
  is_prox gs (ap_mu st) (ap_y st [+] ap_mu st [*] (2 [*] ap_Ax st' [-] ap_Ax st)) (ap_y st') /\
  ap_Ax st' = lapp A (ap_x st') /\ ap_ATy st' = ladj A (ap_y st') /\
  apd_p z rz (ap_tau st) (ap_x st) (ap_x st') (ap_ATy st) (ap_ATy st') = Ok (ap_p st') /\
  ap_d st' = norm (/ ap_mu st [*] (ap_y st [-] ap_y st') [-] (ap_Ax st [-] ap_Ax st')) /\
  adapt eta s delta (ap_p st') (ap_d st') (ap_tau st) (ap_mu st) (ap_alpha st) (ap_tau st') (ap_mu st') (ap_alpha st') /\
  ap_taus st' = ap_taus st ++ [ap_tau st'] /\ ap_mus st' = ap_mus st ++ [ap_mu st'] /\ ap_alphas st' = ap_alphas st ++ [ap_alpha st'] /\
  ap_tr st' = ap_tr st ++ [ap_x st'].
End A.
