(** * Specification vocabulary used by the statements proved in P_Dyk.v *)
From Coq Require Import Psatz Classical.
From Verif Require Import Base Space Spec.
Open Scope result_scope.
Open Scope R_scope.

(** Dykstra's recursion for two functions: y and x are the two proximal points, p and q the increments *)
Definition dykstra_seq {E : IPS} (f g : efun E) (tau : R) (x0 : E) (xs ys ps qs : nat -> E) : Prop :=
  xs 0%nat = x0 /\ ps 0%nat = vzero /\ qs 0%nat = vzero /\ forall k,
    is_prox f tau (xs k [+] ps k) (ys (S k)) /\ ps (S k) = ps k [+] xs k [-] ys (S k) /\
    is_prox g tau (ys (S k) [+] qs k) (xs (S k)) /\ qs (S k) = qs k [+] ys (S k) [-] xs (S k).
(** z minimises f + g + |. - x0|^2 / (2 tau), with the subgradients of the two terms exhibited *)
Definition sum_prox_split {E : IPS} (f g : efun E) (tau : R) (x0 z u v : E) : Prop :=
  is_subgrad f z u /\ is_subgrad g z v /\ x0 [-] z = tau [*] (u [+] v).
(** the stopping test of iteration j *)
Definition dyk_small {E : IPS} (amax : E -> R) (tol : R) (xs ys : nat -> E) (j : nat) : Prop :=
  amax (xs j [-] xs (j - 1)%nat) < tol /\ amax (ys j [-] xs (j - 1)%nat) < tol.
