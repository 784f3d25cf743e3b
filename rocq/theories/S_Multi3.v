(** * Specification vocabulary used by the statements proved in P_Multi3.v *)
From Coq Require Import Psatz String.
From Verif Require Import Base Space Spec VSum M_ProxOp S_PG2.
Open Scope result_scope.
Open Scope R_scope.

(** every operator in proxfs implements a smooth convex f i *)
Definition smooth_all {E : IPS} (os : list (Op E)) (f : nat -> E -> R) (df : nat -> E -> E) (L : nat -> R) : Prop :=
  forall i o, nth_error os i = Some o -> smooth_op o (f i) (df i) (L i).
(** one scalar epsg stands for all functions *)
Definition gpg_eps (epsg : list R) (m : nat) : list R := match epsg with [e] => repeat e m | _ => epsg end.

Section G.
Context {E : IPS}.
(** The documented recursion with an extrapolation omega_k (0 when acceleration is None) *)
Definition gpg_doc (m : nat) (g : nat -> efun E) (dF : E -> E) (w eps : nat -> R) (tau eta : R) (omega : nat -> R)
  (xs ys : nat -> E) (zs ps : nat -> nat -> E) (n : nat) : Prop :=
  forall k, (k < n)%nat ->
    (forall i, (i < m)%nat -> is_prox (g i) (tau * eps i / w i) (2 [*] ys k [-] zs k i [-] tau [*] dF (xs k)) (ps k i) /\
       zs (S k) i = zs k i [+] eta [*] (ps k i [-] ys k)) /\
    xs (S k) = VS m (fun i => w i [*] zs (S k) i) /\
    ys (S k) = xs (S k) [+] omega k [*] (xs (S k) [-] xs k).
(** Solutions of min F + sum_i eps_i g_i with multipliers *)
Definition gpg_kkt (m : nat) (g : nat -> efun E) (dF : E -> E) (eps : nat -> R) (x : E) (v : nat -> E) : Prop :=
  (forall i, (i < m)%nat -> is_subgrad (g i) x (v i)) /\ dF x [+] VS m (fun i => eps i [*] v i) = vzero.
End G.
