(** * Specification vocabulary used by the statements proved in P_Multi.v *)
From Coq Require Import Psatz String.
From Verif Require Import Base Space Spec VSum M_ProxOp SpecOps M_Multi.
Open Scope result_scope.
Open Scope R_scope.

(** proxfs[i] implements the prox of f i, for every i *)
Definition impl_all {E : IPS} (os : list (Op E)) (f : nat -> efun E) : Prop :=
  forall i o, nth_error os i = Some o -> impl_prox o (f i).
(** Solutions of min f_0 + ... + f_(m-1) with multipliers. *)
Definition sum_kkt {E : IPS} (m : nat) (f : nat -> efun E) (x : E) (v : nat -> E) : Prop :=
  (forall i, (i < m)%nat -> is_subgrad (f i) x (v i)) /\ VS m v = vzero.
(** the weights in force: 1/m each by default *)
Definition ppxa_weights (weights : option (list R)) (m : nat) : list R := match weights with None => repeat (1 / INR m) m | Some w => w end.
(** positive weights, one per function, summing to one *)
Definition good_weights (weights : option (list R)) (m : nat) : Prop :=
  match weights with None => True | Some w => List.length w = m /\ (forall i, (i < m)%nat -> 0 < nthr w i) /\ Rsum w = 1 end.
(** the documented starting vector: weighted mean of the initial vectors *)
Definition ppxa_start_ok {E : IPS} (x0 : ppxa_init E) (weights : option (list R)) (m : nat) : Prop :=
  match x0 with Common _ => True | PerFun l => List.length l = m /\ weights = None end.
(** the initial vectors, one per function *)
Definition ppxa_ys0 {E : IPS} (x0 : ppxa_init E) (m : nat) : list E := match x0 with PerFun l => l | Common x => repeat x m end.

Section PX.
Context {E : IPS}.
(** The documented recursion *)
Definition ppxa_doc (m : nat) (f : nat -> efun E) (w : nat -> R) (tau eta : R) (xs : nat -> E) (ys ps : nat -> nat -> E) (n : nat) : Prop :=
  forall k, (k < n)%nat -> let pn := VS m (fun i => w i [*] ps k i) in
    (forall i, (i < m)%nat -> is_prox (f i) (tau / w i) (ys k i) (ps k i) /\ ys (S k) i = ys k i [+] eta [*] (2 [*] pn [-] xs k [-] ps k i)) /\
    xs (S k) = xs k [+] eta [*] (pn [-] xs k).
End PX.
