(** * Specification vocabulary used by the statements proved in P_Dyk4.v *)
From Coq Require Import Psatz.
From Verif Require Import Base Space Spec VSum M_ProxOp M_Dyk.
Open Scope result_scope.
Open Scope R_scope.

(** the parallel recursion: x is the weighted mean of the m proximal points, z_i the memory of function i *)
Definition par_seq {E : IPS} (m : nat) (f : nat -> efun E) (w t : nat -> R) (x0 : E) (xs : nat -> E) (zs ps : nat -> nat -> E) : Prop :=
  xs 0%nat = x0 /\ (forall i, (i < m)%nat -> zs 0%nat i = x0) /\ forall k,
    (forall i, (i < m)%nat -> is_prox (f i) (t i) (zs k i) (ps k i) /\ zs (S k) i = zs k i [+] xs (S k) [-] ps k i) /\
    xs (S k) = VS m (fun i => w i [*] ps k i).
(** z minimises sum_i c_i f_i + |. - x0|^2 / 2, with a subgradient of every f_i witnessing it *)
Definition par_split {E : IPS} (m : nat) (f : nat -> efun E) (c : nat -> R) (x0 z : E) (u : nat -> E) : Prop :=
  (forall i, (i < m)%nat -> is_subgrad (f i) z (u i)) /\ x0 [-] z = VS m (fun i => c i [*] u i).
(** the weights in force: 1/m each by default *)
Definition the_weights (weights : weights_arg) (m : nat) : list R :=
  match weights with NoWeights => repeat (1 / INR m) m | ListWeights w | ArrayWeights w => w end.
(** one positive weight per function *)
Definition weights_ok (w : list R) (m : nat) : Prop := List.length w = m /\ forall i, (i < m)%nat -> 0 < nthr w i.
(** weights divided by their sum *)
Definition nweight (w : list R) (i : nat) : R := nthr w i / Rsum w.
(** the step given to operator i under each step rule *)
Definition step_of (orig : bool) (tau : R) (w : list R) (i : nat) : R := if orig then tau else tau / nthr w i.
(** the coefficient of f_i in the function whose prox is computed *)
Definition coef (orig : bool) (tau : R) (w : list R) (i : nat) : R := if orig then tau * nweight w i else tau / Rsum w.
(** user operators: the indicator of {1} and the identity function *)
Definition at1 : Op R_IPS := mkOp (E:=R_IPS) (fun x : R => Ok (VBool (Reqb x 1))) (fun _ _ => Ok (1 : R)) (fun _ _ => Err NotImplementedError) (fun _ => Err NotImplementedError) false.
Definition line1 : Op R_IPS := mkOp (E:=R_IPS) (fun x : R => Ok (VNum x)) (fun (x : R) t => Ok (x - t)) (fun _ _ => Err NotImplementedError) (fun _ => Ok (Some 1)) true.
Definition at1_line1 (i : nat) : efun R_IPS := match i with O => indic (E:=R_IPS) (fun x : R => x = 1) | _ => etot (E:=R_IPS) (fun x : R => x) end.
