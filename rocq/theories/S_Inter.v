(** * Specification vocabulary used by the statements proved in P_Inter.v *)
From Coq Require Import Psatz.
From Verif Require Import Base VSum M_Inter.
Open Scope result_scope.
Open Scope R_scope.

(** the pairwise constraints |u_i2 - u_i1| <= S_i1i2 on one column *)
Definition Kset (k : nat) (S : nat -> nat -> R) (u : nat -> R) : Prop := forall i1 i2, (i1 < i2 < k)%nat -> Rabs (u i2 - u i1) <= S i1 i2.
(** squared distance of two columns *)
Definition sqdist (k : nat) (u v : nat -> R) : R := RS k (fun i => (u i - v i) * (u i - v i)).
(** p is a nearest point of K to u *)
Definition is_colproj (k : nat) (K : (nat -> R) -> Prop) (u p : nat -> R) : Prop := K p /\ forall q, K q -> sqdist k u p <= sqdist k u q.
(** the argument sigma stands for the matrix S *)
Definition sig_is (k : nat) (sg : isigma) (S : nat -> nat -> R) : Prop := forall i1 i2, (i1 < i2 < k)%nat -> sig_at k sg i1 i2 = Ok (S i1 i2) /\ 0 <= S i1 i2.
(** column j of a flat result *)
Definition rcol (n : nat) (r : list R) (j : nat) : nat -> R := fun i => tab n r i j.
(** the bounds of the counterexample *)
Definition stall_sigma : isigma := SigMat [[0; 12; 24]; [0; 0; 0]; [0; 0; 0]].
