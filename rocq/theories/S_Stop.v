(** * Specification vocabulary used by the statements proved in P_Stop.v *)
From Coq Require Import Psatz.
From Verif Require Import Base.
Open Scope R_scope.

(** the relative change from the value a (j - 1) to the value a j is below tol; the first value that is compared is a 1 *)
Definition settled (a : nat -> R) (tol : R) (j : nat) : Prop := (2 <= j)%nat /\ a (j - 1)%nat <> 0 /\ Rabs (1 - a j / a (j - 1)%nat) < tol.
(** m is the number of iterations out of at most n: the first one that is settled, n if there is none *)
Definition first_settled (a : nat -> R) (tol : R) (n m : nat) : Prop :=
  (m <= n)%nat /\ (forall j, (j < m)%nat -> ~ settled a tol j) /\ (m = n \/ settled a tol m).
