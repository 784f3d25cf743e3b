(** * Specification vocabulary used by the statements proved in P_QE6.v *)
From Coq Require Import Permutation Sorting.
From Verif Require Import Base Space Spec VSum SVD.


(** a sum of r0 outer products: rank at most r0 *)
Definition lowrank {m n} (r0 : nat) (X : Vec (m * n)) : Prop := exists (a : nat -> Vec m) (b : nat -> Vec n), X = VS r0 (fun i => outer (a i) (b i)).
(** Q + |. - M|^2 / 2 *)
Definition plus_ls {E : IPS} (Q : efun E) (M : E) : efun E := mkEfun (edom Q) (fun u => eval Q u + / 2 * norm2 (u [-] M)).
(** what the level search needs: at least three singular values, or two that are not separated *)
Definition rl_shape (k r0 : nat) (s : nat -> R) (rho : R) : Prop := (3 <= k)%nat \/ (k = 2%nat /\ (r0 = 2%nat \/ s 0%nat < (1 + rho) * s 1%nat)).
