(** * Specification vocabulary used by the statements proved in P_Anderson.v *)
From Coq Require Import Psatz.
From Verif Require Import Base Space VSum.
Open Scope result_scope.
Open Scope R_scope.

(** entry (i, j) of a matrix given as a list of rows *)
Definition mget (M : list (list R)) (i j : nat) : R := nth j (nth i M []) 0.
(** a k x k matrix *)
Definition square (k : nat) (M : list (list R)) : Prop := length M = k /\ forall i, (i < k)%nat -> length (nth i M []) = k.
(** entry (i, j) of the product of two k x k matrices *)
Definition mmul (k : nat) (A B : nat -> nat -> R) (i j : nat) : R := RS k (fun l => A i l * B l j).
(** P is the Moore-Penrose inverse of M: the four Penrose equations *)
Definition is_pinv (k : nat) (M P : list (list R)) : Prop :=
  let A := mget M in let B := mget P in
  square k P /\
  (forall i j, (i < k)%nat -> (j < k)%nat -> mmul k (mmul k A B) A i j = A i j) /\
  (forall i j, (i < k)%nat -> (j < k)%nat -> mmul k (mmul k B A) B i j = B i j) /\
  (forall i j, (i < k)%nat -> (j < k)%nat -> mmul k A B i j = mmul k A B j i) /\
  (forall i j, (i < k)%nat -> (j < k)%nat -> mmul k B A i j = mmul k B A j i).
(** pinv is correct on symmetric matrices up to size n *)
Definition pinv_ok (n : nat) (pinv : list (list R) -> list (list R)) : Prop :=
  forall k M, (k <= n)%nat -> square k M -> (forall i j, (i < k)%nat -> (j < k)%nat -> mget M i j = mget M j i) -> is_pinv k M (pinv M).

Section Alpha.
Context {E : IPS}.
(** the coefficients sum to one and minimise the norm of the combined residual *)
Definition best_weights (Rs : list E) (alpha : list R) : Prop :=
  length alpha = length Rs /\ Rsum alpha = 1 /\
  forall beta, length beta = length Rs -> Rsum beta = 1 ->
    norm (VS (length Rs) (fun i => nthr alpha i [*] nthv Rs i)) <= norm (VS (length Rs) (fun i => nthr beta i [*] nthv Rs i)).
End Alpha.
