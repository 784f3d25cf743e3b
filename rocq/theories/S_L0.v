(** * Specification vocabulary used by the statements proved in P_L0.v *)
From Coq Require Import ZArith Permutation Sorted Psatz.
From Verif Require Import Base Space MatFacts M_L0.
Open Scope result_scope.

(** what is assumed of np.argsort: a permutation of the positions that sorts *)
Definition argsort_ok (argsort : list R -> list nat) : Prop := forall l,
  Permutation (argsort l) (seq 0 (length l)) /\ StronglySorted (fun i j => nth i l 0 <= nth j l 0) (argsort l).
(** at most r of the entries are non-zero *)
Definition l0_ball {n} (r : nat) (x : Vec n) : Prop := (nnz x <= r)%nat.
(** column j of the matrix is zero *)
Definition col_zero {r c} (x : Vec (r * c)) (j : nat) : Prop := forall i, (i < r)%nat -> get x (i * c + j) = 0.
(** the counterexample: a point and a nearer matrix with one non-zero column *)
Definition l10_x : Vec (2 * 2) := vtab (2 * 2) (fun p => nth p [1; 19/10; 1; 0] 0).
Definition l10_z : Vec (2 * 2) := vtab (2 * 2) (fun p => nth p [0; 19/10; 0; 0] 0).
