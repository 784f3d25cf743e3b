(** * Specification vocabulary used by the statements proved in P_Nmf.v *)
From Verif Require Import Base Space Spec VSum MatFacts M_ProxOp M_L1 S_L1 S_Bilin.
Open Scope R_scope.

(** how far the product of the n x k matrix x and the k x m matrix y is from the n x m matrix d: 1/2 |d - x y|^2 *)
Definition misfit (n k m : nat) (d : Vec (n * m)) (x : Vec (n * k)) (y : Vec (k * m)) : R := norm2 (d [-] mm n k m x y) / 2.
(** neither factor can be improved alone: x minimises f + misfit(., y) and y minimises g + misfit(x, .) *)
Definition best_pair (n k m : nat) (d : Vec (n * m)) (f : efun (Vec (n * k))) (g : efun (Vec (k * m))) (x : Vec (n * k)) (y : Vec (k * m)) : Prop :=
  is_min (eadd f (etot (fun u => misfit n k m d u y))) x /\ is_min (eadd g (etot (fun v => misfit n k m d x v))) y.
(** all entries are non-negative *)
Definition nonneg_entries {n} (x : Vec n) : Prop := forall i, (i < n)%nat -> 0 <= get x i.
(** bounds of an object Box(lower=0) or Box(lower=0, upper=u), u >= 0 *)
Definition from_zero {n} (lu : nlist bounds n) : Prop := Forall (fun b => fst b = Some 0 /\ bounds_ok b) (proj1_sig lu).
(** bounds of an object Box(lower=0) *)
Definition only_zero {n} (lu : nlist bounds n) : Prop := Forall (fun b => b = (Some 0, None)) (proj1_sig lu).
(** entries of the gradients of misfit in x (row i, column l) and in y (row l, column j) *)
Definition slopex (n k m : nat) (d : Vec (n * m)) (x : Vec (n * k)) (y : Vec (k * m)) (i l : nat) : R :=
  RS m (fun j => (get (mm n k m x y) (i * m + j) - get d (i * m + j)) * get y (l * m + j)).
Definition slopey (n k m : nat) (d : Vec (n * m)) (x : Vec (n * k)) (y : Vec (k * m)) (l j : nat) : R :=
  RS n (fun i => get x (i * k + l) * (get (mm n k m x y) (i * m + j) - get d (i * m + j))).
