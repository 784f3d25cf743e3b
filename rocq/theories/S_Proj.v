(** * Specification vocabulary used by the statements proved in P_Proj.v *)
From Coq Require Import Psatz.
From Verif Require Import Base Space M_L1 S_L1 MatFacts VSum.
Open Scope result_scope.

(** {y : c.y = s, l_i <= y_i <= u_i} *)
Definition hp_set {n} (c : Vec n) (s : R) (lu : nat -> bounds) (y : Vec n) : Prop :=
  << c, y >> = s /\ forall i, (i < n)%nat -> within (lu i) (get y i).
(** every lower bound is at most its upper bound *)
Definition lu_ok (n : nat) (lu : nat -> bounds) : Prop := forall i, (i < n)%nat -> bounds_ok (lu i).
(** {y : y_1 + ... + y_n = r, y_i >= 0} *)
Definition simplex_set {n} (r : R) (y : Vec n) : Prop := RS n (get y) = r /\ forall i, (i < n)%nat -> 0 <= get y i.
(** {y : |y_1| + ... + |y_n| <= r} *)
Definition l1_ball {n} (r : R) (y : Vec n) : Prop := RS n (fun i => Rabs (get y i)) <= r.
