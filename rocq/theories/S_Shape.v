(** * Specification vocabulary used by the statements proved in P_Shape.v *)
From Verif Require Import Base Space Spec MatFacts.
Open Scope R_scope.

(** the vector y with entry i replaced by a *)
Definition set_entry {n} (i : nat) (a : R) (y : Vec n) : Vec n := vtab n (fun k => if Nat.eqb k i then a else get y k).
(** g does not increase when one entry becomes smaller in absolute value (or only changes its sign) *)
Definition grows_with_size {n} (g : efun (Vec n)) : Prop :=
  forall y i a, (i < n)%nat -> Rabs a <= Rabs (get y i) -> edom g y -> edom g (set_entry i a y) /\ eval g (set_entry i a y) <= eval g y.
(** g does not increase when two entries are exchanged *)
Definition order_free {n} (g : efun (Vec n)) : Prop :=
  forall y i j, (i < n)%nat -> (j < n)%nat -> i <> j -> edom g y -> let z := set_entry i (get y j) (set_entry j (get y i) y) in edom g z /\ eval g z <= eval g y.
