(** * Specification vocabulary used by the statements proved in P_L21.v *)
From Coq Require Import Psatz.
From Verif Require Import Base Space.
Open Scope result_scope.

(** sigma * sum over groups of the Euclidean norm of the group. *)
Definition group_norm {E : IPS} {k} (sigma : R) (x : Pow E k) : R :=
  Rsum (map (fun c : E => sigma * norm c) (proj1_sig (x : nlist E k))).
(** Every group has norm at most sigma. *)
Definition group_ball {E : IPS} {k} (sigma : R) (z : Pow E k) : Prop :=
  Forall (fun c : E => norm c <= sigma) (proj1_sig (z : nlist E k)).
(** the l1 norm *)
Definition l1_of {m} (c : Vec m) : R := Rsum (map Rabs (proj1_sig (c : nlist R m))).
(** w |c|_1 + v |c|_2 on one group. *)
Definition sparse_group_fun {m} (w v : R) (c : Vec m) : R := w * l1_of c + v * norm c.
