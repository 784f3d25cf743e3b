(** * Specification vocabulary used by the statements proved in P_Dyk2.v *)
From Coq Require Import Psatz Classical.
From Verif Require Import Base Space Spec MatFacts.
Open Scope result_scope.
Open Scope R_scope.

(** a projection callable: returns the nearest point of C *)
Definition proj_impl {E : IPS} (p : E -> result E) (C : E -> Prop) : Prop := forall v, exists y, p v = Ok y /\ is_proj C v y.
(** u is an outward normal of C at z *)
Definition normal {E : IPS} (C : E -> Prop) (z u : E) : Prop := C z /\ forall y, C y -> << u, y [-] z >> <= 0.
(** half-spaces { <v, w> <= b } *)
Definition half {E : IPS} (v : E) (b : R) (w : E) : Prop := << v, w >> <= b.
(** its projection *)
Definition half_proj {E : IPS} (v : E) (b : R) (w : E) : E := if Rleb (<< v, w >>) b then w else w [-] ((<< v, w >> - b) / norm2 v) [*] v.
(** a long array: the size and the data of the counterexample *)
Definition bigN : nat := 401.
Definition big_v : Vec bigN := vtab bigN (fun i => match i with O => 20 | _ => 1 end).
Definition big_w : Vec bigN := vtab bigN (fun i => -1).
