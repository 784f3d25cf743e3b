(** * Vocabulary for evaluations on arrays in memory (C84) *)
From Verif Require Import Base Space MatFacts M_ProxOp M_Heap S_Heap M_Show.
Open Scope R_scope.

(** C computes the value c and changes no existing array *)
Definition calls_only {E : IPS} (C : hcall E) (c : E -> result pyval) : Prop :=
  forall h r x, holds h r x ->
  match c x with Ok k => exists h', C h r = Ok (h', k) /\ keeps h h' | Err e => C h r = Err e end.
(** C computes the value c and changes no existing array but its argument *)
Definition calls_confined {E : IPS} (C : hcall E) (c : E -> result pyval) : Prop :=
  forall h r x, holds h r x ->
  match c x with Ok k => exists h', C h r = Ok (h', k) /\ keeps_but r h h' /\ (exists w, holds h' r w) | Err e => C h r = Err e end.
(** the linear operator L computes A into a new array, and changes no existing one *)
Definition makes_new {E : IPS} (L : hlin E) (A : E -> E) : Prop :=
  forall h r x, holds h r x -> exists h' r', L h r = Ok (h', r') /\ holds h' r' (A x) /\ keeps h h' /\ (List.length h <= r')%nat.
(** ... or returns its argument *)
Definition lin_reads {E : IPS} (L : hlin E) (A : E -> E) : Prop :=
  forall h r x, holds h r x -> exists h' r', L h r = Ok (h', r') /\ holds h' r' (A x) /\ keeps h h'.

(** the first computation returns a result related to that of the second one, or raises the exception that the second one raises,
    or an exception of the set [bad] *)
Definition same_or {A B : Type} (bad : exn -> Prop) (Rel : A -> B -> Prop) (a : result A) (b : result B) : Prop :=
  match a with Ok x => exists y, b = Ok y /\ Rel x y | Err e => b = Err e \/ bad e end.
(** with the log switched on: an exception raised by evaluating one of the functions at some vector, or by printing a line *)
Definition log_error {E : IPS} (show : bool) (cs : list (E -> result pyval)) (fmt : E -> list pyval -> result unit) (e : exn) : Prop :=
  show = true /\ exists v, (exists c, In c cs /\ c v = Err e) \/ (exists l, fmt v l = Err e).
