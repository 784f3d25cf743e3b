(** * Vocabulary for arrays in memory (C79) *)
From Verif Require Import Base Space MatFacts M_ProxOp M_Multi M_Heap.
Open Scope R_scope.

(** the array r holds the vector v *)
Definition holds {E : IPS} (h : heap E) (r : ref) (v : E) : Prop := nth_error h r = Some v.
(** every array of h has the same content in h' *)
Definition keeps {E : IPS} (h h' : heap E) : Prop := forall i v, holds h i v -> holds h' i v.
(** ... except perhaps the array r *)
Definition keeps_but {E : IPS} (r : ref) (h h' : heap E) : Prop := forall i v, i <> r -> holds h i v -> holds h' i v.

(** H computes f, returns its argument or a new array, and changes no existing array *)
Definition reads_only {E : IPS} (H : hprox E) (f : E -> R -> result E) : Prop :=
  forall h r x tau, holds h r x ->
  match f x tau with
  | Ok v => exists h' r', H h r tau = Ok (h', r') /\ holds h' r' v /\ keeps h h' /\ (r' = r \/ List.length h <= r')%nat
  | Err e => H h r tau = Err e
  end.
(** H computes f, returns its argument or a new array, and changes no existing array but its argument *)
Definition confined {E : IPS} (H : hprox E) (f : E -> R -> result E) : Prop :=
  forall h r x tau, holds h r x ->
  match f x tau with
  | Ok v => exists h' r', H h r tau = Ok (h', r') /\ holds h' r' v /\ keeps_but r h h' /\ (exists w, holds h' r w) /\ (r' = r \/ List.length h <= r')%nat
  | Err e => H h r tau = Err e
  end.

(** both raise the same exception, or both return, with related results *)
Definition same {A B : Type} (Rel : A -> B -> Prop) (a : result A) (b : result B) : Prop :=
  match a, b with Ok x, Ok y => Rel x y | Err e, Err e' => e = e' | _, _ => False end.
(** the two arrays of a pair hold the two vectors *)
Definition holds2 {E : IPS} (h : heap E) (p : ref * ref) (q : E * E) : Prop := holds h (fst p) (fst q) /\ holds h (snd p) (snd q).
(** an optional argument: both absent, or an array and its content *)
Definition holds_opt {E : IPS} (h : heap E) (r : option ref) (v : option E) : Prop :=
  match r, v with Some r, Some v => holds h r v | None, None => True | _, _ => False end.
(** the starting point of PPXA: one array, or the rows of a 2-D array *)
Definition holds_init {E : IPS} (h : heap E) (r : hppxa_init) (v : ppxa_init E) : Prop :=
  match r, v with HCommon r, Common v => holds h r v | HRows l, PerFun l' => Forall2 (holds h) l l' | _, _ => False end.
(** the weighted least-squares misfit x_0^2 / 2 + 3 (x_1 - 1)^2 / 2 of two unknowns *)
Definition misfit2 (x : Vec (2 * 1)) : R := / 2 * (get x 0 * get x 0) + 3 / 2 * ((get x 1 - 1) * (get x 1 - 1)).
