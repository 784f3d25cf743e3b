(** * Specification vocabulary used by the statements proved in P_Qual.v *)
From Verif Require Import Base Space Spec VSum.
Open Scope R_scope.

(** z is an interior point of the set D *)
Definition interior {E : IPS} (D : E -> Prop) (z : E) : Prop := exists delta, 0 < delta /\ forall v, norm v <= delta -> D (z [+] v).
(** Slater's condition for f(x) + g(A x): a point of the domain of f is mapped into the interior of the domain of g.
    It holds as soon as g is finite everywhere. *)
Definition qualified {E F : IPS} (f : efun E) (g : efun F) (A : linop E F) : Prop := exists x, edom f x /\ interior (edom g) (lapp A x).
(** the same for f + g, in either role *)
Definition qualified2 {E : IPS} (f g : efun E) : Prop := exists x, (edom f x /\ interior (edom g) x) \/ (edom g x /\ interior (edom f) x).
(** m functions: a common point of all domains, interior to all of them except possibly one *)
Definition qualified_sum {E : IPS} (m : nat) (f : nat -> efun E) : Prop :=
  exists x j, forall i, (i < m)%nat -> edom (f i) x /\ (i <> j -> interior (edom (f i)) x).

(** a sublinear function, and spaces in which every sublinear function is above a linear one (Hahn-Banach) *)
Definition sublinear {E : IPS} (p : E -> R) : Prop := (forall x y, p (x [+] y) <= p x + p y) /\ (forall t x, 0 < t -> p (t [*] x) = t * p x).
Definition hb (E : IPS) : Prop := forall p : E -> R, sublinear p -> exists u, forall x, << u, x >> <= p x.
