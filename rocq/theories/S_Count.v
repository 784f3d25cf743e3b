(** * Specification vocabulary used by the statements proved in P_Count.v *)
From Coq Require Import String Psatz.
From Verif Require Import Base Space Spec VSum MatFacts M_ProxOp M_L1 M_Count.
Open Scope result_scope.
Open Scope R_scope.

(** non-negative numbers with a finite sum *)
Definition summable (e : nat -> R) : Prop := (forall k, 0 <= e k) /\ exists B, forall n, RS n e <= B.

(** the object, used with the step t: cnt k is its counter before the k-th prox call (k = 0, 1, ...) and that call returns a
    point within e k of the proximal point of g (P is the exact proximal map) *)
Definition serves {E : IPS} (o : COp E) (cnt : nat -> nat) (e : nat -> R) (t : R) (g : efun E) : Prop :=
  exists P : E -> E, (forall x, is_prox g t x (P x)) /\ forall k x, exists p, c_prox o (cnt k) x t = (cnt (S k), Ok p) /\ norm (p [-] P x) <= e k.

(** |v - w| for two lists of n weights *)
Definition wdist {n} (v w : nlist R n) : R := sqrt (RS n (fun i => (nth i (proj1_sig v) 0 - nth i (proj1_sig w) 0) * (nth i (proj1_sig v) 0 - nth i (proj1_sig w) 0))).

(** the object advances its counter by d (0 or 1) in every prox call with a positive step, and the call with the counter at c
    returns what at_ (c + d) returns *)
Definition ticks {E : IPS} (o : COp E) (d : nat) (at_ : nat -> E -> R -> result E) : Prop :=
  forall c x t, 0 < t -> c_prox o c x t = ((d + c)%nat, at_ (d + c)%nat x t).

(** a result with the counters added *)
Definition with_counters {A} (r : result A) (c : nat * nat) : result (A * (nat * nat)) := match r with Ok a => Ok (a, c) | Err e => Err e end.
