(** * Specification vocabulary used by the statements proved in P_Dyk3.v *)
From Coq Require Import Psatz Classical.
From Verif Require Import Base Space Spec M_ProxOp.
Open Scope result_scope.
Open Scope R_scope.

(** Dykstra's recursion for m sets: U k i is the point before set i in sweep k, Z k i the increment of set i *)
Definition cyclic_seq {E : IPS} (m : nat) (C : nat -> E -> Prop) (x0 : E) (U Z : nat -> nat -> E) : Prop :=
  U 0%nat 0%nat = x0 /\ (forall i, (i < m)%nat -> Z 0%nat i = vzero) /\ forall k,
    (forall i, (i < m)%nat -> is_proj (C i) (U k i [+] Z k i) (U k (S i)) /\ Z (S k) i = Z k i [+] U k i [-] U k (S i)) /\ U (S k) 0%nat = U k m.
(** an operator whose call gives the indicator of a set as a Boolean, or a number *)
Definition call_of {E : IPS} (o : Op E) (f : efun E) : Prop :=
  (forall x, eval f x = 0 /\ exists b, o_call o x = Ok (VBool b) /\ (b = true <-> edom f x)) \/ (forall x, edom f x /\ o_call o x = Ok (VNum (eval f x))).
(** the call returns a number *)
Definition num_op {E : IPS} (o : Op E) (x : E) : Prop := exists r, o_call o x = Ok (VNum r).

Section Run.
Context {E : IPS}.
(** the stopping test of sweep j (counted from 1) *)
Definition cyc_small (amax : E -> R) (tol : R) (m : nat) (U : nat -> nat -> E) (j : nat) : Prop :=
  0 < tol /\ amax (U (j - 1)%nat 0%nat [-] U (j - 1)%nat m) < tol /\ forall i, (i < m)%nat -> amax (U (j - 1)%nat (S i) [-] U (j - 1)%nat m) < tol.
End Run.
