(** * Vocabulary for integer arrays *)
From Verif Require Import Base Space Spec Sep MatFacts VSum M_ProxOp M_Loop M_Int.
Open Scope R_scope.

Definition integral (r : R) : Prop := exists z : Z, r = IZR z.
(** t is r without its fractional part *)
Definition toward_zero (r t : R) : Prop := integral t /\ Rabs t <= Rabs r < Rabs t + 1 /\ 0 <= r * t.
Definition int_vec {n} (x : Vec n) : Prop := forall i, (i < n)%nat -> integral (get x i).
(** on every array of integers, [g] returns the result of [f] without the fractional parts *)
Definition truncates {n} (f g : Op (Vec n)) : Prop := forall x tau, int_vec x -> 0 < tau ->
  exists p q, o_prox f x tau = Ok p /\ o_prox g x tau = Ok q /\ forall i, (i < n)%nat -> toward_zero (get p i) (get q i).
(** the operator [o] is what the operator on typed arrays [a] computes for float arrays *)
Definition on_floats {E : IPS} (o : Op E) (a : aop E) : Prop :=
  (forall v tau, ao_prox a (Arr false v) tau = (p <- o_prox o v tau ;; Ok (Arr false p))%result) /\
  (forall v, ao_grad a (Arr false v) = (g <- get_grad o v ;; Ok (Arr false g))%result).
