(** * Specification vocabulary used by the statements proved in P_Breg.v *)
From Coq Require Import Psatz.
From Verif Require Import Base Space Spec M_ProxOp SpecOps M_Breg.
Open Scope result_scope.
Open Scope R_scope.

(** The solution in what a solver returned: the array, or the first component of the tuple. *)
Definition solution {G : IPS} (out : solver_out G) (x : G) : Prop := out = SArr x \/ exists rest, out = STup x rest.

Section Spec.
Context {E F : IPS} (f : E -> R) (df : E -> E) (g : efun F) (A : E -> F) (alpha : R).
(** the inner problem f + alpha g(A .) - alpha <q, .> *)
Definition breg_inner (q : E) : efun E :=
  mkEfun (fun x => edom g (A x)) (fun x => f x + alpha * eval g (A x) - alpha * << q, x >>).
(** the documented recursion: x_(j+1) minimises the inner problem for q_j, then q_(j+1) = q_j - grad f(x_(j+1)) / alpha *)
Definition breg_doc (xs qs : nat -> E) (k : nat) : Prop :=
  qs 0%nat = vzero /\
  forall j, (j < k)%nat -> is_min (breg_inner (qs j)) (xs (S j)) /\ qs (S j) = qs j [-] (1 / alpha) [*] df (xs (S j)).
(** The inner solver returns a minimiser of  f + <v,.> + alpha g(A .)  whenever it is
    handed correct operators for  f + <v,.>  and  alpha g. *)
Definition exact_solver (solver : Op E -> Op F -> E -> result (solver_out E)) : Prop :=
  forall (o1 : Op E) (o2 : Op F) v x0,
    impl_prox o1 (elin (etot f) v) -> impl_call o1 (elin (etot f) v) -> impl_grad o1 (fun x => f x + << v, x >>) ->
    impl_prox o2 (escal alpha g) -> impl_call o2 (escal alpha g) ->
    exists out x, solver o1 o2 x0 = Ok out /\ solution out x /\ is_min (eadd (elin (etot f) v) (epre (escal alpha g) A)) x.
End Spec.
