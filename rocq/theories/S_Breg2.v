(** * Specification vocabulary used by the statements proved in P_Breg2.v *)
From Verif Require Import Base Space Spec M_ProxOp SpecOps M_Breg S_Breg S_Seq.
Open Scope R_scope.

(** minimise g(A x) subject to B x = b *)
Definition constrained {E F D : IPS} (g : efun F) (A : E -> F) (B : linop E D) (b : D) : efun E := mkEfun (fun x => edom g (A x) /\ B x = b) (fun x => eval g (A x)).
(** minimise s/2 |B x - c|^2 + alpha g(A x) *)
Definition penalised {E F D : IPS} (g : efun F) (A : E -> F) (B : linop E D) (s alpha : R) (c : D) : efun E :=
  mkEfun (fun x => edom g (A x)) (fun x => s / 2 * norm2 (B x [-] c) + alpha * eval g (A x)).
(** v is a multiplier at x: B^T v is a subgradient of g(A .) at x *)
Definition multiplier_at {E F D : IPS} (g : efun F) (A : E -> F) (B : linop E D) (x : E) (v : D) : Prop := is_subgrad (epre g A) x (ladj B v).
(** the vectors u n come arbitrarily close to the set of the vectors satisfying P *)
Definition approaches {E : IPS} (P : E -> Prop) (u : nat -> E) : Prop :=
  forall eps, 0 < eps -> exists N, forall n, (N <= n)%nat -> exists z, P z /\ norm (u n [-] z) < eps.
(** the inner solver returns a minimiser of  f + <v,.> + alpha g(A .)  whenever it is handed correct operators for  f + <v,.>  and
    alpha g  and there is a minimiser *)
Definition good_solver {E F : IPS} (f : E -> R) (g : efun F) (A : E -> F) (alpha : R) (solver : Op E -> Op F -> E -> result (solver_out E)) : Prop :=
  forall (o1 : Op E) (o2 : Op F) v x0,
    impl_prox o1 (elin (etot f) v) -> impl_call o1 (elin (etot f) v) -> impl_grad o1 (fun x => f x + << v, x >>) ->
    impl_prox o2 (escal alpha g) -> impl_call o2 (escal alpha g) ->
    (exists x, is_min (eadd (elin (etot f) v) (epre (escal alpha g) A)) x) ->
    exists out x, solver o1 o2 x0 = Ok out /\ solution out x /\ is_min (eadd (elin (etot f) v) (epre (escal alpha g) A)) x.
