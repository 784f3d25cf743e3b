(** * Specification vocabulary used by the statements proved in P_Path.v *)
From Verif Require Import Base Space Spec VSum MatFacts M_ProxOp M_PG S_Seq S_Iter.
Open Scope result_scope.
Open Scope R_scope.

(** l is the limit of the vectors returned by ProximalGradient(proxf, proxg, x0, epsg=eps, tau=tau, eta=eta) with niter = 1, 2, ..., for some start and some
    admissible step and relaxation (0 < eta < 2 - tau L/2), without backtracking and acceleration *)
Definition pg_limit {E : IPS} (proxf proxg : Op E) (L eps : R) (l : E) : Prop :=
  exists x0 tau beta eta niterback accel xs, 0 < tau /\ 0 < eta < 2 - tau * L / 2 /\ unaccelerated accel eta /\
    (forall n, exists tr, ProximalGradient proxf proxg x0 [eps] (Some tau) false beta eta (S n) niterback accel None = Ok (xs n, tr)) /\ vcv xs l.
(** l minimises f over C, and has the least value of g among the points that do *)
Definition best_then {E : IPS} (C : E -> Prop) (f g : E -> R) (l : E) : Prop :=
  C l /\ (forall y, C y -> f l <= f y) /\ forall m, C m -> (forall y, C y -> f m <= f y) -> g l <= g m.
(** the sum of the absolute values of the entries *)
Definition abs_sum {n} (x : Vec n) : R := RS n (fun i => Rabs (get x i)).
