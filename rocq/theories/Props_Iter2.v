(** Property theorems for Iter2: statements only; every proof is [exact] a lemma of P_Iter2.v.
    Generated from the tagged lemmas of that file. *)
From Coq Require Import String Psatz.
From Verif Require Import Base Space Spec Cplx ConvexFacts Smooth VSum M_ProxOp SpecOps P_ProxOp M_Norms P_Norms M_Loop LoopFacts SeqFacts M_PG M_Split M_PD SplitMath P_PG P_PG2 P_PG3 P_Split2 P_Split3 P_PD S_Seq Compact Fejer IterMath IterMath2 P_Iter.
From Verif Require Import P_Iter2.
Open Scope result_scope.
Open Scope R_scope.


(** f, g convex, gs the conjugate of g, theta = 1, constant steps with tau mu |A a|^2 <= kappa
    |a|^2 for some kappa <= 1, any start, either order, finite dimension, and the problem
    has a saddle point: the pair returned by PrimalDual with niter = 0, 1, 2, ... converges
    to a saddle point (xl, yl), and xl minimises f + <z,.> + g(A .) *)
Theorem C75_primal_dual : forall (E F : IPS) (A : linop E F) proxf proxg f g gs alias x0 tau mu kappa y0 z gfirst, bw E -> bw F ->
  impl_prox proxf f -> impl_proxdual proxg gs -> convex f -> convex g -> is_conj g gs -> (forall u, exists p, is_prox g 1 u p) ->
  0 < tau -> 0 < mu -> 0 <= kappa <= 1 -> (forall a, tau * mu * norm2 (lapp A a) <= kappa * norm2 a) -> alias = None \/ z = None ->
  (exists xo yo, saddle A f gs (zvec z) xo yo) ->
  exists xs ys xl yl, (forall n, exists tr, PrimalDual proxf proxg A alias x0 (Scalar tau) (Scalar mu) y0 z 1 n gfirst = Ok (xs n, ys n, tr)) /\
    saddle A f gs (zvec z) xl yl /\ is_min (eadd (elin f (zvec z)) (epre g (lapp A))) xl /\ vcv xs xl /\ vcv ys yl.
Proof. exact C75_primal_dual_l. Qed.
Print Assumptions C75_primal_dual.

(** f, g convex, tau, mu > 0 with mu |A a|^2 <= kappa tau |a|^2 for some kappa <= 1, either
    guess, finite dimension, and some point is a solution with a multiplier: the x returned
    by LinearizedADMM with niter = 0, 1, 2, ... converges to a minimiser xl of f + g(A .)
    and the returned z converges to A xl *)
Theorem C75_linearized_admm : forall (E F : IPS) (proxf : Op E) (proxg : Op F) f g (A : linop E F) tau mu kappa x0 z0 x z, bw E -> bw F ->
  impl_prox proxf f -> impl_prox proxg g -> convex f -> convex g -> 0 < tau -> 0 < mu -> 0 <= kappa <= 1 ->
  (forall a, mu * norm2 (lapp A a) <= kappa * tau * norm2 a) -> x0z0_initA (lapp A) x0 z0 = Ok (x, z) -> (exists xo v, kktA f g A xo v) ->
  exists xs zs xl, (forall n, exists tr, LinearizedADMM proxf proxg A x0 tau mu n z0 = Ok (xs n, zs n, tr)) /\
    is_min (eadd f (epre g (lapp A))) xl /\ vcv xs xl /\ vcv zs (lapp A xl).
Proof. exact C75_linearized_admm_l. Qed.
Print Assumptions C75_linearized_admm.

(** g convex, tau > 0, exact inner solves, gfirst=False, either guess, the least-squares
    problems have unique solutions (c |a|^2 <= |B a|^2 + |A a|^2 for some c > 0), finite
    dimension, and some point is a solution with a multiplier: the x returned by ADMML2 with
    niter = 0, 1, 2, ... converges to a minimiser xl of 1/2|B x - b|^2 + g(A x) and the
    returned z converges to A xl *)
Theorem C75_admml2 : forall (E F G : IPS) (B : linop E G) b (A : linop E F) proxg reginv g tau c x0 z0 x z, bw F ->
  impl_prox proxg g -> convex g -> exact_reginv B b A reginv -> 0 < tau -> 0 < c -> (forall a, c * norm2 a <= norm2 (lapp B a) + norm2 (lapp A a)) ->
  x0z0_initA (lapp A) x0 z0 = Ok (x, z) -> (exists xo v, kktA (etot (fun y => 1 / 2 * norm2 (lapp B y [-] b))) g A xo v) ->
  exists xs zs xl, (forall n, exists tr, ADMML2 proxg A reginv x0 tau n z0 false = Ok (xs n, zs n, tr)) /\
    is_min (eadd (etot (fun y => 1 / 2 * norm2 (lapp B y [-] b))) (epre g (lapp A))) xl /\ vcv xs xl /\ vcv zs (lapp A xl).
Proof. exact C75_admml2_l. Qed.
Print Assumptions C75_admml2.
