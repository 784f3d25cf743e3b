(** Property theorems for Iters: statements only; every proof is [exact] a lemma of P_Iters.v.
    Generated from the tagged lemmas of that file. *)
From Coq Require Import String Psatz.
From Verif Require Import Base Space Spec VSum ConvexFacts Smooth M_ProxOp SpecOps P_ProxOp M_Norms P_Norms M_Loop LoopFacts LoopFacts2 SeqFacts M_PG M_Split M_Multi M_Breg M_PD SplitMath P_PG2 P_PG3 P_Split P_Split2 P_Multi P_Multi2 S_Seq Compact Fejer S_Breg P_Breg IterMath P_Iter P_Iter3 S_Split2 S_PD2 S_Qual S_Exist P_PD P_PD2 P_Apd P_Incons P_Limit.
From Verif Require Import P_Iters.
Open Scope result_scope.
Open Scope R_scope.


(** PPXA with a common start x0, convex functions, exact prox, positive weights summing to one,
    tau > 0, 0 < eta < 2, a tolerance tol > 0 and a solution xo with multipliers v_i
    (subgradients at xo summing to 0): a run of k iterations has (k-1) tol^2 <= eta/(2-eta)
    (|x0-xo|^2 + tau^2 sum_i |v_i|^2 / w_i), whatever niter; and from some N on the result
    does not depend on niter *)
Theorem C107_ppxa : forall (E : IPS) (os : list (Op E)) (f : nat -> efun E) x0 tau eta weights amax t xo v,
  let m := List.length os in let w := nthr (ppxa_weights weights m) in
  impl_all os f -> (forall i, (i < m)%nat -> convex (f i)) -> (0 < m)%nat -> 0 < tau -> 0 < eta < 2 -> good_weights weights m ->
  0 < t -> (forall d, amax d <= norm d) -> sum_kkt m f xo v ->
  (forall niter, exists x tr, PPXA os (Common x0) tau eta weights niter amax (Some t) = Ok (x, tr) /\ (List.length tr <= niter)%nat /\
     INR (List.length tr - 1) * (t * t) <= eta / (2 - eta) * (norm2 (x0 [-] xo) + tau * tau * RS m (fun i => norm2 (v i) / w i))) /\
  exists N, forall niter, (N <= niter)%nat -> PPXA os (Common x0) tau eta weights niter amax (Some t) = PPXA os (Common x0) tau eta weights N amax (Some t).
Proof. exact C107_ppxa_l. Qed.
Print Assumptions C107_ppxa.

(** ConsensusADMM with convex functions, exact prox, tau > 0, a tolerance tol > 0 and a solution
    xo with multipliers v_i: a run of k iterations has (k-1) tol^2 <= |x0-xo|^2 + tau^2/m
    sum_i |v_i|^2, whatever niter; and from some N on the result does not depend on niter *)
Theorem C107_consensus : forall (E : IPS) (os : list (Op E)) (f : nat -> efun E) x0 tau amax t xo v, let m := List.length os in
  impl_all os f -> (forall i, (i < m)%nat -> convex (f i)) -> (0 < m)%nat -> 0 < tau ->
  0 < t -> (forall d, amax d <= norm d) -> sum_kkt m f xo v ->
  (forall niter, exists x tr, ConsensusADMM os x0 tau niter amax (Some t) = Ok (x, tr) /\ (List.length tr <= niter)%nat /\
     INR (List.length tr - 1) * (t * t) <= norm2 (x0 [-] xo) + tau * tau / INR m * RS m (fun i => norm2 (v i))) /\
  exists N, forall niter, (N <= niter)%nat -> ConsensusADMM os x0 tau niter amax (Some t) = ConsensusADMM os x0 tau N amax (Some t).
Proof. exact C107_consensus_l. Qed.
Print Assumptions C107_consensus.

(** Bregman with an exact inner solver, f convex and differentiable, g bounded below by b, and a
    point u in the domain of g(A .) with f(u) < tolf: a run of k outer iterations has (k-1)
    (tolf - f(u)) <= alpha (g(A u) - b), whatever niterouter and tolx; every run shorter
    than niterouter ends with |x_k - x_(k-1)| < tolx or f(x_k) < tolf *)
Theorem C107_bregman : forall (E F : IPS) (fuel : nat) (proxf : Op E) (proxg : Op F) f df g (A : E -> F) solver alpha x0 warm tolx tolf b u,
  0 < alpha -> impl_prox proxf (etot f) -> impl_call proxf (etot f) -> (forall x, o_grad proxf x = Ok (Some (df x)) /\ is_grad f x (df x)) ->
  convex (etot f) -> impl_prox proxg g -> impl_call proxg g -> convex (epre g A) -> exact_solver f g A alpha solver ->
  (forall y, edom g y -> b <= eval g y) -> edom g (A u) -> f u < tolf ->
  forall n, exists xs k, Bregman (S fuel) proxf proxg x0 solver (PFloat alpha) n warm tolx tolf = Ok (xs k, map xs (seq 1 k)) /\ xs 0%nat = x0 /\ (k <= n)%nat /\
    INR (k - 1) * (tolf - f u) <= alpha * (eval g (A u) - b) /\
    (k = n \/ (1 <= k)%nat /\ (norm (xs k [-] xs (k - 1)%nat) < tolx \/ f (xs k) < tolf)).
Proof. exact C107_bregman_l. Qed.
Print Assumptions C107_bregman.

(** AdaptivePrimalDual under the hypotheses of C58_converges and with tol > 0 ends: from some
    maxiter N on, the result does not depend on maxiter *)
Theorem C107_adaptive : forall (E F : IPS) (A : linop E F) proxf proxg f g gs alias x0 tau mu kappa alpha eta s delta z rz tol, bw E -> bw F ->
  impl_prox proxf f -> impl_proxdual proxg gs -> convex f -> convex g -> is_conj g gs -> (forall u, exists p, is_prox g 1 u p) ->
  alias = None \/ z = None -> (forall v, z = Some v -> rz v <> None) ->
  0 < tau -> 0 < mu -> 0 <= kappa < 1 -> (forall a, tau * mu * norm2 (lapp A a) <= kappa * norm2 a) -> 0 < alpha < 1 -> 0 < eta < 1 -> 0 < delta ->
  (exists xo yo, saddle A f gs (zvec z) xo yo) -> 0 < tol ->
  exists N, forall niter, (N <= niter)%nat ->
    AdaptivePrimalDual proxf proxg A alias x0 tau mu alpha eta s delta z rz niter tol = AdaptivePrimalDual proxf proxg A alias x0 tau mu alpha eta s delta z rz N tol.
Proof. exact C107_adaptive_l. Qed.
Print Assumptions C107_adaptive.

(** without a solution the tolerance may never be met: for the single function x |-> <c, x> with
    c not 0 and a measure of the change that is at least tol on a step, PPXA and
    ConsensusADMM make all niter iterations, for every niter *)
Theorem C107_never_refuted : forall (E : IPS) (o : Op E) (c x0 : E) tau eta amax t, impl_prox o (etot (fun x => << c, x >>)) -> 0 < tau -> 0 < eta < 2 ->
  t <= amax ((- (eta * tau)) [*] c) -> t <= amax ((- tau) [*] c) ->
  forall niter, (exists x tr, PPXA [o] (Common x0) tau eta None niter amax (Some t) = Ok (x, tr) /\ List.length tr = niter) /\
    (exists x tr, ConsensusADMM [o] x0 tau niter amax (Some t) = Ok (x, tr) /\ List.length tr = niter).
Proof. exact C107_never_refuted_l. Qed.
Print Assumptions C107_never_refuted.

(** f1 = (x-1)^2/2, f2 = x^2/2 on the line, start 1/2 (the solution, multipliers -1/2 and 1/2),
    tau = 1, tol = 1/10: PPXA (eta = 1, default weights) makes at most 101 iterations and
    ConsensusADMM at most 26, whatever niter *)
Example C107_example : impl_all [shifted1; quad1 1] (sh_quad 1) /\ (forall i, (i < 2)%nat -> convex (sh_quad 1 i)) /\
  sum_kkt 2 (sh_quad 1) (1/2 : R_IPS) (fun i => match i with O => - (1/2) | _ => 1/2 end) /\
  forall niter, (exists x tr, PPXA [shifted1; quad1 1] (Common (1/2 : R_IPS)) 1 1 None niter Rabs (Some (1/10)) = Ok (x, tr) /\ (List.length tr <= 101)%nat) /\
    (exists x tr, ConsensusADMM [shifted1; quad1 1] (1/2 : R_IPS) 1 niter Rabs (Some (1/10)) = Ok (x, tr) /\ (List.length tr <= 26)%nat).
Proof. exact C107_example_l. Qed.
