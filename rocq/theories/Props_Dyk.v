(** Property theorems for Dyk: statements only; every proof is [exact] a lemma of P_Dyk.v.
    Generated from the tagged lemmas of that file. *)
From Coq Require Import Psatz Classical.
From Verif Require Import Base Space Spec SpecOps ConvexFacts VSum MatFacts M_ProxOp M_Norms M_Loop LoopFacts LoopFacts2 SeqConv M_PG M_Multi M_Dyk P_Multi.
From Verif Require Import S_Dyk.
From Verif Require Import P_Dyk.
Open Scope result_scope.
Open Scope R_scope.


(** Sum of any two operators implementing the prox of convex f and g, any starting point, step,
    weights, tolerance and iteration limit: the iterates follow the documented recursion, x
    + p + q equals the input at every iteration, at most niter iterations run and the loop
    ends exactly at the first iteration whose x and y both moved less than tol, and when the
    two iterates agree the result is the prox of f + g *)
Theorem C35_recursion : forall (E : IPS) amax (a b : Op E) f g x0 tau weights orig, impl_prox a f -> impl_prox b g -> convex f -> convex g -> 0 < tau ->
  exists xs ys ps qs, dykstra_seq f g tau x0 xs ys ps qs /\ (forall k, xs k [+] ps k [+] qs k = x0) /\
    forall niter tol, exists o k, sum_init [a; b] weights niter tol false orig = Ok o /\ sum_prox amax o x0 tau = (o, Ok (xs k)) /\
      stops_when (dyk_small amax tol xs ys) niter k /\ ((0 < k)%nat -> xs k = ys k -> is_prox (eadd f g) tau x0 (xs k)).
Proof. exact C35_recursion_l. Qed.
Print Assumptions C35_recursion.

(** if z is the prox of f + g at x0 with subgradients u of f and v of g at z adding up to (x0 -
    z)/tau, then with tol = 0 the result of Sum.prox tends to z as niter grows, and the
    squared errors of all iterates together never exceed tau^2 |v|^2 *)
Theorem C35_converges : forall (E : IPS) amax (a b : Op E) f g x0 tau weights orig z u v, impl_prox a f -> impl_prox b g -> convex f -> convex g -> 0 < tau ->
  (forall w, 0 <= amax w) -> sum_prox_split f g tau x0 z u v ->
  is_prox (eadd f g) tau x0 z /\
  exists xs, (forall n, RS n (fun k => norm2 (xs (S k) [-] z)) <= tau * tau * norm2 v) /\
    (forall niter, exists o, sum_init [a; b] weights niter 0 false orig = Ok o /\ sum_prox amax o x0 tau = (o, Ok (xs niter))) /\
    (forall eps, 0 < eps -> exists N, forall niter, (N <= niter)%nat -> norm (xs niter [-] z) < eps).
Proof. exact C35_converges_l. Qed.
Print Assumptions C35_converges.

(** if the two functions have a common point of finiteness and tol > 0, the loop stops by
    itself: some N bounds the number of iterations whatever niter is, so for every niter
    beyond N the result is the same and it passed the tolerance test *)
Theorem C35_stops : forall (E : IPS) amax (a b : Op E) f g x0 tau weights orig tol, impl_prox a f -> impl_prox b g -> convex f -> convex g -> 0 < tau ->
  (forall w, amax w <= norm w) -> 0 < tol -> (exists z, edom f z /\ edom g z) ->
  exists xs ys ps qs N, dykstra_seq f g tau x0 xs ys ps qs /\ dyk_small amax tol xs ys N /\
    forall niter, (N <= niter)%nat -> exists o, sum_init [a; b] weights niter tol false orig = Ok o /\ sum_prox amax o x0 tau = (o, Ok (xs N)).
Proof. exact C35_stops_l. Qed.
Print Assumptions C35_stops.

(** on arrays of n entries, whenever the loop ends with its tolerance test passed, the squared
    distance of the result to the prox z of f + g is at most 2 tol sqrt(n) tau |v| *)
Theorem C35_stop_error : forall n (a b : Op (Vec n)) f g x0 tau weights orig z u v, impl_prox a f -> impl_prox b g -> convex f -> convex g -> 0 < tau ->
  sum_prox_split f g tau x0 z u v -> exists xs ys ps qs, dykstra_seq f g tau x0 xs ys ps qs /\
    forall niter tol, exists o k, sum_init [a; b] weights niter tol false orig = Ok o /\ sum_prox vamax o x0 tau = (o, Ok (xs k)) /\ (k <= niter)%nat /\
      (k = niter /\ ~ dyk_small vamax tol xs ys k \/ k = 0%nat \/ norm2 (xs k [-] z) <= 2 * tol * sqrt (INR n) * (tau * norm v)).
Proof. exact C35_stop_error_l. Qed.
Print Assumptions C35_stop_error.
