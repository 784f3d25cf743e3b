(** Property theorems for PG: statements only; every proof is [exact] a lemma of P_PG.v.
    Generated from the tagged lemmas of that file. *)
From Coq Require Import String Psatz.
From Verif Require Import Base Space Spec ConvexFacts Smooth M_ProxOp SpecOps P_ProxOp M_Loop LoopFacts Trace SeqFacts M_PG M_Norms P_Norms.
From Verif Require Import S_PG.
From Verif Require Import P_PG.
Open Scope result_scope.
Open Scope R_scope.



(** ProximalPoint returns the k-th point of the sequence x_{j+1} = prox_{tau f}(x_j) started at
    x0, and its callback saw exactly x_1, ..., x_k in order; k is niter without tol, and
    with tol the first iteration whose relative objective change is below tol (or niter) *)
Theorem C40_iterates : forall (E : IPS) (o : Op E) (f : efun E) x0 tau niter tol,
  impl_prox o f -> impl_call o f -> 0 < tau ->
  (tol <> None -> forall x, edom f x -> eval f x <> 0) ->
  exists xs k, ProximalPoint o x0 tau niter tol = Ok (xs k, map xs (seq 1 k)) /\
    xs 0%nat = x0 /\ pp_seq f tau xs k /\ stops_at tol (fun j => eval f (xs j)) niter k.
Proof. exact C40_iterates_l. Qed.
Print Assumptions C40_iterates.

(** for convex f and every number of iterations k >= 1, f(x_k) - f(y) <= |x0 - y|^2 / (2 tau k)
    for every y in the domain (in particular for minimisers), and the objective never
    increases along the callbacks *)
Theorem C40_rate : forall (E : IPS) (o : Op E) (f : efun E) x0 tau niter,
  impl_prox o f -> convex f -> 0 < tau -> (1 <= niter)%nat ->
  exists x tr, ProximalPoint o x0 tau niter None = Ok (x, tr) /\ List.length tr = niter /\ edom f x /\
    (forall y, edom f y -> eval f x - eval f y <= norm2 (x0 [-] y) / (2 * tau * INR niter)) /\
    (forall i a b, nth_error tr i = Some a -> nth_error tr (S i) = Some b -> eval f b <= eval f a).
Proof. exact C40_rate_l. Qed.
Print Assumptions C40_rate.

(** for convex f and niter >= 1, ProximalPoint returns its starting point iff that point is a
    minimiser, and then every callback gets it *)
Theorem C40_fixed : forall (E : IPS) (o : Op E) (f : efun E) x0 tau niter,
  impl_prox o f -> convex f -> 0 < tau -> (1 <= niter)%nat ->
  (is_min f x0 -> ProximalPoint o x0 tau niter None = Ok (x0, repeat x0 niter)) /\
  (forall tr, ProximalPoint o x0 tau niter None = Ok (x0, tr) -> is_min f x0).
Proof. exact C40_fixed_l. Qed.
Print Assumptions C40_fixed.

(** with a tolerance, reaching objective value 0 raises ZeroDivisionError instead of stopping:
    Euclidean(1) on the real line, x0 = 1, tau = 1: the minimiser 0 is reached at the first
    iteration and the second one divides 0.0 by 0.0 *)
Theorem C45_zero_objective_refuted : forall fuel tol niter, tol <= 1 ->
  ProximalPoint (E:=R_IPS) (obj (S fuel) (euclid_body 1)) 1 1 (S (S niter)) (Some tol) = Err ZeroDivisionError.
Proof. exact C45_zero_objective_refuted_l. Qed.
Print Assumptions C45_zero_objective_refuted.
