(** Property theorems for Dyk2: statements only; every proof is [exact] a lemma of P_Dyk2.v.
    Generated from the tagged lemmas of that file. *)
From Coq Require Import Psatz Classical.
From Verif Require Import Base Space Spec SpecOps ConvexFacts VSum MatFacts M_ProxOp M_Norms M_Loop LoopFacts LoopFacts2 SeqConv M_PG M_Multi M_Dyk P_Multi P_Dyk P_Proj.
From Verif Require Import S_Dyk2.
From Verif Require Import P_Dyk2.
Open Scope result_scope.
Open Scope R_scope.


(** GenericIntersectionProx of two projections on convex sets: the iterates follow Dykstra's
    recursion with x + p + q equal to the input, every result after at least one iteration
    lies in the second set, and agreement of the two iterates makes it the projection on the
    intersection *)
Theorem C35_intersection : forall (E : IPS) amax (p1 p2 : E -> result E) C1 C2 x0 tau, proj_impl p1 C1 -> proj_impl p2 C2 -> convex_set C1 -> convex_set C2 -> 0 < tau ->
  exists xs ys ps qs, dykstra_seq (indic C1) (indic C2) 1 x0 xs ys ps qs /\ (forall k, xs k [+] ps k [+] qs k = x0) /\
    forall niter tol, exists k, gi_prox amax [p1; p2] niter tol false x0 tau = Ok (xs k) /\ stops_when (dyk_small amax tol xs ys) niter k /\
      ((0 < niter)%nat -> (0 < k)%nat) /\ ((0 < k)%nat -> C2 (xs k)) /\ ((0 < k)%nat -> xs k = ys k -> is_proj (fun v => C1 v /\ C2 v) x0 (xs k)).
Proof. exact C35_intersection_l. Qed.
Print Assumptions C35_intersection.

(** if x0 - z is the sum of outward normals u, v of the two sets at the common point z, then z
    is the projection of x0 on the intersection and with tol = 0 the result tends to z as
    niter grows *)
Theorem C35_intersection_converges : forall (E : IPS) amax (p1 p2 : E -> result E) C1 C2 x0 tau z u v, proj_impl p1 C1 -> proj_impl p2 C2 -> convex_set C1 -> convex_set C2 -> 0 < tau ->
  (forall w, 0 <= amax w) -> normal C1 z u -> normal C2 z v -> x0 [-] z = u [+] v ->
  is_proj (fun w => C1 w /\ C2 w) x0 z /\
  exists xs, (forall niter, gi_prox amax [p1; p2] niter 0 false x0 tau = Ok (xs niter)) /\ (forall n, RS n (fun k => norm2 (xs (S k) [-] z)) <= norm2 v) /\
    (forall eps, 0 < eps -> exists N, forall niter, (N <= niter)%nat -> norm (xs niter [-] z) < eps).
Proof. exact C35_intersection_converges_l. Qed.
Print Assumptions C35_intersection_converges.

(** on arrays of at most 25 entries a result of the two-set loop that passed the tolerance test
    is accepted by the operator's own __call__ *)
Theorem C35_intersection_accepted : forall n (p1 p2 : Vec n -> result (Vec n)) C1 C2 x0 tau, proj_impl p1 C1 -> proj_impl p2 C2 -> convex_set C1 -> convex_set C2 -> 0 < tau -> (n <= 25)%nat ->
  exists xs ys ps qs, dykstra_seq (indic C1) (indic C2) 1 x0 xs ys ps qs /\
    forall niter tol, exists k, gi_prox vamax [p1; p2] niter tol false x0 tau = Ok (xs k) /\ (k <= niter)%nat /\
      ((1 <= k)%nat -> dyk_small vamax tol xs ys k -> gi_call vamax [p1; p2] tol (xs k) = Ok true).
Proof. exact C35_intersection_accepted_l. Qed.
Print Assumptions C35_intersection_accepted.

(** with the documented setting tol = 0 the operator's own __call__ returns False for every
    array, also for members of all the sets *)
Theorem C35_call_tol0_refuted : forall (E : IPS) amax (p : E -> result E) projs x, (forall w, 0 <= amax w) -> p x = Ok x -> gi_call amax (p :: projs) 0 x = Ok false.
Proof. exact C35_call_tol0_refuted_l. Qed.
Print Assumptions C35_call_tol0_refuted.

(** on longer arrays this fails although the sets intersect: for two half-spaces of R^401,
    starting at 0 with any tol > 0 the loop stops after one iteration by its tolerance test
    and __call__ rejects the result *)
Theorem C35_accepted_refuted : forall tol tau niter, 0 < tol -> 0 < tau ->
  let t := 99 / 100 * tol in let C1 := half big_v 0 in let C2 := half big_w (- (401 * t)) in
  let p1 := fun w => Ok (half_proj big_v 0 w) in let p2 := fun w => Ok (half_proj big_w (- (401 * t)) w) in
  proj_impl p1 C1 /\ proj_impl p2 C2 /\ (exists z, C1 z /\ C2 z) /\
  exists x, gi_prox vamax [p1; p2] (S niter) tol false vzero tau = Ok x /\ gi_call vamax [p1; p2] tol x = Ok false.
Proof. exact C35_accepted_refuted_l. Qed.
Print Assumptions C35_accepted_refuted.
