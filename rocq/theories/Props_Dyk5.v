(** Property theorems for Dyk5: statements only; every proof is [exact] a lemma of P_Dyk5.v.
    Generated from the tagged lemmas of that file. *)
From Coq Require Import Psatz.
From Verif Require Import Base Space Spec SpecOps ConvexFacts VSum MatFacts M_ProxOp M_Norms M_Loop LoopFacts LoopFacts2 SeqConv M_PG M_Multi M_Dyk P_PG3 P_Norms P_Split2 P_Multi P_Dyk P_Dyk2 P_Dyk3 P_Dyk4 P_Proj S_Seq Compact Fejer IterMath3 DykMath P_Iter.
From Verif Require Import P_Dyk5.
Open Scope result_scope.
Open Scope R_scope.


(** Sum of two operators implementing the prox of convex lower semicontinuous f and g that are
    finite at a common point, in finite dimension, with tol = 0: the prox of f + g at x0
    exists and the results of Sum.prox for niter = 0, 1, 2, ... converge to it, for every x0
    and tau > 0 (no condition on subgradients) *)
Theorem C35_sum_converges : forall (E : IPS) (a b : Op E) f g x0 tau weights orig, bw E -> impl_prox a f -> impl_prox b g -> convex f -> convex g -> lsc f -> lsc g -> 0 < tau ->
  (exists p, edom f p /\ edom g p) ->
  exists xs z, (forall amax niter, (forall w, 0 <= amax w) -> exists o, sum_init [a; b] weights niter 0 false orig = Ok o /\ sum_prox amax o x0 tau = (o, Ok (xs niter))) /\
    is_prox (eadd f g) tau x0 z /\ vcv xs z.
Proof. exact C35_sum_converges_l. Qed.
Print Assumptions C35_sum_converges.

(** GenericIntersectionProx of two projections on convex sets with a common point, in finite
    dimension, with tol = 0: the results for niter = 0, 1, 2, ... converge to the projection
    of x0 on the intersection, for every x0 *)
Theorem C35_two_sets_converge : forall (E : IPS) (p1 p2 : E -> result E) C1 C2 x0 tau, bw E -> proj_impl p1 C1 -> proj_impl p2 C2 -> convex_set C1 -> convex_set C2 -> 0 < tau ->
  (exists w, C1 w /\ C2 w) ->
  exists xs z, (forall amax niter, (forall w, 0 <= amax w) -> gi_prox amax [p1; p2] niter 0 false x0 tau = Ok (xs niter)) /\ is_proj (fun w => C1 w /\ C2 w) x0 z /\ vcv xs z.
Proof. exact C35_two_sets_converge_l. Qed.
Print Assumptions C35_two_sets_converge.

(** GenericIntersectionProx of three or more projections on convex sets (or two with
    use_parallel) with a common point, in finite dimension, with tol = 0: the results for
    niter = 0, 1, 2, ... converge to the projection of x0 on the intersection, for every x0
    (Boyle and Dykstra's theorem) *)
Theorem C35_cyclic_converges : forall (E : IPS) (projs : list (E -> result E)) (C : nat -> E -> Prop) x0 tau par, bw E -> let m := length projs in
  0 < tau -> (2 < m)%nat \/ (m = 2%nat /\ par = true) -> (forall i p, nth_error projs i = Some p -> proj_impl p (C i)) -> (forall i, (i < m)%nat -> convex_set (C i)) ->
  (exists w, forall i, (i < m)%nat -> C i w) ->
  exists us z, (forall amax niter, gi_prox amax projs niter 0 par x0 tau = Ok (us niter)) /\ is_proj (fun w => forall i, (i < m)%nat -> C i w) x0 z /\ vcv us z.
Proof. exact C35_cyclic_converges_l. Qed.
Print Assumptions C35_cyclic_converges.

(** Sum of m convex lower semicontinuous functions that are finite at a common point, computed
    in parallel with any positive weights and either step rule, in finite dimension, with
    tol = 0: the prox of sum_i c_i f_i at x0 (c_i as in C36_recursion) exists and the
    results of Sum.prox for niter = 0, 1, 2, ... converge to it (no condition on
    subgradients) *)
Theorem C36_parallel_converges : forall (E : IPS) (os : list (Op E)) (f : nat -> efun E) x0 tau weights par orig, bw E -> let m := List.length os in let w := the_weights weights m in
  (2 < m)%nat \/ (m = 2%nat /\ par = true) -> weights_ok w m -> 0 < tau -> impl_all os f -> (forall i, (i < m)%nat -> convex (f i)) -> (forall i, (i < m)%nat -> lsc (f i)) ->
  (exists p, forall i, (i < m)%nat -> edom (f i) p) ->
  exists xs z, (forall amax niter, (forall v, 0 <= amax v) -> exists o, sum_init os weights niter 0 par orig = Ok o /\ snd (sum_prox amax o x0 tau) = Ok (xs niter)) /\
    is_prox (esum m (fun i => escal (coef orig tau w i) (f i))) 1 x0 z /\ vcv xs z.
Proof. exact C36_parallel_converges_l. Qed.
Print Assumptions C36_parallel_converges.

(** the unit disc and the half-plane x >= 1, which touch at the single point (1, 0): the
    hypotheses of C35_two_sets_converge hold for the input (1, 1) whose projection is (1,
    0), although (1, 1) - (1, 0) is not a sum of outward normals there (so
    C35_intersection_converges says nothing) *)
Example C35_touching_example : let v := pt (-1) 0 in bw plane /\ proj_impl (fun w => Ok (disc_proj w)) disc /\ proj_impl (fun w => Ok (half_proj v (-1) w)) (half v (-1)) /\ convex_set disc /\ convex_set (half v (-1)) /\
  disc (pt 1 0) /\ half v (-1) (pt 1 0) /\ is_proj (fun w => disc w /\ half v (-1) w) (pt 1 1) (pt 1 0) /\
  ~ (exists a b, normal disc (pt 1 0) a /\ normal (half v (-1)) (pt 1 0) b /\ pt 1 1 [-] pt 1 0 = a [+] b).
Proof. exact C35_touching_example_l. Qed.

(** three operators (x^2/2, x^2/2 and x^2/2) with the weights (1/4, 1/4, 1/2), tau = 1 and
    either step rule meet the hypotheses of C36_parallel_converges *)
Example C36_converges_example : let os := [quad1 1; quad1 1; quad1 1] in let q := etot (E:=R_IPS) (fun x : R_IPS => 1 / 2 * (x * x)) in let w := the_weights (ListWeights [1/4; 1/4; 1/2]) 3 in
  bw R_IPS /\ weights_ok w 3 /\ impl_all os (fun _ => q) /\ convex q /\ lsc q /\ edom q (0 : R).
Proof. exact C36_converges_example_l. Qed.
