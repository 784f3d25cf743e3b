(** Property theorems for Iter4: statements only; every proof is [exact] a lemma of P_Iter4.v.
    Generated from the tagged lemmas of that file. *)
From Coq Require Import String Psatz Classical ConstructiveEpsilon.
From Verif Require Import Base Space Spec Cplx ConvexFacts Smooth VSum M_ProxOp SpecOps P_ProxOp M_Norms P_Norms M_Loop LoopFacts LoopFacts2 SeqFacts M_PG M_Split SplitMath P_PG P_PG2 P_PG3 S_Seq Compact Fejer IterMath P_Iter HahnBanach ExistMath P_Exist.
From Verif Require Import P_Iter4.
Open Scope result_scope.
Open Scope R_scope.


(** f convex with L-Lipschitz gradient, g convex, eps > 0, backtracking (backtracking=True or no
    tau given) with enough trials to get below 1/L, no acceleration, eta = 1, f + eps g has
    a minimiser, finite dimension: the vectors returned by ProximalGradient with niter = 1,
    2, ... converge to a minimiser of f + eps g *)
Theorem C75_backtracking : forall (E : IPS) (proxf proxg : Op E) f df L g eps x0 tau beta niterback accel, bw E ->
  smooth_op proxf f df L -> impl_prox proxg g -> convex g -> 0 < eps -> accel = None \/ accel = Some "None"%string ->
  let tau0 := match tau with Some t => t | None => 1 end in
  0 < tau0 -> 0 < beta <= 1 -> (exists i, (i < niterback)%nat /\ tau0 * beta ^ i <= / L) -> (exists m, is_min (eadd (etot f) (escal eps g)) m) ->
  exists xs l, xs 0%nat = x0 /\ (forall n bt, bt = true \/ tau = None -> ProximalGradient proxf proxg x0 [eps] tau bt beta 1 (S n) niterback accel None = Ok (xs (S n), map xs (seq 1 (S n)))) /\
    is_min (eadd (etot f) (escal eps g)) l /\ vcv xs l.
Proof. exact C75_backtracking_l. Qed.
Print Assumptions C75_backtracking.

(** the same without assuming a minimiser: g closed and the sets {f + eps g <= c} bounded *)
Theorem C85_backtracking : forall (E : IPS) (proxf proxg : Op E) f df L g eps x0 tau beta niterback accel, bw E -> complete E -> described E ->
  smooth_op proxf f df L -> impl_prox proxg g -> convex g -> closed g -> 0 < eps -> accel = None \/ accel = Some "None"%string ->
  let tau0 := match tau with Some t => t | None => 1 end in
  0 < tau0 -> 0 < beta <= 1 -> (exists i, (i < niterback)%nat /\ tau0 * beta ^ i <= / L) -> level_bounded (eadd (etot f) (escal eps g)) ->
  exists xs l, xs 0%nat = x0 /\ (forall n bt, bt = true \/ tau = None -> ProximalGradient proxf proxg x0 [eps] tau bt beta 1 (S n) niterback accel None = Ok (xs (S n), map xs (seq 1 (S n)))) /\
    is_min (eadd (etot f) (escal eps g)) l /\ vcv xs l.
Proof. exact C85_backtracking_l. Qed.
Print Assumptions C85_backtracking.

(** f convex with L-Lipschitz gradient, g convex and closed, eps > 0, the sets {f + eps g <= c}
    bounded, eta = 1, acceleration 'fista' or 'vandenberghe', a fixed step 0 < tau <= 1/L or
    backtracking with enough trials, finite dimension: the vectors returned by
    ProximalGradient with niter = 1, 2, ... approach the set of minimisers of f + eps g
    (which is not empty), and converge to the minimiser when there is only one *)
Theorem C75_accelerated : forall (E : IPS) (proxf proxg : Op E) f df L g eps x0 tau bt beta niterback accel, bw E -> complete E -> described E ->
  smooth_op proxf f df L -> impl_prox proxg g -> convex g -> closed g -> 0 < eps -> accel = Some "vandenberghe"%string \/ accel = Some "fista"%string ->
  let F := eadd (etot f) (escal eps g) in
  level_bounded F ->
  (exists t, tau = Some t /\ bt = false /\ 0 < t <= / L) \/
  (let tau0 := match tau with Some t => t | None => 1 end in bt = true /\ 0 < tau0 /\ 0 < beta <= 1 /\ (exists i, (i < niterback)%nat /\ tau0 * beta ^ i <= / L)) ->
  exists xs, (forall n, exists tr, ProximalGradient proxf proxg x0 [eps] tau bt beta 1 (S n) niterback accel None = Ok (xs n, tr)) /\
    (exists m, is_min F m) /\
    (forall d, 0 < d -> exists N, forall n, (N <= n)%nat -> exists z, is_min F z /\ norm (xs n [-] z) < d) /\
    (forall z, is_min F z -> (forall z', is_min F z' -> z' = z) -> vcv xs z).
Proof. exact C75_accelerated_l. Qed.
Print Assumptions C75_accelerated.

(** f = 2 x^2 (L = 4), g = 0, started at 1 without a step (backtracking from 1 with factor 1/2,
    10 trials): the vectors returned for niter = 1, 2, ... converge to 0; the same with
    acceleration 'fista' and 'vandenberghe' and backtracking *)
Example C75_backtracking_example :
  (exists xs, (forall n, exists tr, ProximalGradient (quad1 4) zero1 (1 : R_IPS) [1] None false (1/2) 1 (S n) 10 None None = Ok (xs n, tr)) /\ vcv xs (0 : R_IPS)) /\
  (forall a, a = "fista"%string \/ a = "vandenberghe"%string -> exists xs, (forall n, exists tr, ProximalGradient (quad1 4) zero1 (1 : R_IPS) [1] None true (1/2) 1 (S n) 10 (Some a) None = Ok (xs n, tr)) /\ vcv xs (0 : R_IPS)).
Proof. exact C75_backtracking_example_l. Qed.
