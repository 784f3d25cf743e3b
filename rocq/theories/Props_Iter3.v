(** Property theorems for Iter3: statements only; every proof is [exact] a lemma of P_Iter3.v.
    Generated from the tagged lemmas of that file. *)
From Coq Require Import String Psatz.
From Verif Require Import Base Space Spec Cplx ConvexFacts Smooth VSum M_ProxOp SpecOps P_ProxOp M_Norms P_Norms M_Loop LoopFacts LoopFacts2 SeqFacts M_PG M_Split M_PD M_Multi SplitMath P_PG P_PG2 P_PG3 P_Split P_Split2 P_Split3 P_PD P_PD2 P_Multi P_Multi2 P_Multi3 S_Seq Compact Fejer IterMath IterMath2 IterMath3 P_Iter P_Iter2.
From Verif Require Import P_Iter3.
Open Scope result_scope.
Open Scope R_scope.


(** m >= 1 convex functions, admissible weights (given or default), a common initial vector or
    (default weights) one per function, tau > 0, 0 < eta < 2, finite dimension, and some
    point is a solution with multipliers: there is one sequence x_0, x_1, ... converging to
    a minimiser of the sum such that, for every niter and every tol, PPXA returns x_k, where
    k is the first iteration whose change is below tol (niter if there is none) *)
Theorem C75_ppxa : forall (E : IPS) (os : list (Op E)) (f : nat -> efun E) x0 tau eta weights, bw E ->
  let m := List.length os in
  impl_all os f -> (forall i, (i < m)%nat -> convex (f i)) -> (0 < m)%nat -> 0 < tau -> 0 < eta < 2 ->
  good_weights weights m -> ppxa_start_ok x0 weights m -> (exists xo v, sum_kkt m f xo v) ->
  exists xs xl, (forall niter amax t, exists k, PPXA os x0 tau eta weights niter amax (Some t) = Ok (xs k, map xs (seq 1 k)) /\
       stops_when (fun j => amax (xs j [-] xs (j - 1)%nat) < t) niter k) /\
    is_min (esum m f) xl /\ vcv xs xl.
Proof. exact C75_ppxa_l. Qed.
Print Assumptions C75_ppxa.

(** m >= 1 convex functions, any start and tau > 0, finite dimension, and some point is a
    solution with multipliers: there is one sequence x_0, x_1, ... converging to a minimiser
    of the sum such that, for every niter and every tol, ConsensusADMM returns x_k, where k
    is the first iteration whose change is below tol (niter if there is none) *)
Theorem C75_consensus_admm : forall (E : IPS) (os : list (Op E)) (f : nat -> efun E) x0 tau, bw E -> let m := List.length os in
  impl_all os f -> (forall i, (i < m)%nat -> convex (f i)) -> (0 < m)%nat -> 0 < tau -> (exists xo v, sum_kkt m f xo v) ->
  exists xs xl, (forall niter amax t, exists k, ConsensusADMM os x0 tau niter amax (Some t) = Ok (xs k, map xs (seq 1 k)) /\
       stops_when (fun j => amax (xs j [-] xs (j - 1)%nat) < t) niter k) /\
    is_min (esum m f) xl /\ vcv xs xl.
Proof. exact C75_consensus_admm_l. Qed.
Print Assumptions C75_consensus_admm.

(** smooth convex f_i (total Lipschitz constant at most L), m >= 1 convex g_j, positive eps_j,
    admissible weights, no acceleration, 0 < eta < 2 - tau L/2, finite dimension, and some
    point is a solution with multipliers: the vectors returned by
    GeneralizedProximalGradient with niter = 0, 1, 2, ... converge to a minimiser of sum f_i
    + sum eps_j g_j *)
Theorem C75_gpg : forall (E : IPS) (fs gs : list (Op E)) f df L Lt (g : nat -> efun E) x0 tau epsg weights eta accel, bw E ->
  let m := List.length gs in let nf := List.length fs in
  let eps := nthr (gpg_eps epsg m) in let t := match tau with None => 1 | Some t => t end in
  let F := fun x => RS nf (fun i => f i x) in let dF := fun x => VS nf (fun i => df i x) in
  smooth_all fs f df L -> RS nf L <= Lt -> 0 < Lt -> impl_all gs g -> (forall i, (i < m)%nat -> convex (g i)) -> (0 < m)%nat -> 0 < t -> 0 < eta < 2 - t * Lt / 2 ->
  good_weights weights m -> List.length (gpg_eps epsg m) = m -> (forall i, (i < m)%nat -> 0 < eps i) -> accel = None \/ accel = Some "None"%string ->
  (exists xo v, gpg_kkt m g dF eps xo v) ->
  exists xs xl, (forall niter, GeneralizedProximalGradient fs gs x0 tau epsg weights eta niter accel = Ok (xs niter, map xs (seq 1 niter))) /\
    is_min (eadd (etot F) (esum m (fun i => escal (eps i) (g i)))) xl /\ vcv xs xl.
Proof. exact C75_gpg_l. Qed.
Print Assumptions C75_gpg.

(** f = (x-1)^2/2 and g = x^2/2 on the real line, started at 3: the theorems apply, and ADMM,
    Douglas-Rachford, linearised ADMM (A = identity, tau = 1, mu = 1/2), PPXA (weights 1/4,
    3/4) and ConsensusADMM all converge to 1/2; ProximalPoint on f converges to 1;
    PrimalDual with g(A x), A = multiplication by 1/2, converges to (4/5, 2/5) *)
Example C75_example :
  (exists xs zs : nat -> R_IPS, (forall n, exists tr, ADMM shifted1 (quad1 1) None 1 n (Some 3) false = Ok (xs n, zs n, tr)) /\ vcv xs (1/2 : R_IPS) /\ vcv zs (1/2 : R_IPS)) /\
  (exists xs ys : nat -> R_IPS, (forall n, exists tr, DouglasRachford shifted1 (quad1 1) 3 1 1 (S n) true = Ok (xs n, ys n, tr)) /\ vcv xs (1/2 : R_IPS)) /\
  (exists xs zs : nat -> R_IPS, (forall n, exists tr, LinearizedADMM shifted1 (quad1 1) (id_linop R_IPS) (Some 3) 1 (1/2) n None = Ok (xs n, zs n, tr)) /\ vcv xs (1/2 : R_IPS)) /\
  (exists xs : nat -> R_IPS, (forall niter amax t, exists k, PPXA [shifted1; quad1 1] (Common (3 : R_IPS)) 1 1 (Some [1/4; 3/4]) niter amax (Some t) = Ok (xs k, map xs (seq 1 k)) /\
       stops_when (fun j => amax (xs j [-] xs (j - 1)%nat) < t) niter k) /\ vcv xs (1/2 : R_IPS)) /\
  (exists xs : nat -> R_IPS, (forall niter amax t, exists k, ConsensusADMM [shifted1; quad1 1] 3 1 niter amax (Some t) = Ok (xs k, map xs (seq 1 k)) /\
       stops_when (fun j => amax (xs j [-] xs (j - 1)%nat) < t) niter k) /\ vcv xs (1/2 : R_IPS)) /\
  (exists xs : nat -> R_IPS, (forall n, ProximalPoint shifted1 3 1 n None = Ok (xs n, map xs (seq 1 n))) /\ vcv xs (1 : R_IPS)) /\
  (exists xs ys : nat -> R_IPS, (forall n, exists tr, PrimalDual shifted1 half1 (scal_linop R_IPS (1/2)) None 3 (Scalar 1) (Scalar 1) None None 1 n true = Ok (xs n, ys n, tr)) /\ vcv xs (4/5 : R_IPS)).
Proof. exact C75_example_l. Qed.
