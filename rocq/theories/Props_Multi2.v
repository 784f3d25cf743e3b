(** Property theorems for Multi2: statements only; every proof is [exact] a lemma of P_Multi2.v.
    Generated from the tagged lemmas of that file. *)
From Coq Require Import Psatz String.
From Verif Require Import Base Space Spec VSum ConvexFacts Smooth M_ProxOp SpecOps P_ProxOp M_Norms P_Norms M_Loop LoopFacts LoopFacts2 SeqFacts M_PG M_Multi SplitMath P_PG2 P_PG3 P_Split2 P_Split3 P_Multi.
From Verif Require Import S_Multi2.
From Verif Require Import P_Multi2.
Open Scope result_scope.
Open Scope R_scope.


(** stopping by tol does not certify a minimiser: f1 = (x-1)^2/2, f2 = 3x^2/2, common start 2/5,
    tau = 1/2, eta = 1, default weights: for every tol > 0 and niter >= 1 PPXA stops after
    one iteration and returns 2/5; the only minimiser is 1/4 *)
Theorem C53_early_stop_refuted : forall n amax t, amax (0 : R_IPS) = 0 -> 0 < t ->
  impl_all [shifted1; quad1 3] (sh_quad 3) /\
  PPXA [shifted1; quad1 3] (Common (2/5 : R_IPS)) (1/2) 1 None (S n) amax (Some t) = Ok (2/5, [2/5]) /\
  (forall x, is_min (esum 2 (sh_quad 3)) x <-> x = 1/4).
Proof. exact C53_early_stop_refuted_l. Qed.
Print Assumptions C53_early_stop_refuted.

(** with tol left at None every run with at least one iteration and working proxes raises
    TypeError *)
Theorem C53_no_tol_raises : forall (E : IPS) (os : list (Op E)) f x0 tau eta weights n amax, let m := List.length os in
  impl_all os f -> (0 < m)%nat -> 0 < tau -> good_weights weights m ->
  (match x0 with Common _ => True | PerFun l => List.length l = m end) ->
  PPXA os x0 tau eta weights (S n) amax None = Err TypeError.
Proof. exact C53_no_tol_raises_l. Qed.
Print Assumptions C53_no_tol_raises.

(** two quadratics with weights (1/4, 3/4) meet the hypotheses of C53_ppxa, with solution 1/2 *)
Example C53_example : let m := List.length [shifted1; quad1 1] in
  impl_all [shifted1; quad1 1] (sh_quad 1) /\ (forall i, (i < m)%nat -> convex (sh_quad 1 i)) /\ (0 < m)%nat /\
  good_weights (Some [1/4; 3/4]) m /\ ppxa_start_ok (Common (7 : R_IPS)) (Some [1/4; 3/4]) m /\
  sum_kkt m (sh_quad 1) (1/2 : R_IPS) (fun i => match i with O => -(1/2) | _ => 1/2 end).
Proof. exact C53_example_l. Qed.

(** m >= 1 convex functions, any start and tau > 0, tol given. The run never raises, follows the
    documented recursion, stops at the first iteration where the largest change of xbar is
    below tol (else at niter); the dual variables always sum to zero; an iteration leaving
    xbar and all duals unchanged has all local copies equal to xbar and xbar minimises the
    sum; for every solution with multipliers v_i, V_k = m |xbar_k - xo|^2 + sum_i |y_i + tau
    v_i|^2 decreases at every iteration by at least m |xbar' - xbar|^2 + sum_i |u_i -
    xbar'|^2 (u_i the local copies) *)
Theorem C54_consensus_admm : forall (E : IPS) (os : list (Op E)) (f : nat -> efun E) x0 tau niter amax t, let m := List.length os in
  impl_all os f -> (forall i, (i < m)%nat -> convex (f i)) -> (0 < m)%nat -> 0 < tau ->
  exists xs ys us k, ConsensusADMM os x0 tau niter amax (Some t) = Ok (xs k, map xs (seq 1 k)) /\
    xs 0%nat = x0 /\ (forall i, (i < m)%nat -> ys 0%nat i = vzero) /\
    consensus_doc m f tau xs ys us k /\ stops_when (fun j => amax (xs j [-] xs (j - 1)%nat) < t) niter k /\
    (forall j, (j <= k)%nat -> VS m (ys j) = vzero) /\
    (forall j, (j < k)%nat -> xs (S j) = xs j -> (forall i, (i < m)%nat -> ys (S j) i = ys j i) ->
       (forall i, (i < m)%nat -> us j i = xs j) /\ is_min (esum m f) (xs j)) /\
    forall xo v, sum_kkt m f xo v -> let V := fun j => INR m * norm2 (xs j [-] xo) + RS m (fun i => norm2 (ys j i [+] tau [*] v i)) in
      forall j, (j < k)%nat -> V (S j) + (INR m * norm2 (xs (S j) [-] xs j) + RS m (fun i => norm2 (us j i [-] xs (S j)))) <= V j.
Proof. exact C54_consensus_admm_l. Qed.
Print Assumptions C54_consensus_admm.

(** stopping by tol does not certify near optimality: f1 = (x-1)^2/2, f2 = 3x^2/2, start 2/5,
    tau = 1: for every tol > 0 and niter >= 1 ConsensusADMM stops after one iteration and
    returns 2/5; the only minimiser is 1/4 *)
Theorem C54_early_stop_refuted : forall n amax t, amax (0 : R_IPS) = 0 -> 0 < t ->
  impl_all [shifted1; quad1 3] (sh_quad 3) /\
  ConsensusADMM [shifted1; quad1 3] (2/5 : R_IPS) 1 (S n) amax (Some t) = Ok (2/5, [2/5]) /\
  (forall x, is_min (esum 2 (sh_quad 3)) x <-> x = 1/4).
Proof. exact C54_early_stop_refuted_l. Qed.
Print Assumptions C54_early_stop_refuted.

(** with tol left at None every run with at least one function, one iteration and working proxes
    raises TypeError *)
Theorem C54_no_tol_raises : forall (E : IPS) (os : list (Op E)) f x0 tau n amax, impl_all os f -> (0 < List.length os)%nat -> 0 < tau ->
  ConsensusADMM os x0 tau (S n) amax None = Err TypeError.
Proof. exact C54_no_tol_raises_l. Qed.
Print Assumptions C54_no_tol_raises.

(** two quadratics on the real line meet the hypotheses of C54_consensus_admm *)
Example C54_example : let m := List.length [shifted1; quad1 3] in
  impl_all [shifted1; quad1 3] (sh_quad 3) /\ (forall i, (i < m)%nat -> convex (sh_quad 3 i)) /\ (0 < m)%nat /\
  sum_kkt m (sh_quad 3) (/ (1 + 3) : R_IPS) (fun i => match i with O => -(3/(1+3)) | _ => 3/(1+3) end).
Proof. exact C54_example_l. Qed.
