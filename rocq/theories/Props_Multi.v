(** Property theorems for Multi: statements only; every proof is [exact] a lemma of P_Multi.v.
    Generated from the tagged lemmas of that file. *)
From Coq Require Import Psatz String.
From Verif Require Import Base Space Spec VSum ConvexFacts Smooth M_ProxOp SpecOps P_ProxOp M_Norms P_Norms M_Loop LoopFacts LoopFacts2 SeqFacts M_PG M_Multi SplitMath P_PG2 P_PG3 P_Split2 P_Split3.
From Verif Require Import S_Multi.
From Verif Require Import P_Multi.
Open Scope result_scope.
Open Scope R_scope.



(** m >= 1 convex functions, admissible weights (given or default), a common initial vector or,
    with the default weights, one per function; tau > 0, 0 < eta < 2, tol given. The run
    never raises, follows the documented recursion, stops at the first iteration where the
    largest change is below tol (else at niter); an iteration that leaves every y_i
    unchanged is at a minimiser of the sum; for every solution xo with multipliers v_i, D_k
    = sum_i w_i |y_i - xo - (tau/w_i) v_i|^2 bounds |x_k - xo|^2, and decreases by
    eta(2-eta) sum_i w_i |2p - x - p_i|^2 >= (2-eta)/eta |x_(k+1) - x_k|^2 *)
Theorem C53_ppxa : forall (E : IPS) (os : list (Op E)) (f : nat -> efun E) x0 tau eta weights niter amax t,
  let m := List.length os in let w := nthr (ppxa_weights weights m) in
  impl_all os f -> (forall i, (i < m)%nat -> convex (f i)) -> (0 < m)%nat -> 0 < tau -> 0 < eta < 2 ->
  good_weights weights m -> ppxa_start_ok x0 weights m ->
  exists xs ys ps k, PPXA os x0 tau eta weights niter amax (Some t) = Ok (xs k, map xs (seq 1 k)) /\
    (forall i, (i < m)%nat -> ys 0%nat i = nthv (ppxa_ys0 x0 m) i) /\ xs 0%nat = VS m (fun i => w i [*] ys 0%nat i) /\
    ppxa_doc m f w tau eta xs ys ps k /\ stops_when (fun j => amax (xs j [-] xs (j - 1)%nat) < t) niter k /\
    (forall j, (j < k)%nat -> (forall i, (i < m)%nat -> ys (S j) i = ys j i) -> is_min (esum m f) (xs j)) /\
    forall xo v, sum_kkt m f xo v -> let D := fun j => RS m (fun i => w i * norm2 (ys j i [-] (xo [+] (tau / w i) [*] v i))) in
      (forall j, (j <= k)%nat -> norm2 (xs j [-] xo) <= D j) /\
      (forall j, (j < k)%nat -> D (S j) + (2 - eta) / eta * norm2 (xs (S j) [-] xs j) <= D j).
Proof. exact C53_ppxa_l. Qed.
Print Assumptions C53_ppxa.

(** with one initial vector per function and non-uniform admissible weights PPXA starts from the
    unweighted mean and converges to a wrong point: f1 = (x-1)^2/2, f2 = x^2/2, w = (1/4,
    3/4), tau = eta = 1, x0 = (-1/4, 7/4): for every niter >= 1 it returns 3/4 while the
    only minimiser is 1/2 *)
Theorem C53_per_function_weights_refuted : forall n amax t,
  let fs := fun i => match i with O => etot (E:=R_IPS) (fun x : R_IPS => 1 / 2 * ((x - 1) * (x - 1))) | _ => etot (E:=R_IPS) (fun x : R_IPS => 1 / 2 * (x * x)) end in
  impl_all [shifted1; quad1 1] fs /\
  (exists tr, PPXA [shifted1; quad1 1] (PerFun [-(1/4) : R_IPS; 7/4]) 1 1 (Some [1/4; 3/4]) (S n) amax (Some t) = Ok (3/4, tr)) /\
  (forall x, is_min (esum 2 fs) x <-> x = 1/2).
Proof. exact C53_per_function_weights_refuted_l. Qed.
Print Assumptions C53_per_function_weights_refuted.
