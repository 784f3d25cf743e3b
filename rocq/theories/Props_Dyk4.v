(** Property theorems for Dyk4: statements only; every proof is [exact] a lemma of P_Dyk4.v.
    Generated from the tagged lemmas of that file. *)
From Coq Require Import Psatz.
From Verif Require Import Base Space Spec SpecOps ConvexFacts VSum M_ProxOp M_Norms M_Loop LoopFacts LoopFacts2 SeqConv M_PG M_Multi M_Dyk P_PG3 P_Norms P_Split2 P_Multi P_Dyk P_Dyk3 P_Proj.
From Verif Require Import S_Dyk4.
From Verif Require Import P_Dyk4.
Open Scope result_scope.
Open Scope R_scope.


(** Sum of m functions computed in parallel, any positive weights, either step rule: the
    iterates follow the documented recursion with the weights divided by their sum, the
    weighted mean of the z_i equals the input at every iteration, at most niter iterations
    run and the loop ends at the first one whose x moved less than tol, and when all proxes
    of the last iteration agree with x it is the prox of sum_i c_i f_i, where c_i = tau *
    w_i / sum w with use_original_tau and tau / sum w without *)
Theorem C36_recursion : forall (E : IPS) (os : list (Op E)) (f : nat -> efun E) x0 tau weights par orig, let m := List.length os in let w := the_weights weights m in
  (2 < m)%nat \/ (m = 2%nat /\ par = true) -> weights_ok w m -> 0 < tau -> impl_all os f -> (forall i, (i < m)%nat -> convex (f i)) ->
  exists xs zs ps, par_seq m f (nweight w) (step_of orig tau w) x0 xs zs ps /\ (forall k, VS m (fun i => nweight w i [*] zs k i) = x0) /\
    forall amax niter tol, exists o k, sum_init os weights niter tol par orig = Ok o /\ snd (sum_prox amax o x0 tau) = Ok (xs k) /\
      stops_when (fun j => amax (xs j [-] xs (j - 1)%nat) < tol) niter k /\
      ((0 < k)%nat -> (forall i, (i < m)%nat -> ps (k - 1)%nat i = xs k) -> is_prox (esum m (fun i => escal (coef orig tau w i) (f i))) 1 x0 (xs k)).
Proof. exact C36_recursion_l. Qed.
Print Assumptions C36_recursion.

(** if z is the prox of sum_i c_i f_i at x0 with subgradients u_i of the f_i witnessing it, then
    with tol = 0 the result tends to z as niter grows and the squared errors of all iterates
    together stay bounded by an explicit constant; with tol > 0 the loop stops by itself *)
Theorem C36_converges : forall (E : IPS) (os : list (Op E)) (f : nat -> efun E) x0 tau weights par orig amax z u, let m := List.length os in let w := the_weights weights m in
  (2 < m)%nat \/ (m = 2%nat /\ par = true) -> weights_ok w m -> 0 < tau -> impl_all os f -> (forall i, (i < m)%nat -> convex (f i)) -> (forall v, 0 <= amax v <= norm v) ->
  par_split m f (coef orig tau w) x0 z u ->
  is_prox (esum m (fun i => escal (coef orig tau w i) (f i))) 1 x0 z /\
  exists xs, (forall n, RS n (fun k => norm2 (xs k [-] z)) <= RS m (fun i => nweight w i * norm2 (step_of orig tau w i [*] u i))) /\
    (forall niter, exists o, sum_init os weights niter 0 par orig = Ok o /\ snd (sum_prox amax o x0 tau) = Ok (xs niter)) /\
    (forall eps, 0 < eps -> exists N, forall niter, (N <= niter)%nat -> norm (xs niter [-] z) < eps) /\
    (forall tol, 0 < tol -> exists N, forall niter, (N <= niter)%nat -> exists o, sum_init os weights niter tol par orig = Ok o /\ snd (sum_prox amax o x0 tau) = Ok (xs N)).
Proof. exact C36_converges_l. Qed.
Print Assumptions C36_converges.

(** the documented prox of tau * sum_i w_i f_i is not what the default computes: for f_1 = f_2 =
    x^2/2 with the default weights 1/2 and tau = 1, for every niter >= 1 and tol the result
    is x0/3, while the documented value is x0/2; the same object with use_original_tau
    returns x0/2 *)
Theorem C36_weighted_refuted : forall amax niter tol (x0 : R), (1 <= niter)%nat ->
  let q := etot (E:=R_IPS) (fun x : R_IPS => 1 / 2 * (x * x)) in let os := [quad1 1; quad1 1] in
  impl_all os (fun _ => q) /\
  is_prox (esum 2 (fun i => escal (1 / 2) q)) 1 (x0 : R_IPS) (x0 / 2) /\
  (exists o, sum_init os NoWeights niter tol true false = Ok o /\ snd (sum_prox amax o (x0 : R_IPS) 1) = Ok (x0 / 3)) /\
  (exists o, sum_init os NoWeights niter tol true true = Ok o /\ snd (sum_prox amax o (x0 : R_IPS) 1) = Ok (x0 / 2)).
Proof. exact C36_weighted_refuted_l. Qed.
Print Assumptions C36_weighted_refuted.

(** a call of prox changes the object when the weights are a float array: with weights array([2,
    2]), two functions x^2/2, tau = 1 and niter = 1 the first call returns 2/3 of the input
    and overwrites the weights (also the caller's array) by (1/2, 1/2), the second call
    returns 1/3 of it *)
Theorem C36_array_weights_refuted : forall amax tol (x0 : R), let os := [quad1 1; quad1 1] in
  exists o o', sum_init os (ArrayWeights [2; 2]) 1 tol true false = Ok o /\ so_w o = [2; 2] /\
    sum_prox amax o (x0 : R_IPS) 1 = (o', Ok (2 / 3 * x0)) /\ so_w o' = [1 / 2; 1 / 2] /\
    sum_prox amax o' (x0 : R_IPS) 1 = (o', Ok (1 / 3 * x0)).
Proof. exact C36_array_weights_refuted_l. Qed.
Print Assumptions C36_array_weights_refuted.

(** a small move of x does not mean the computation is finished: for the indicator of {1} and
    f(x) = x, default weights, tau = 1/2 and the input 0, for every tol > 0 and niter >= 1
    the loop stops after one iteration and returns 0; the prox of the sum is 1 and calling
    the object on the result gives False *)
Theorem C36_stop_refuted : forall amax niter tol, (1 <= niter)%nat -> 0 < tol -> amax (0 : R_IPS) = 0 ->
  impl_all [at1; line1] at1_line1 /\ (forall i, convex (at1_line1 i)) /\ (forall z, is_prox (esum 2 at1_line1) (1 / 2) (0 : R_IPS) z <-> z = 1) /\
  exists o, sum_init [at1; line1] NoWeights niter tol true false = Ok o /\ snd (sum_prox amax o (0 : R_IPS) (1 / 2)) = Ok 0 /\ sum_call [at1; line1] (0 : R_IPS) = Ok (VBool false).
Proof. exact C36_stop_refuted_l. Qed.
Print Assumptions C36_stop_refuted.

(** as soon as one iteration runs, fewer weights than functions raise IndexError and more raise
    ValueError *)
Theorem C36_weight_count : forall (E : IPS) amax (os : list (Op E)) f w n tol par orig x0 tau, let m := List.length os in
  (2 < m)%nat \/ (m = 2%nat /\ par = true) -> impl_all os f -> 0 < tau -> (0 < List.length w)%nat -> (forall i, (i < List.length w)%nat -> 0 < nthr w i) ->
  exists o, sum_init os (ListWeights w) (S n) tol par orig = Ok o /\
    ((List.length w < m)%nat -> snd (sum_prox amax o x0 tau) = Err IndexError) /\ ((m < List.length w)%nat -> snd (sum_prox amax o x0 tau) = Err ValueError).
Proof. exact C36_weight_count_l. Qed.
Print Assumptions C36_weight_count.

(** two functions x^2/2 with the weights (1/4, 3/4) and tau = 1: all hypotheses hold; the split
    for the default rule is z = x0/3 with u_i = z *)
Example C36_example : forall x0 : R, let os := [quad1 1; quad1 1] in let q := etot (E:=R_IPS) (fun x : R_IPS => 1 / 2 * (x * x)) in let w := the_weights (ListWeights [1/4; 3/4]) 2 in
  weights_ok w 2 /\ impl_all os (fun _ => q) /\ convex q /\
  par_split 2 (fun _ => q) (coef false 1 w) (x0 : R_IPS) (x0 / 3) (fun _ => x0 / 3 : R_IPS) /\ par_split 2 (fun _ => q) (coef true 1 w) (x0 : R_IPS) (x0 / 2) (fun _ => x0 / 2 : R_IPS).
Proof. exact C36_example_l. Qed.
