(** Property theorems for Proj: statements only; every proof is [exact] a lemma of P_Proj.v.
    Generated from the tagged lemmas of that file. *)
From Verif Require Import Base Space Spec SpecOps ConvexFacts M_ProxOp M_L1 P_L1 MatFacts VSum M_Proj SeqFacts.
From Coq Require Import Psatz.
From Verif Require Import S_Proj.
From Verif Require Import P_Proj.
Open Scope result_scope.


(** bounds with lower <= upper, any x, coefficients, scalar: whenever HyperPlaneBoxProj returns
    y, the set {c.y = s, l <= y <= u} is not empty, y = box(x - mu c) for some mu, y
    respects the bounds and is within (xtol + rtol max(1, 2 sum_i |p_i - x_i|/|c_i|)) |c| of
    the Euclidean projection p of x (sum over c_i <> 0), where rtol = 4 eps is that of the
    root search *)
Theorem C23_result : forall n (c : Vec n) s lu (x y : Vec n) maxiter xtol fuel, lu_ok n lu -> hp_proj c s lu maxiter xtol fuel x = Ok y ->
  exists p, is_proj (hp_set c s lu) x p /\ (exists mu, y = boxv lu (x [-] mu [*] c)) /\ (forall i, (i < n)%nat -> within (lu i) (get y i)) /\
    norm (y [-] p) <= (xtol + bisect_rtol * Rmax 1 (2 * RS n (fun i => if Req_EM_T (get c i) 0 then 0 else Rabs (get p i - get x i) / Rabs (get c i)))) * norm c.
Proof. exact C23_result_l. Qed.
Print Assumptions C23_result.

(** when the set is not empty the bracketing loops end for every x (all large enough fuels give
    the same kind of outcome), and with xtol > 0 and enough bisection steps for the bracket
    HyperPlaneBoxProj returns *)
Theorem C23_terminates : forall n (c : Vec n) s lu (x : Vec n), lu_ok n lu -> (exists z, hp_set c s lu z) ->
  exists N, forall fuel, (N <= fuel)%nat -> exists lo hi, hp_bracket (hp_fun c s lu x) fuel = Ok (lo, hi) /\
    forall xtol maxiter, 0 < xtol -> (0 < maxiter)%nat -> hi - lo < xtol * 2 ^ maxiter -> exists y, hp_proj c s lu maxiter xtol fuel x = Ok y.
Proof. exact C23_terminates_l. Qed.
Print Assumptions C23_terminates.

(** when the set is empty the call never returns nor raises: for every fuel the bracketing loops
    are still running *)
Theorem C23_infeasible_refuted : forall n (c : Vec n) s lu (x : Vec n), lu_ok n lu -> (forall z, ~ hp_set c s lu z) ->
  forall maxiter xtol fuel, hp_proj c s lu maxiter xtol fuel x = Err Diverges.
Proof. exact C23_infeasible_refuted_l. Qed.
Print Assumptions C23_infeasible_refuted.
