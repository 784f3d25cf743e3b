(** Property theorems for Cx5: statements only; every proof is [exact] a lemma of P_Cx5.v.
    Generated from the tagged lemmas of that file. *)
From Coq Require Import Psatz ZArith Permutation Sorted.
From Verif Require Import Base Space Spec SpecOps ConvexFacts Sep VSum MatFacts Cplx M_ProxOp M_L1 M_Proj M_L0 M_Cx P_Proj P_Proj2 P_Proj3 P_L0 DFT P_Conv P_Cx P_ProxOp P_Cx2.
From Verif Require Import S_Cx S_Proj S_L0.
From Verif Require Import P_Cx5.
Open Scope result_scope.


(** L1Ball.prox on a complex array outside or on the ball sum |x_i| <= radius: whenever it
    returns y, y is within sqrt n (xtol + rtol max(1, 2 sum_i |p_i - x_i|)) of the Euclidean
    projection p on that ball *)
Theorem C80_l1_ball : forall n radius maxiter xtol fuel (x y : CArr n) tau, radius <= RS n (fun i => cmod (cg x i)) ->
  l1ballc_prox radius maxiter xtol fuel x tau = Ok y ->
  exists p : CArr n, is_proj (cl1_ball radius) x p /\ norm (y [-] p) <= (xtol + bisect_rtol * Rmax 1 (2 * RS n (fun i => cmod (csub (cg p i) (cg x i))))) * sqrt (INR n).
Proof. exact C80_l1_ball_l. Qed.
Print Assumptions C80_l1_ball.

(** L0Ball.prox on complex arrays, every positive radius, whatever order argsort picks among
    ties: a Euclidean projection on {at most radius non-zero entries}, and the next call
    accepts it *)
Theorem C80_l0_ball : forall argsort, argsort_ok argsort -> forall n (rad : nat -> Z) count (x : CArr n) tau, 0 < tau -> (0 < rad (S count))%Z ->
  exists y, l0ballc_prox argsort rad count x tau = (S count, Ok y) /\
    is_proj (cl0_ball (Z.to_nat (rad (S count)))) x y /\ l0ballc_call rad (S count) y = true.
Proof. exact C80_l0_ball_l. Qed.
Print Assumptions C80_l0_ball.
