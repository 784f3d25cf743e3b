(** Property theorems for Proj3: statements only; every proof is [exact] a lemma of P_Proj3.v.
    Generated from the tagged lemmas of that file. *)
From Verif Require Import Base Space Spec SpecOps ConvexFacts M_ProxOp M_L1 P_L1 MatFacts VSum M_Proj P_Proj P_Proj2 SeqFacts.
From Coq Require Import Psatz.
From Verif Require Import S_Proj3.
From Verif Require Import P_Proj3.
Open Scope result_scope.


(** inputs outside or on the ball (sum |x_i| >= radius), all lengths: whenever L1Ball.prox
    returns y, y is within sqrt n (xtol + rtol max(1, 2 sum_i |p_i - x_i|)) of the Euclidean
    projection p on {sum |x_i| <= radius}. Inputs strictly inside the ball: see the next
    theorems *)
Theorem C24_outside : forall n radius maxiter xtol fuel (x y : Vec n) tau, (0 < n)%nat -> radius <= RS n (fun i => Rabs (get x i)) ->
  l1ball_prox radius maxiter xtol fuel x tau = Ok y ->
  exists p, is_proj (l1_ball radius) x p /\ norm (y [-] p) <= (xtol + bisect_rtol * Rmax 1 (2 * RS n (fun i => Rabs (get p i - get x i)))) * sqrt (INR n).
Proof. exact C24_outside_l. Qed.
Print Assumptions C24_outside.

(** points strictly inside the ball are moved to its boundary: for radius 1 the prox of the
    single-entry array (1/2) is (1), although (1/2) is in the ball, accepted by the
    operator's own call and so its own projection *)
Theorem C24_inside_refuted : forall maxiter xtol fuel tau tol, (0 < fuel)%nat -> (2 <= maxiter)%nat -> 0 < xtol < 1 / 2 -> 0 < tau -> 0 < tol ->
  l1ball_prox 1 maxiter xtol fuel half1 tau = Ok (vtab 1 (fun _ => 1)) /\ l1ball_call 1 tol half1 = true /\ is_proj (l1_ball 1) half1 half1 /\ ~ is_proj (l1_ball 1) half1 (vtab 1 (fun _ => 1)).
Proof. exact C24_inside_refuted_l. Qed.
Print Assumptions C24_inside_refuted.

(** more generally any input without zero entries, however small, is sent, up to the accuracy n
    (xtol + rtol max(1, 2 sum_i |p_i - |x_i||)) of the search, to the sphere sum |x_i| =
    radius *)
Theorem C24_moved_refuted : forall n radius maxiter xtol fuel (x y : Vec n) tau, (forall i, (i < n)%nat -> get x i <> 0) ->
  l1ball_prox radius maxiter xtol fuel x tau = Ok y -> exists p, is_proj (simplex_set radius) (absv x) p /\
    Rabs (RS n (fun i => Rabs (get y i)) - radius) <= INR n * (xtol + bisect_rtol * Rmax 1 (2 * RS n (fun i => Rabs (get p i - Rabs (get x i))))).
Proof. exact C24_moved_refuted_l. Qed.
Print Assumptions C24_moved_refuted.

(** L1Ball's call accepts x exactly when sum |x_i| < radius + tol *)
Theorem C24_call : forall n radius tol (x : Vec n), l1ball_call radius tol x = true <-> RS n (fun i => Rabs (get x i)) < radius + tol.
Proof. exact C24_call_l. Qed.
Print Assumptions C24_call.

(** an input on the sphere: half1 with radius 1/2 meets the hypotheses of C24_outside (n = 1,
    sum |x| >= radius, and the prox returns) *)
Example C24_example : (0 < 1)%nat /\ 1 / 2 <= RS 1 (fun i => Rabs (get half1 i)) /\ exists fuel maxiter y, l1ball_prox (1 / 2) maxiter 1 fuel half1 1 = Ok y.
Proof. exact C24_example_l. Qed.

(** the simplex projection of (1/2) on {sum = 1, >= 0} runs and returns (1): the hypotheses of
    C23_result and C23_simplex hold *)
Example C23_example : lu_ok 1 nonneg_bounds /\ simplex_proj 1 100 (1 / 100000) 5 half1 = Ok (vtab 1 (fun _ => 1)) /\ (exists z : Vec 3, hp_set (ones 3) 2 nonneg_bounds z) /\
  (forall z : Vec 3, ~ hp_set (ones 3) (-2) nonneg_bounds z).
Proof. exact C23_example_l. Qed.
