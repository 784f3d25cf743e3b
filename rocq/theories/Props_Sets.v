(** Property theorems for Sets: statements only; every proof is [exact] a lemma of P_Sets.v.
    Generated from the tagged lemmas of that file. *)
From Verif Require Import Base Space Spec SpecOps ConvexFacts Sep M_ProxOp P_ProxOp M_Norms P_Norms M_L1 P_L1 MatFacts VSum M_Proj P_Proj P_Proj2 P_Proj3 M_L0 P_Hankel P_Seg.
From Coq Require Import Psatz.
From Verif Require Import S_Sets.
From Verif Require Import P_Sets.
Open Scope result_scope.



(** Box (lower <= upper), HalfSpace (w <> 0), EuclideanBall (radius > 0), AffineSet (whose inner
    solver solves the normal equations) and Hankel are projection operators on their convex
    sets: non-positive steps raise ValueError; for all positive steps prox is one and the
    same map, which sends every x to the nearest point of the set, is accepted by the
    operator's own call, changes nothing the second time, fixes exactly the points of the
    set, and is firmly non-expansive and 1-Lipschitz *)
Theorem C67_projections : forall fuel,
  (forall n (lu : nlist bounds n), Forall bounds_ok (proj1_sig lu) ->
     let o := obj (S fuel) (box_body lu) in projects (o_prox o) (yes o) (box_set lu)) /\
  (forall (E : IPS) (w : E) b, w <> vzero ->
     let o := obj (S fuel) (halfspace_body w b) in projects (o_prox o) (yes o) (fun x => << w, x >> <= b)) /\
  (forall (E : IPS) (c : E) r, 0 < r ->
     let o := obj (S fuel) (ball_body c r) in projects (o_prox o) (yes o) (fun x => norm (x [-] c) <= r)) /\
  (forall (E F : IPS) close cg (A : linop E F) b,
     (forall x, A (ladj A (cg (fun v => A (ladj A v)) (A x [-] b))) = A x [-] b) -> (forall y, close y y = true) ->
     let o := obj (S fuel) (affine_body close cg A b) in projects (o_prox o) (yes o) (fun y => A y = b)) /\
  (forall m n, projects (@hankel_prox m n) (fun x => hankel_call x = true) hankel_mat).
Proof. exact C67_projections_l. Qed.
Print Assumptions C67_projections.

(** the dual prox of Euclidean (sigma > 0) obeys the same laws for the ball of radius sigma *)
Theorem C67_dual_balls : forall fuel (E : IPS) sigma, 0 < sigma ->
  projects (o_proxdual (obj (S fuel) (euclid_body (E:=E) sigma))) (fun z => norm z <= sigma) (fun z => norm z <= sigma).
Proof. exact C67_dual_balls_l. Qed.
Print Assumptions C67_dual_balls.

(** Simplex obeys the same laws up to the accuracy e(x) of its root search, all lengths, radii
    and options: whenever it returns, results are accepted by the operator's own call as
    soon as n (xtol + ...) <= tol; two results are at most |x1 - x2| + e(x1) + e(x2) apart;
    projecting a result y again (any accuracy) moves it by at most e(x) + e(y); tau plays no
    role *)
Theorem C67_simplex : forall n radius maxiter xtol fuel tol (x1 x2 y1 y2 : Vec n) t1 t2,
  let prox := simplex_prox1 (simplex_proj radius maxiter xtol fuel) in
  prox x1 t1 = Ok y1 -> 0 < t2 ->
  exists p1, is_proj (simplex_set radius) x1 p1 /\ norm (y1 [-] p1) <= search_err xtol x1 p1 /\
    (INR n * (xtol + bisect_rtol * Rmax 1 (2 * RS n (fun i => Rabs (get p1 i - get x1 i)))) <= tol -> simplex_call1 radius tol y1 = true) /\
    prox x1 t2 = Ok y1 /\
    (prox x2 t2 = Ok y2 -> exists p2, is_proj (simplex_set radius) x2 p2 /\ norm (y1 [-] y2) <= norm (x1 [-] x2) + search_err xtol x1 p1 + search_err xtol x2 p2) /\
    (prox y1 t2 = Ok y2 -> exists p2, is_proj (simplex_set radius) y1 p2 /\ norm (y2 [-] y1) <= search_err xtol x1 p1 + search_err xtol y1 p2).
Proof. exact C67_simplex_l. Qed.
Print Assumptions C67_simplex.

(** L1Ball is not a projection operator in this sense: its prox expands distances, two points 1
    apart are sent to points 2 apart (radius 1, single-entry arrays 1/2 and -1/2, any
    maxiter >= 2 and xtol < 1/2), although both are in the ball and accepted by its call *)
Theorem C67_l1ball_refuted : forall maxiter xtol fuel tau tol, (0 < fuel)%nat -> (2 <= maxiter)%nat -> 0 < xtol < 1 / 2 -> 0 < tau -> 0 < tol ->
  exists x1 x2 p1 p2 : Vec 1, l1ball_call 1 tol x1 = true /\ l1ball_call 1 tol x2 = true /\
    l1ball_prox 1 maxiter xtol fuel x1 tau = Ok p1 /\ l1ball_prox 1 maxiter xtol fuel x2 tau = Ok p2 /\
    norm (p1 [-] p2) = 2 * norm (x1 [-] x2) /\ 0 < norm (x1 [-] x2).
Proof. exact C67_l1ball_refuted_l. Qed.
Print Assumptions C67_l1ball_refuted.

(** a box, a half-space, a ball and an affine set meeting the hypotheses *)
Example C67_example :
  Forall bounds_ok (proj1_sig (nl [(Some 0, Some 1); (Some 2, None)] : nlist bounds 2)) /\ (2 : R_IPS) <> vzero /\
  (exists (A : linop (Prod_IPS R_IPS R_IPS) R_IPS) (cg : (R_IPS -> R_IPS) -> R_IPS -> R_IPS),
     forall x, A (ladj A (cg (fun v => A (ladj A v)) (A x [-] (3 : R_IPS)))) = A x [-] (3 : R_IPS)).
Proof. exact C67_example_l. Qed.
