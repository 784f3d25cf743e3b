(** Property theorems for Growth: statements only; every proof is [exact] a lemma of P_Growth.v.
    Generated from the tagged lemmas of that file. *)
From Coq Require Import String Psatz.
From Verif Require Import Base Space Spec ConvexFacts Smooth VSum MatFacts Sep M_ProxOp SpecOps P_ProxOp M_Norms P_Norms M_L1 M_L2 P_L1 P_L2 P_L21 M_Objs S_L1 S_Lasso P_Lasso M_Loop LoopFacts SeqFacts M_PG SplitMath S_PG P_PG P_PG2 S_PG2 P_Pnp P_Incons P_Sparse P_Sharp.
From Verif Require Import S_Growth.
From Verif Require Import P_Growth.
Open Scope result_scope.
Open Scope R_scope.


(** f convex, not necessarily strongly, with any number of minimisers, growing at least like
    mu/2 times the squared distance from them: after k iterations of ProximalPoint some
    minimiser z has (1 + tau mu/2)^k |x - z| <= |x0 - z0| for every minimiser z0 *)
Theorem C111_proximal_point : forall (E : IPS) (o : Op E) (f : efun E) mu x0 tau k, impl_prox o f -> convex f -> 0 < tau -> 0 < mu -> quad_growth f mu ->
  exists x tr, ProximalPoint o x0 tau k None = Ok (x, tr) /\ forall z0, is_min f z0 -> exists z, is_min f z /\ (1 + tau * mu / 2) ^ k * norm (x [-] z) <= norm (x0 [-] z0).
Proof. exact C111_proximal_point_l. Qed.
Print Assumptions C111_proximal_point.

(** the same for ProximalGradient on f + e g with 0 < tau <= 1/L, without relaxation and
    acceleration: after k iterations some minimiser z has (1 + tau mu)^k |x - z|^2 <= |x0 -
    z0|^2 for every minimiser z0, and the objective is within |x0 - z0|^2/(2 tau (1 + tau
    mu)^(k-1)) of its minimum *)
Theorem C111_proximal_gradient : forall (E : IPS) (of og : Op E) f df L (g : efun E) e mu x0 tau beta niterback accel k,
  smooth_op of f df L -> impl_prox og g -> convex g -> 0 < e -> 0 < tau -> tau * L <= 1 -> accel = None \/ accel = Some "None"%string -> 0 < mu -> let F := eadd (etot f) (escal e g) in quad_growth F mu ->
  exists x tr, ProximalGradient of og x0 [e] (Some tau) false beta 1 (S k) niterback accel None = Ok (x, tr) /\
    forall z0, is_min F z0 -> eval F x - eval F z0 <= norm2 (x0 [-] z0) / (2 * tau * (1 + tau * mu) ^ k) /\ exists z, is_min F z /\ (1 + tau * mu) ^ S k * norm2 (x [-] z) <= norm2 (x0 [-] z0).
Proof. exact C111_proximal_gradient_l. Qed.
Print Assumptions C111_proximal_gradient.

(** restarting the accelerated ProximalGradient ('fista' or 'vandenberghe', eta = 1, 0 < tau <=
    1/L) every N iterations from the vector it returned, with 8 <= tau mu (N+1)^2: each run
    at least halves the distance of the objective from its minimum, and after r runs some
    minimiser z has mu/2 |x - z|^2 <= (1/2)^r (F(x0) - min F) *)
Theorem C111_restart : forall (E : IPS) (of og : Op E) f df L (g : efun E) e mu x0 tau beta niterback accel N,
  smooth_op of f df L -> impl_prox og g -> convex g -> 0 < e -> 0 < tau <= / L -> accel = Some "vandenberghe"%string \/ accel = Some "fista"%string -> 0 < mu ->
  let F := eadd (etot f) (escal e g) in quad_growth F mu -> edom g x0 -> (1 <= N)%nat -> 8 <= tau * mu * (INR N + 1) ^ 2 ->
  exists xs, xs 0%nat = x0 /\ (forall r, exists tr, ProximalGradient of og (xs r) [e] (Some tau) false beta 1 N niterback accel None = Ok (xs (S r), tr)) /\
    forall zo, is_min F zo -> forall r, eval F (xs r) - eval F zo <= (/ 2) ^ r * (eval F x0 - eval F zo) /\
      exists z, is_min F z /\ mu / 2 * norm2 (xs r [-] z) <= (/ 2) ^ r * (eval F x0 - eval F zo).
Proof. exact C111_restart_l. Qed.
Print Assumptions C111_restart.

(** least squares with any operator A, whatever its null space: if its non-zero singular values
    squared are at least m > 0 and a solution exists, s/2 |A x - b|^2 has this growth with
    mu = s m, and ProximalPoint with L2(Op=A, b, sigma=s) approaches the set of solutions by
    the factor 1 + tau s m/2 per iteration *)
Theorem C111_least_squares : forall (E F : IPS) (A : linop E F) b s m, 0 < s -> 0 < m -> bounded_off_kernel A m -> let f := etot (fun x => s / 2 * norm2 (A x [-] b)) in (exists z, is_min f z) ->
  quad_growth f (s * m) /\ forall (o : Op E) x0 tau k, is_L2 o A b s -> 0 < tau ->
    exists x tr, ProximalPoint o x0 tau k None = Ok (x, tr) /\ forall z0, is_min f z0 -> exists z, is_min f z /\ (1 + tau * (s * m) / 2) ^ k * norm (x [-] z) <= norm (x0 [-] z0).
Proof. exact C111_least_squares_l. Qed.
Print Assumptions C111_least_squares.

(** gradient descent for least squares, as ProximalGradient with f = L2(Op=A, b, sigma=s) and g
    = Box() without bounds, with 0 < tau <= 1/L where s |A v|^2 <= L |v|^2, for any operator
    A, whatever its null space, with non-zero singular values squared at least m > 0: after
    k iterations some least squares solution z has (1 + tau s m)^k |x - z|^2 <= |x0 - z0|^2
    for every solution z0 *)
Theorem C111_gradient_descent : forall n (F : IPS) (A : linop (Vec n) F) b s m L (of og : Op (Vec n)) (lu : nlist bounds n) e x0 tau beta niterback accel k,
  0 < s -> 0 < m -> bounded_off_kernel A m -> 0 < L -> (forall v, s * norm2 (A v) <= L * norm2 v) -> is_L2 of A b s -> is_box og lu -> Forall (fun c => c = (None, None)) (proj1_sig lu) ->
  0 < e -> 0 < tau -> tau * L <= 1 -> accel = None \/ accel = Some "None"%string -> let f := fun x => s / 2 * norm2 (A x [-] b) in (exists z, is_min (etot f) z) ->
  exists x tr, ProximalGradient of og x0 [e] (Some tau) false beta 1 (S k) niterback accel None = Ok (x, tr) /\
    forall z0, is_min (etot f) z0 -> f x - f z0 <= norm2 (x0 [-] z0) / (2 * tau * (1 + tau * (s * m)) ^ k) /\ exists z, is_min (etot f) z /\ (1 + tau * (s * m)) ^ S k * norm2 (x [-] z) <= norm2 (x0 [-] z0).
Proof. exact C111_gradient_descent_l. Qed.
Print Assumptions C111_gradient_descent.

(** the operator that keeps the first of two entries has the singular values 1 and 0 and meets
    the hypothesis with m = 1; for b = 0 the vectors (0, a) are the least squares solutions *)
Example C111_example : bounded_off_kernel keep_first 1 /\ exists o : Op (Vec 2), is_L2 o keep_first vzero 1 /\
  forall a, is_min (etot (fun x : Vec 2 => 1 / 2 * norm2 (keep_first x [-] vzero))) (vtab 2 (fun i => if Nat.eqb i 0 then 0 else a)).
Proof. exact C111_example_l. Qed.

(** non-negative least squares with that operator and b = 0 as f = L2 and g = Box(lower=0) on
    two entries, e = 1: f + g has quadratic growth with mu = 1, L = 1, and tau = 1 with
    restarts every 2 iterations meets 8 <= tau mu (N+1)^2 *)
Example C111_gradient_example : exists (of og : Op (Vec 2)) (lu : nlist bounds 2), is_L2 of keep_first vzero 1 /\ is_box og lu /\ impl_prox og (indic (box_set lu)) /\ convex (indic (box_set lu)) /\
  smooth_op of (fun x => 1 / 2 * norm2 (keep_first x [-] vzero)) (fun x => 1 [*] ladj keep_first (keep_first x [-] vzero)) 1 /\
  quad_growth (eadd (etot (fun x : Vec 2 => 1 / 2 * norm2 (keep_first x [-] vzero))) (escal 1 (indic (box_set lu)))) 1 /\ (forall x, box_set lu x <-> 0 <= get x 0 /\ 0 <= get x 1) /\ 8 <= 1 * 1 * (INR 2 + 1) ^ 2.
Proof. exact C111_gradient_example_l. Qed.

(** the same operator with b = 0 and Box() on two entries meet the hypotheses of
    C111_gradient_descent with s = m = L = tau = e = 1 *)
Example C111_gradient_descent_example : bounded_off_kernel keep_first 1 /\ (forall v, 1 * norm2 (keep_first v) <= 1 * norm2 v) /\ exists (of og : Op (Vec 2)) (lu : nlist bounds 2),
  is_L2 of keep_first vzero 1 /\ is_box og lu /\ Forall (fun c => c = (None, None)) (proj1_sig lu) /\ is_min (etot (fun x : Vec 2 => 1 / 2 * norm2 (keep_first x [-] vzero))) (vtab 2 (fun i => if Nat.eqb i 0 then 0 else 7)).
Proof. exact C111_gradient_descent_example_l. Qed.
