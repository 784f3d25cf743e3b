(** Property theorems for Stop: statements only; every proof is [exact] a lemma of P_Stop.v.
    Generated from the tagged lemmas of that file. *)
From Coq Require Import String Psatz.
From Verif Require Import Base Space Spec VSum ConvexFacts Smooth MatFacts M_ProxOp SpecOps P_ProxOp M_Norms P_Norms M_Loop LoopFacts LoopFacts2 SeqFacts M_PG S_PG2 S_PG3 P_PG P_PG2 P_PG3 P_Multi3 P_Split2 S_Seq Compact Fejer IterMath S_Iter P_Iter CountMath S_Pnp PnpMath P_Pnp M_L1 S_L1 P_L1 M_L2 M_Objs S_Sparse P_Sparse S_Lasso P_Lasso S_Incons InconsMath P_Incons P_Resid.
From Verif Require Import S_Stop.
From Verif Require Import P_Stop.
Open Scope result_scope.
Open Scope R_scope.


(** f convex and positive with exact prox and call, any step tau > 0, start and 0 < tol <= 1.
    With tol, ProximalPoint returns the iterate m of the run without tol, m being the first
    iteration whose relative change of f is below tol (niter if there is none). If it
    stopped for that reason, f(x_m) - f(y) <= sqrt(tol f(x_(m-1)) / tau) |x_m - y| for every
    y in the domain, and f(x_m) - f(xo) <= sqrt(tol f(x_1) / tau) |x0 - xo| for a minimiser
    xo. If f >= c > 0 then c <= (1 - tol)^(m-2) f(x_1) whenever m >= 2 iterations are made,
    so from some niter on the result no longer depends on niter *)
Theorem C106_proximal_point : forall (E : IPS) (o : Op E) f x0 tau tol, impl_prox o f -> impl_call o f -> convex f -> 0 < tau -> 0 < tol <= 1 -> (forall y, edom f y -> 0 < eval f y) ->
  exists xs, xs 0%nat = x0 /\ (forall n, ProximalPoint o x0 tau n None = Ok (xs n, map xs (seq 1 n))) /\
    (forall n, exists m, ProximalPoint o x0 tau n (Some tol) = Ok (xs m, map xs (seq 1 m)) /\ first_settled (fun k => eval f (xs k)) tol n m /\
      (settled (fun k => eval f (xs k)) tol m ->
         (forall y, edom f y -> eval f (xs m) - eval f y <= sqrt (tol * eval f (xs (m - 1)%nat) / tau) * norm (xs m [-] y)) /\
         (forall xo, is_min f xo -> eval f (xs m) - eval f xo <= sqrt (tol * eval f (xs 1%nat) / tau) * norm (x0 [-] xo))) /\
      (forall c, (2 <= m)%nat -> (forall y, edom f y -> c <= eval f y) -> c <= (1 - tol) ^ (m - 2) * eval f (xs 1%nat))) /\
    (forall c, 0 < c -> (forall y, edom f y -> c <= eval f y) -> exists N, forall n, (N <= n)%nat -> ProximalPoint o x0 tau n (Some tol) = ProximalPoint o x0 tau N (Some tol)).
Proof. exact C106_proximal_point_l. Qed.
Print Assumptions C106_proximal_point.

(** f convex with an L-Lipschitz gradient, g convex with exact prox and call, weight eps > 0, a
    fixed step with tau L < 2, no acceleration, F = f + eps g positive, 0 < tol <= 1. With
    tol, ProximalGradient returns the iterate m of the run without tol, m being the first
    iteration whose relative change of F is below tol (niter if there is none). If it
    stopped for that reason, F(x_m) - F(y) <= sqrt(tol F(x_(m-1)) / (1 - tau L / 2) / tau)
    |x_m - y| for every y in the domain and F(x_m) - F(xo) <= sqrt(tol F(x_1) / (1 - tau L /
    2) / tau) |x0 - xo| for a minimiser xo. If F >= c > 0 then c <= (1 - tol)^(m-2) F(x_1)
    whenever m >= 2 iterations are made, so from some niter on the result no longer depends
    on niter *)
Theorem C106_proximal_gradient : forall (E : IPS) (proxf proxg : Op E) f df L g x0 eps tau tol beta niterback accel,
  smooth_op proxf f df L -> impl_prox proxg g -> impl_call proxg g -> convex g -> 0 < eps -> 0 < tau -> tau * L < 2 -> 0 < tol <= 1 -> accel = None \/ accel = Some "None"%string -> (forall y, edom g y -> 0 < f y + eps * eval g y) ->
  let F := fun y => f y + eps * eval g y in
  exists xs, xs 0%nat = x0 /\ (forall n, ProximalGradient proxf proxg x0 [eps] (Some tau) false beta 1 (S n) niterback accel None = Ok (xs (S n), map xs (seq 1 (S n)))) /\
    (forall n, exists m, ProximalGradient proxf proxg x0 [eps] (Some tau) false beta 1 (S n) niterback accel (Some tol) = Ok (xs m, map xs (seq 1 m)) /\ first_settled (fun k => F (xs k)) tol (S n) m /\
      (settled (fun k => F (xs k)) tol m ->
         (forall y, edom g y -> F (xs m) - F y <= sqrt (tol * F (xs (m - 1)%nat) / (1 - tau * L / 2) / tau) * norm (xs m [-] y)) /\
         (forall xo, is_min (eadd (etot f) (escal eps g)) xo -> F (xs m) - F xo <= sqrt (tol * F (xs 1%nat) / (1 - tau * L / 2) / tau) * norm (x0 [-] xo))) /\
      (forall c, (2 <= m)%nat -> (forall y, edom g y -> c <= F y) -> c <= (1 - tol) ^ (m - 2) * F (xs 1%nat))) /\
    (forall c, 0 < c -> (forall y, edom g y -> c <= F y) -> exists N, forall n, (N <= n)%nat ->
       ProximalGradient proxf proxg x0 [eps] (Some tau) false beta 1 (S n) niterback accel (Some tol) = ProximalGradient proxf proxg x0 [eps] (Some tau) false beta 1 (S N) niterback accel (Some tol)).
Proof. exact C106_proximal_gradient_l. Qed.
Print Assumptions C106_proximal_gradient.

(** a tolerance need not end the run, however large niter is: any operator with the exact prox
    and call of s/2 |x|^2, s > 0, any space, start x0 <> 0, step tau > 0 and tolerance tol
    <= 1 - 1 / (1 + tau s)^2. For every niter, ProximalPoint makes niter iterations and
    returns what it returns without tol, x0 / (1 + tau s)^niter *)
Theorem C106_never_refuted : forall (E : IPS) (o : Op E) s x0 tau tol, impl_prox o (etot (fun v : E => s / 2 * norm2 v)) -> impl_call o (etot (fun v : E => s / 2 * norm2 v)) -> 0 < s -> 0 < tau -> x0 <> vzero -> tol <= 1 - 1 / (1 + tau * s) ^ 2 ->
  forall n, ProximalPoint o x0 tau n (Some tol) = ProximalPoint o x0 tau n None /\ exists x tr, ProximalPoint o x0 tau n (Some tol) = Ok (x, tr) /\ List.length tr = n /\ x = (/ (1 + tau * s)) ^ n [*] x0.
Proof. exact C106_never_refuted_l. Qed.
Print Assumptions C106_never_refuted.

(** what is returned with a tolerance is not determined by the problem being solved: f convex,
    and operators whose proximal map is that of f and whose value is f + K. Whatever f, the
    start, tau > 0 and 0 < tol <= 1, for every K large enough ProximalPoint stops after two
    iterations, for every niter >= 2 *)
Theorem C106_offset_refuted : forall (E : IPS) (oK : R -> Op E) f x0 tau tol, (forall K, impl_prox (oK K) f) -> (forall K, impl_call (oK K) (eadd f (etot (fun _ => K)))) -> convex f -> 0 < tau -> 0 < tol <= 1 ->
  exists K0, forall K n, K0 <= K -> (2 <= n)%nat -> ProximalPoint (oK K) x0 tau n (Some tol) = ProximalPoint (oK K) x0 tau 2 None.
Proof. exact C106_offset_refuted_l. Qed.
Print Assumptions C106_offset_refuted.

(** an object L2(Op=A, b=b, sigma=s) whose data has a component outside the range of A (A^H w =
    0, <w, b> <> 0) together with an object L1: the objective is at least s/2 <w, b>^2 /
    |w|^2 > 0, so ProximalGradient with tau = 1/L and tol = 1/1000 ends by its tolerance
    once niter is large enough; and the operator x^2/2 meets the hypotheses of
    C106_never_refuted *)
Example C106_example : forall n (F : IPS) (A : linop (Vec n) F) b w s L (o og : Op (Vec n)) lam x0, is_L2 o A b s -> is_L1 og lam -> 0 < s -> 0 <= lam -> 0 < L -> (forall v, s * norm2 (A v) <= L * norm2 v) -> ladj A w = vzero -> << w, b >> <> 0 ->
  (exists N, forall k, (N <= k)%nat -> ProximalGradient o og x0 [1] (Some (1 / L)) false (1 / 2) 1 (S k) 10 None (Some (1 / 1000)) = ProximalGradient o og x0 [1] (Some (1 / L)) false (1 / 2) 1 (S N) 10 None (Some (1 / 1000))) /\
  (forall n, exists x tr, ProximalPoint (quad1 1) (1 : R_IPS) 1 n (Some (1 / 2)) = Ok (x, tr) /\ List.length tr = n).
Proof. exact C106_example_l. Qed.
