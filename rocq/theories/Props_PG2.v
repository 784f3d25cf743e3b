(** Property theorems for PG2: statements only; every proof is [exact] a lemma of P_PG2.v.
    Generated from the tagged lemmas of that file. *)
From Coq Require Import String Psatz.
From Verif Require Import Base Space Spec ConvexFacts Smooth M_ProxOp SpecOps P_ProxOp M_Loop LoopFacts Trace SeqFacts M_PG M_Norms P_Norms P_PG.
From Verif Require Import S_PG2.
From Verif Require Import P_PG2.
Open Scope result_scope.
Open Scope R_scope.


(** with eta = 1 and a fixed step, for every epsg (one number or one per iteration), every
    acceleration mode, tolerance and starting point, ProximalGradient executes the
    documented recursion: its callbacks see x_1..x_k, it returns x_k, and k is where the
    tolerance rule stops. (No convexity is assumed; other eta: see below.) *)
Theorem C43_recursion : forall (E : IPS) (proxf proxg : Op E) f df g gv epsg eps x0 tau beta niter niterback accel tol,
  impl_call proxf (etot f) -> (forall x, o_grad proxf x = Ok (Some (df x))) -> impl_prox proxg g ->
  eps_arg epsg niter eps -> (forall j, (j < niter)%nat -> 0 < eps j) -> 0 < tau -> accel_known accel = true ->
  (tol <> None -> forall x, edom g x -> get_val proxg x = Ok (gv x)) ->
  exists xs ys k, ProximalGradient proxf proxg x0 epsg (Some tau) false beta 1 niter niterback accel tol = Ok (xs k, map xs (seq 1 k)) /\
    xs 0%nat = x0 /\ pg_doc df g eps (fun _ => tau) 1 (omega_seq accel) xs ys k /\
    stops_at tol (fun j => f (xs j) + eps (j - 1)%nat * gv (xs j)) niter k.
Proof. exact C43_recursion_l. Qed.
Print Assumptions C43_recursion.

(** without acceleration and with 0 < tau <= 1/L (f convex with L-Lipschitz gradient, g convex):
    the run never raises, F(x_k) - F(z) <= |x0-z|^2/(2 tau k) for every z with g(z) finite,
    where k is the number of executed iterations (niter, or fewer when tol stops it), and F
    never increases along the callbacks *)
Theorem C41_rate : forall (E : IPS) (proxf proxg : Op E) f df L g gv eps x0 tau beta niter niterback accel tol,
  smooth_op proxf f df L -> impl_prox proxg g -> convex g -> 0 < eps -> 0 < tau <= / L -> (1 <= niter)%nat ->
  accel = None \/ accel = Some "None"%string ->
  (tol <> None -> forall x, edom g x -> get_val proxg x = Ok (gv x)) ->
  let F := eadd (etot f) (escal eps g) in
  exists x tr k, ProximalGradient proxf proxg x0 [eps] (Some tau) false beta 1 niter niterback accel tol = Ok (x, tr) /\
    List.length tr = S k /\ (S k <= niter)%nat /\ (tol = None -> S k = niter) /\ edom F x /\
    (forall z, edom F z -> eval F x - eval F z <= norm2 (x0 [-] z) / (2 * tau * INR (S k))) /\
    (forall i a b, nth_error tr i = Some a -> nth_error tr (S i) = Some b -> eval F b <= eval F a).
Proof. exact C41_rate_l. Qed.
Print Assumptions C41_rate.

(** the same with backtracking (tau=None or backtracking=True) when the line search has enough
    trials to get below 1/L: the run never raises, F never increases and F(x_k) - F(z) <=
    |x0-z|^2/(2 min(tau0,beta/L) k) for every minimiser z *)
Theorem C41_backtracking_rate : forall (E : IPS) (proxf proxg : Op E) f df L g gv eps x0 tau beta niter niterback accel tol,
  smooth_op proxf f df L -> impl_prox proxg g -> convex g -> 0 < eps -> (1 <= niter)%nat ->
  accel = None \/ accel = Some "None"%string ->
  let tau0 := match tau with Some t => t | None => 1 end in
  0 < tau0 -> 0 < beta <= 1 -> (exists i, (i < niterback)%nat /\ tau0 * beta ^ i <= / L) ->
  (tol <> None -> forall x, edom g x -> get_val proxg x = Ok (gv x)) ->
  let F := eadd (etot f) (escal eps g) in
  exists x tr k, ProximalGradient proxf proxg x0 [eps] tau true beta 1 niter niterback accel tol = Ok (x, tr) /\
    List.length tr = S k /\ (S k <= niter)%nat /\ (tol = None -> S k = niter) /\ edom F x /\
    (forall z, is_min F z -> eval F x - eval F z <= norm2 (x0 [-] z) / (2 * Rmin tau0 (beta / L) * INR (S k))) /\
    (forall i a b, nth_error tr i = Some a -> nth_error tr (S i) = Some b -> eval F b <= eval F a).
Proof. exact C41_backtracking_rate_l. Qed.
Print Assumptions C41_backtracking_rate.

(** with acceleration 'fista' or 'vandenberghe', eta = 1 and a fixed 0 < tau <= 1/L, the run
    never raises and F(x_k) - F(z) <= 2|x0-z|^2/(tau (k+1)^2) for every minimiser z, k being
    the number of executed iterations *)
Theorem C42_accelerated_rate : forall (E : IPS) (proxf proxg : Op E) f df L g gv eps x0 tau beta niter niterback accel tol,
  smooth_op proxf f df L -> impl_prox proxg g -> convex g -> 0 < eps -> 0 < tau <= / L -> (1 <= niter)%nat ->
  accel = Some "vandenberghe"%string \/ accel = Some "fista"%string ->
  (tol <> None -> forall x, edom g x -> get_val proxg x = Ok (gv x)) ->
  let F := eadd (etot f) (escal eps g) in
  exists x tr k, ProximalGradient proxf proxg x0 [eps] (Some tau) false beta 1 niter niterback accel tol = Ok (x, tr) /\
    List.length tr = k /\ (1 <= k <= niter)%nat /\ (tol = None -> k = niter) /\ edom F x /\
    (forall z, is_min F z -> eval F x - eval F z <= 2 * norm2 (x0 [-] z) / (tau * (INR k + 1)^2)).
Proof. exact C42_accelerated_rate_l. Qed.
Print Assumptions C42_accelerated_rate.

(** AcceleratedProximalGradient (the deprecated wrapper) has the same guarantee, for the weight
    epsg and the step it was given: F(x_k) - F(z) <= 2|x0-z|^2/(tau (k+1)^2) for every
    minimiser z of F = f + epsg g; a step that is not given means backtracking from 1,
    exactly as in ProximalGradient *)
Theorem C42_wrapper_rate : forall (E : IPS) (proxf proxg : Op E) f df L g gv eps x0 tau beta niter niterback accel tol,
  smooth_op proxf f df L -> impl_prox proxg g -> convex g -> 0 < eps -> 0 < tau <= / L -> (1 <= niter)%nat ->
  accel = Some "vandenberghe"%string \/ accel = Some "fista"%string ->
  (tol <> None -> forall x, edom g x -> get_val proxg x = Ok (gv x)) ->
  let F := eadd (etot f) (escal eps g) in
  (exists x tr k, AcceleratedProximalGradient proxf proxg x0 [eps] (Some tau) beta niter niterback accel tol = Ok (x, tr) /\
    List.length tr = k /\ (1 <= k <= niter)%nat /\ (tol = None -> k = niter) /\ edom F x /\
    (forall z, is_min F z -> eval F x - eval F z <= 2 * norm2 (x0 [-] z) / (tau * (INR k + 1)^2))) /\
  AcceleratedProximalGradient proxf proxg x0 [eps] None beta niter niterback accel tol =
    ProximalGradient proxf proxg x0 [eps] (Some 1) true beta 1 niter niterback accel tol.
Proof. exact C42_wrapper_rate_l. Qed.
Print Assumptions C42_wrapper_rate.

(** the accelerated rate with backtracking and enough trials, with min(tau0, beta/L) in place of
    tau *)
Theorem C42_accelerated_backtracking : forall (E : IPS) (proxf proxg : Op E) f df L g gv eps x0 tau beta niter niterback accel tol,
  smooth_op proxf f df L -> impl_prox proxg g -> convex g -> 0 < eps -> (1 <= niter)%nat ->
  accel = Some "vandenberghe"%string \/ accel = Some "fista"%string ->
  let tau0 := match tau with Some t => t | None => 1 end in
  0 < tau0 -> 0 < beta <= 1 -> (exists i, (i < niterback)%nat /\ tau0 * beta ^ i <= / L) ->
  (tol <> None -> forall x, edom g x -> get_val proxg x = Ok (gv x)) ->
  let F := eadd (etot f) (escal eps g) in
  exists x tr k, ProximalGradient proxf proxg x0 [eps] tau true beta 1 niter niterback accel tol = Ok (x, tr) /\
    List.length tr = k /\ (1 <= k <= niter)%nat /\ (tol = None -> k = niter) /\ edom F x /\
    (forall z, is_min F z -> eval F x - eval F z <= 2 * norm2 (x0 [-] z) / (Rmin tau0 (beta / L) * (INR k + 1)^2)).
Proof. exact C42_accelerated_backtracking_l. Qed.
Print Assumptions C42_accelerated_backtracking.
