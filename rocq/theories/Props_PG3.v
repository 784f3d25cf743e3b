(** Property theorems for PG3: statements only; every proof is [exact] a lemma of P_PG3.v.
    Generated from the tagged lemmas of that file. *)
From Coq Require Import String Psatz.
From Verif Require Import Base Space Spec ConvexFacts Smooth M_ProxOp SpecOps P_ProxOp M_Loop LoopFacts Trace SeqFacts M_PG M_Norms P_Norms P_PG P_PG2.
From Verif Require Import S_PG3.
From Verif Require Import P_PG3.
Open Scope result_scope.
Open Scope R_scope.


(** without acceleration and with 0 < tau <= 1/L the returned vector equals x0 (for some,
    equivalently every, iteration count >= 1) if and only if x0 minimises f + eps g; and
    then every callback receives x0 *)
Theorem C41_fixed_points : forall (E : IPS) (proxf proxg : Op E) f df L g eps x0 tau beta niter niterback accel,
  smooth_op proxf f df L -> impl_prox proxg g -> convex g -> 0 < eps -> 0 < tau <= / L -> (1 <= niter)%nat ->
  accel = None \/ accel = Some "None"%string ->
  let F := eadd (etot f) (escal eps g) in
  let run := ProximalGradient proxf proxg x0 [eps] (Some tau) false beta 1 niter niterback accel None in
  (is_min F x0 <-> exists tr, run = Ok (x0, tr)) /\ (is_min F x0 -> run = Ok (x0, repeat x0 niter)).
Proof. exact C41_fixed_points_l. Qed.
Print Assumptions C41_fixed_points.

(** with eta <> 1 and a fixed step, the acceleration option has no effect: any two accepted
    values give the same result and the same callbacks *)
Theorem C43_acceleration_ignored : forall (E : IPS) (proxf proxg : Op E) f df g epsg eps x0 tau beta eta niter niterback accel1 accel2,
  impl_call proxf (etot f) -> (forall x, o_grad proxf x = Ok (Some (df x))) -> impl_prox proxg g -> convex g ->
  eps_arg epsg niter eps -> (forall j, (j < niter)%nat -> 0 < eps j) -> 0 < tau -> eta <> 1 ->
  accel_known accel1 = true -> accel_known accel2 = true ->
  ProximalGradient proxf proxg x0 epsg (Some tau) false beta eta niter niterback accel1 None =
  ProximalGradient proxf proxg x0 epsg (Some tau) false beta eta niter niterback accel2 None.
Proof. exact C43_acceleration_ignored_l. Qed.
Print Assumptions C43_acceleration_ignored.

(** with 0 < eta < 1, fixed 0 < tau <= 1/L and x0 in the domain of g (acceleration has no
    effect): F never increases and 2 tau (1 + eta (k-1)) (F(x_k) - F(z)) <= |x0-z|^2 + 2 tau
    (1-eta) (F(x0) - F(z)) for every z *)
Theorem C43_relaxed_rate : forall (E : IPS) (proxf proxg : Op E) f df L g eps x0 tau beta eta niter niterback accel,
  smooth_op proxf f df L -> impl_prox proxg g -> convex g -> 0 < eps -> 0 < tau <= / L -> 0 < eta < 1 ->
  accel_known accel = true -> edom g x0 ->
  let F := eadd (etot f) (escal eps g) in
  exists x tr, ProximalGradient proxf proxg x0 [eps] (Some tau) false beta eta (S niter) niterback accel None = Ok (x, tr) /\
    List.length tr = S niter /\ edom F x /\
    (forall z, edom F z -> 2 * tau * (1 + eta * INR niter) * (eval F x - eval F z) <=
       norm2 (x0 [-] z) + 2 * tau * (1 - eta) * (eval F x0 - eval F z)) /\
    (forall i a b, nth_error (x0 :: tr) i = Some a -> nth_error (x0 :: tr) (S i) = Some b -> eval F b <= eval F a).
Proof. exact C43_relaxed_rate_l. Qed.
Print Assumptions C43_relaxed_rate.

(** for eta <> 1 with acceleration the executed recursion is not the documented one: f = x^2/2,
    g = 0, tau = 1/2, eta = 1/2, x0 = 1, 'vandenberghe', three iterations: documented x_3 =
    99/256, returned 27/64 *)
Theorem C43_relaxation_refuted :
  let f := fun x : R_IPS => 1 / 2 * (x * x) in let g := etot (E:=R_IPS) (fun _ => 0) in
  smooth_op (quad1 1) f (fun x : R_IPS => 1 * x) 1 /\ impl_prox zero1 g /\
  ProximalGradient (quad1 1) zero1 1 [1] (Some (1/2)) false (1/2) (1/2) 3 10 (Some "vandenberghe"%string) None
    = Ok (27/64, [3/4; 9/16; 27/64]) /\
  forall xs ys, xs 0%nat = 1 ->
    pg_doc (E:=R_IPS) (fun x : R_IPS => 1 * x) g (fun _ => 1) (fun _ => 1/2) (1/2) (omega_seq (Some "vandenberghe"%string)) xs ys 3 ->
    xs 3%nat = 99/256.
Proof. exact C43_relaxation_refuted_l. Qed.
Print Assumptions C43_relaxation_refuted.

(** with backtracking and eta <> 1 the step is applied twice: same data, one iteration:
    documented x_1 = 3/4 (one relaxed step), returned 3/8 *)
Theorem C43_backtracking_relaxation_refuted :
  let g := etot (E:=R_IPS) (fun _ => 0) in
  smooth_op (quad1 1) (fun x : R_IPS => 1 / 2 * (x * x)) (fun x : R_IPS => 1 * x) 1 /\ impl_prox zero1 g /\
  ProximalGradient (quad1 1) zero1 1 [1] (Some (1/2)) true (1/2) (1/2) 1 10 None None = Ok (3/8, [3/8]) /\
  forall xs ys tau, xs 0%nat = 1 -> tau = 1/2 ->
    pg_doc (E:=R_IPS) (fun x : R_IPS => 1 * x) g (fun _ => 1) (fun _ => tau) (1/2) (omega_seq None) xs ys 1 -> xs 1%nat = 3/4.
Proof. exact C43_backtracking_relaxation_refuted_l. Qed.
Print Assumptions C43_backtracking_relaxation_refuted.

(** for every x, tau > 0 and niterback >= 1, either the line search accepts at its i-th trial (i
    < niterback): the returned point is the proximal step with the returned tau = tau beta^i
    and passes the sufficient decrease test, all earlier trials failed it; or all niterback
    trials failed *)
Theorem C44_accepted : forall (E : IPS) (proxf proxg : Op E) f df g e beta niterback x tau,
  impl_call proxf (etot f) -> (forall x, o_grad proxf x = Ok (Some (df x))) -> impl_prox proxg g -> 0 < e -> 0 < beta -> 0 < tau ->
  (exists z i, backtracking x tau proxf proxg e beta (S niterback) = Ok (z, tau * beta ^ i) /\ (i <= niterback)%nat /\
     trial df g e (tau * beta ^ i) x z /\ test_ok f df (tau * beta ^ i) x z /\
     (forall j, (j < i)%nat -> exists w, trial df g e (tau * beta ^ j) x w /\ ~ test_ok f df (tau * beta ^ j) x w)) \/
  ((forall j, (j <= niterback)%nat -> exists w, trial df g e (tau * beta ^ j) x w /\ ~ test_ok f df (tau * beta ^ j) x w) /\
   exists z, backtracking x tau proxf proxg e beta (S niterback) = Ok (z, tau * beta ^ (S niterback)) /\
     trial df g e (tau * beta ^ niterback) x z).
Proof. exact C44_accepted_l. Qed.
Print Assumptions C44_accepted.

(** if some trial step tau beta^i (i < niterback) is at most 1/L the line search accepts, at the
    latest at the first such i: the accepted step is tau itself or exceeds beta/L; it never
    exceeds tau when beta <= 1 *)
Theorem C44_terminates_early : forall (E : IPS) (proxf proxg : Op E) f df L g e beta niterback x tau,
  smooth_op proxf f df L -> impl_prox proxg g -> 0 < e -> 0 < beta <= 1 -> 0 < tau ->
  (exists i, (i < niterback)%nat /\ tau * beta ^ i <= / L) ->
  exists z t, backtracking x tau proxf proxg e beta niterback = Ok (z, t) /\
     trial df g e t x z /\ test_ok f df t x z /\ t <= tau /\ (t = tau \/ beta / L < t).
Proof. exact C44_terminates_early_l. Qed.
Print Assumptions C44_terminates_early.

(** when the trials are exhausted the returned (point, step) pair is inconsistent: f = 2x^2, g =
    0, x = 1, tau = 1, beta = 1/2, niterback = 1 returns the point -3 computed with step 1
    together with step 1/2, for which the proximal step is -1; and the point fails the test *)
Theorem C44_exhaustion_refuted :
  let f := fun x : R_IPS => 4 / 2 * (x * x) in let df := fun x : R_IPS => 4 * x in let g := etot (E:=R_IPS) (fun _ => 0) in
  smooth_op (quad1 4) f df 4 /\ impl_prox zero1 g /\
  backtracking (E:=R_IPS) 1 1 (quad1 4) zero1 1 (1/2) 1 = Ok (-3, 1/2) /\
  ~ trial (E:=R_IPS) df g 1 (1/2) 1 (-3) /\ ~ test_ok (E:=R_IPS) f df (1/2) 1 (-3) /\ ~ test_ok (E:=R_IPS) f df 1 1 (-3).
Proof. exact C44_exhaustion_refuted_l. Qed.
Print Assumptions C44_exhaustion_refuted.

(** niterback = 0 with backtracking raises UnboundLocalError (for any operators and any data) *)
Theorem C44_no_trials_refuted : forall (E : IPS) (proxf proxg : Op E) x0 eps beta niter,
  ProximalGradient proxf proxg x0 [eps] None false beta 1 (S niter) 0 None None = Err UnboundLocalError.
Proof. exact C44_no_trials_refuted_l. Qed.
Print Assumptions C44_no_trials_refuted.

(** ProximalGradient raises NotImplementedError exactly for acceleration strings other than
    None, 'None', 'vandenberghe' and 'fista', whatever the other (well-formed) arguments *)
Theorem C68_acceleration : forall (E : IPS) (proxf proxg : Op E) x0 epsg tau bt beta eta niter niterback s tol,
  (List.length epsg = 1%nat -> niter <> 0%nat) ->
  s <> "None"%string -> s <> "vandenberghe"%string -> s <> "fista"%string ->
  ProximalGradient proxf proxg x0 epsg tau bt beta eta niter niterback (Some s) tol = Err NotImplementedError.
Proof. exact C68_acceleration_l. Qed.
Print Assumptions C68_acceleration.

(** the hypotheses of C41-C44 hold for f = x^2 (gradient 2x, L = 2), g = Euclidean(1), tau =
    1/2, and x0 = 0 is the minimiser; a step size 4 with beta = 1/2 and 4 trials satisfies
    the backtracking hypothesis *)
Example C41_example : forall fuel,
  let g := etot (E:=R_IPS) (fun x : R_IPS => 1 * norm x) in
  smooth_op (quad1 2) (fun x : R_IPS => 2 / 2 * (x * x)) (fun x : R_IPS => 2 * x) 2 /\
  impl_prox (obj (E:=R_IPS) (S fuel) (euclid_body 1)) g /\ convex g /\
  (forall x, edom g x -> get_val (obj (E:=R_IPS) (S fuel) (euclid_body 1)) x = Ok (1 * norm x)) /\
  is_min (eadd (etot (E:=R_IPS) (fun x : R_IPS => 2 / 2 * (x * x))) (escal 1 g)) 0 /\
  (exists i, (i < 4)%nat /\ 4 * (1/2) ^ i <= / 2) /\ eps_arg [1; 2; 3] 3 (fun j => INR j + 1).
Proof. exact C41_example_l. Qed.

(** for arbitrary operators, whenever ProximalPoint returns: one callback per executed
    iteration, the last one with the returned vector, and it stopped at the first iteration
    whose relative objective change is below tol, otherwise after exactly niter (tol=None:
    always exactly niter) *)
Theorem C45_proximal_point : forall (E : IPS) (prox : Op E) x0 tau niter tol x tr,
  ProximalPoint prox x0 tau niter tol = Ok (x, tr) ->
  trace_ok tol (fun _ y v => get_val prox y = Ok v) niter x0 x tr.
Proof. exact C45_proximal_point_l. Qed.
Print Assumptions C45_proximal_point.

(** the same for ProximalGradient with any step, backtracking, eta, epsg, acceleration, the
    objective of the i-th callback being f + epsg[i] g *)
Theorem C45_proximal_gradient : forall (E : IPS) (proxf proxg : Op E) x0 epsg tau bt beta eta niter niterback accel tol x tr,
  ProximalGradient proxf proxg x0 epsg tau bt beta eta niter niterback accel tol = Ok (x, tr) ->
  trace_ok tol (fun i y v => exists fv gv e, get_val proxf y = Ok fv /\ get_val proxg y = Ok gv /\
     (epsg = [e] \/ (List.length epsg <> 1%nat /\ nth_error epsg i = Some e)) /\ v = fv + e * gv) niter x0 x tr.
Proof. exact C45_proximal_gradient_l. Qed.
Print Assumptions C45_proximal_gradient.

(** Euclidean(1) on the real line meets the hypotheses of the proximal point theorems, starting
    at 3, and its first iterates with tau = 1 are 2, 1, 0 *)
Example C40_example : forall fuel,
  let f := etot (E:=R_IPS) (fun x : R_IPS => 1 * norm x) in let o := obj (E:=R_IPS) (S fuel) (euclid_body 1) in
  impl_prox o f /\ convex f /\ o_prox o 3 1 = Ok (2 : R_IPS) /\ o_prox o 2 1 = Ok (1 : R_IPS) /\ o_prox o 1 1 = Ok (0 : R_IPS).
Proof. exact C40_example_l. Qed.
