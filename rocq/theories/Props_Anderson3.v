(** Property theorems for Anderson3: statements only; every proof is [exact] a lemma of P_Anderson3.v.
    Generated from the tagged lemmas of that file. *)
From Coq Require Import Psatz String.
From Verif Require Import Base Space Spec ConvexFacts Smooth VSum MatFacts M_ProxOp SpecOps M_Loop LoopFacts LoopFacts2 Trace M_PG P_PG P_PG2 P_PG3 M_Anderson P_Anderson P_Anderson2.
From Verif Require Import S_Anderson3.
From Verif Require Import P_Anderson3.
Open Scope result_scope.
Open Scope R_scope.


(** for any non-empty list of residuals that are not all zero and epsr > 0, the coefficients
    exist (no shape error, no division by zero), sum to one and make the combined residual
    as short as possible among all coefficients summing to one; the size of epsr is
    irrelevant *)
Theorem C56_weights : forall (E : IPS) pinv (Rs : list E) epsr, pinv_ok (length Rs) pinv -> 0 < epsr -> (exists r, In r Rs /\ r <> vzero) ->
  exists alpha, an_alpha pinv epsr (length Rs) Rs = Ok alpha /\ best_weights Rs alpha /\
    forall epsr' alpha', 0 < epsr' -> an_alpha pinv epsr' (length Rs) Rs = Ok alpha' -> norm (wsum alpha' Rs) = norm (wsum alpha Rs).
Proof. exact C56_weights_l. Qed.
Print Assumptions C56_weights.

(** every run follows the recursion below for some number k of iterations: window of the
    nhistory most recent residuals, coefficients summing to one that minimise the combined
    residual, candidate and safeguard as documented; either all niter iterations are
    completed and the callbacks received x_1 .. x_niter, or iteration k divides zero by zero
    (nan) because all residuals in its window are zero *)
Theorem C56_recursion : forall (E : IPS) pinv (proxf proxg : Op E) f df g x0 epsg eps tau niter nhistory epsr safeguard,
  impl_call proxf (etot f) -> (forall x, o_grad proxf x = Ok (Some (df x))) -> impl_prox proxg g -> pinv_ok nhistory pinv ->
  eps_arg epsg niter eps -> (forall j, (j < niter)%nat -> 0 < eps j) -> 0 < tau -> 0 < epsr -> (1 <= nhistory)%nat -> (1 <= niter)%nat ->
  exists xs ys Rh Gh vs k, (k <= niter)%nat /\ anderson f df g eps tau nhistory safeguard x0 xs ys Rh Gh vs k /\
    ((k = niter /\ AndersonProximalGradient pinv proxf proxg x0 epsg tau niter nhistory epsr safeguard None = Ok (xs niter, map xs (seq 1 niter))) \/
     ((k < niter)%nat /\ AndersonProximalGradient pinv proxf proxg x0 epsg tau niter nhistory epsr safeguard None = Err ZeroDivisionError /\
      forall r, In r (firstn nhistory ((xs k [-] tau [*] df (xs k) [-] ys k) :: Rh k)) -> r = vzero)).
Proof. exact C56_recursion_l. Qed.
Print Assumptions C56_recursion.

(** for convex f and g the division of zero by zero happens only after a minimiser of f + eps g
    has been reached: if the call breaks down then some completed iteration (or the initial
    proximal step) produced a minimiser; so a run none of whose iterates is a minimiser
    always completes *)
Theorem C56_breakdown : forall (E : IPS) pinv (proxf proxg : Op E) f df L g x0 e tau niter nhistory epsr safeguard err,
  smooth_op proxf f df L -> impl_prox proxg g -> convex g -> pinv_ok nhistory pinv -> 0 < e -> 0 < tau -> 0 < epsr -> (1 <= nhistory)%nat -> (1 <= niter)%nat ->
  AndersonProximalGradient pinv proxf proxg x0 [e] tau niter nhistory epsr safeguard None = Err err ->
  err = ZeroDivisionError /\ exists x, is_min (eadd (etot f) (escal e g)) x /\
    (is_prox g (e * tau) (x0 [-] tau [*] df x0) x \/ exists k tr, (1 <= k < niter)%nat /\ AndersonProximalGradient pinv proxf proxg x0 [e] tau k nhistory epsr safeguard None = Ok (x, tr)).
Proof. exact C56_breakdown_l. Qed.
Print Assumptions C56_breakdown.

(** started at a minimiser x0 of f + eps g (with x0 - tau grad f(x0) not the zero vector), the
    first nhistory - 1 iterations all return x0 *)
Theorem C56_at_solution : forall (E : IPS) pinv (proxf proxg : Op E) f df L g x0 e tau niter nhistory epsr safeguard,
  smooth_op proxf f df L -> impl_prox proxg g -> convex g -> pinv_ok nhistory pinv -> 0 < e -> 0 < tau -> 0 < epsr -> (1 <= niter < nhistory)%nat ->
  is_min (eadd (etot f) (escal e g)) x0 -> x0 [-] tau [*] df x0 <> vzero ->
  AndersonProximalGradient pinv proxf proxg x0 [e] tau niter nhistory epsr safeguard None = Ok (x0, repeat x0 niter).
Proof. exact C56_at_solution_l. Qed.
Print Assumptions C56_at_solution.

(** started at a minimiser the iterates do not stay there: as soon as niter >= nhistory (or at
    once if x0 - tau grad f(x0) = 0) the coefficients are 0/0 and the result is nan, for
    every smooth convex f, convex g, step, epsr and safeguard setting *)
Theorem C56_nan_refuted : forall (E : IPS) pinv (proxf proxg : Op E) f df L g x0 e tau niter nhistory epsr safeguard,
  smooth_op proxf f df L -> impl_prox proxg g -> convex g -> pinv_ok nhistory pinv -> 0 < e -> 0 < tau -> 0 < epsr -> (1 <= nhistory)%nat -> (1 <= niter)%nat ->
  is_min (eadd (etot f) (escal e g)) x0 -> (nhistory <= niter)%nat \/ x0 [-] tau [*] df x0 = vzero ->
  AndersonProximalGradient pinv proxf proxg x0 [e] tau niter nhistory epsr safeguard None = Err ZeroDivisionError.
Proof. exact C56_nan_refuted_l. Qed.
Print Assumptions C56_nan_refuted.

(** with nhistory = 1 the method is plain proximal gradient, one step ahead: whenever niter
    iterations complete they return what ProximalGradient returns after niter + 1 iterations *)
Theorem C56_nhistory1 : forall (E : IPS) pinv (proxf proxg : Op E) f df L g x0 e tau niter epsr safeguard x tr beta niterback,
  smooth_op proxf f df L -> impl_prox proxg g -> convex g -> pinv_ok 1 pinv -> 0 < e -> 0 < tau -> 0 < epsr -> (1 <= niter)%nat ->
  AndersonProximalGradient pinv proxf proxg x0 [e] tau niter 1 epsr safeguard None = Ok (x, tr) ->
  exists x1, ProximalGradient proxf proxg x0 [e] (Some tau) false beta 1 (S niter) niterback None None = Ok (x, x1 :: tr).
Proof. exact C56_nhistory1_l. Qed.
Print Assumptions C56_nhistory1.

(** nhistory = 0 always fails with ValueError (shapes do not match), and niter = 0 with a scalar
    epsg fails with IndexError *)
Theorem C56_errors : forall (E : IPS) pinv (proxf proxg : Op E) f df g x0 e tau niter epsr safeguard tol,
  impl_call proxf (etot f) -> (forall x, o_grad proxf x = Ok (Some (df x))) -> impl_prox proxg g -> pinv_ok 1 pinv -> 0 < e -> 0 < tau ->
  AndersonProximalGradient pinv proxf proxg x0 [e] tau 0 0 epsr safeguard tol = Err IndexError /\
  AndersonProximalGradient pinv proxf proxg x0 [e] tau (S niter) 0 epsr safeguard tol = Err ValueError.
Proof. exact C56_errors_l. Qed.
Print Assumptions C56_errors.

(** with a tolerance the run stops where the relative-change rule on f + epsg[i] g says, every
    iteration calls the callback once and the last callback received the returned vector *)
Theorem C56_trace : forall (E : IPS) pinv (proxf proxg : Op E) x0 epsg tau niter nhistory epsr safeguard tol x tr, (1 <= niter)%nat ->
  AndersonProximalGradient pinv proxf proxg x0 epsg tau niter nhistory epsr safeguard tol = Ok (x, tr) ->
  exists x1, trace_ok tol (fun i y v => exists fv gv e, get_val proxf y = Ok fv /\ get_val proxg y = Ok gv /\
     (epsg = [e] \/ (List.length epsg <> 1%nat /\ nth_error epsg i = Some e)) /\ v = fv + e * gv) niter x1 x tr.
Proof. exact C56_trace_l. Qed.
Print Assumptions C56_trace.

(** the histories do not hold g^0 and r^0 as documented (they start swapped), which spoils the
    first accelerated steps: for f(x) = (x-1)^2/2, g = 0, tau = 1/4, x0 = 5 one iteration
    returns 49/19, while the documented combination of (g^1, g^0) with residuals (r^1, r^0)
    is the exact minimiser 1 *)
Theorem C56_history_refuted : let f := fun x => (x - 1) * (x - 1) / 2 in let df := fun x => x - 1 in
  forall pinv nhistory epsr, (2 <= nhistory)%nat -> pinv_ok nhistory pinv -> 0 < epsr ->
  AndersonProximalGradient pinv (op1 f df) zero1 (5 : R_IPS) [1] (1 / 4) 1 nhistory epsr false None = Ok (49 / 19, [49 / 19]) /\
  let g0 := 5 - 1 / 4 * df 5 in let r0 := g0 - 5 in let g1 := g0 - 1 / 4 * df g0 in let r1 := g1 - g0 in
  forall alpha, best_weights (E:=R_IPS) [r1; r0] alpha -> wsum (E:=R_IPS) alpha [g1; g0] = 1.
Proof. exact C56_history_refuted_l. Qed.
Print Assumptions C56_history_refuted.

(** safeguard=True does not prevent an increase of f: after a rejected candidate the next one is
    compared with the value of the rejected one; for the smooth convex sg_f (L = 1), g = 0,
    tau = 1/2, nhistory = 2, x0 = 1/10 two safeguarded iterations return -199/10 with f =
    81/2 although f(x0) = 31/2 *)
Theorem C56_safeguard_refuted : smooth_convex (E:=R_IPS) sg_f sg_df 1 /\ sg_f (1 / 10) = 31 / 2 /\ sg_f (- 199 / 10) = 81 / 2 /\
  forall pinv epsr, pinv_ok 2 pinv -> 0 < epsr ->
  exists x1, AndersonProximalGradient pinv (op1 sg_f sg_df) zero1 (1 / 10 : R_IPS) [1] (1 / 2) 2 2 epsr true None = Ok (- 199 / 10, [x1; - 199 / 10]).
Proof. exact C56_safeguard_refuted_l. Qed.
Print Assumptions C56_safeguard_refuted.

(** the hypotheses are met by f(x) = x^2/2, g = 0 and the exact pseudo-inverse of symmetric 2x2
    matrices, with nhistory 2; started at the minimiser 0, every run is nan *)
Example C56_example : pinv_ok 2 pinv2 /\ smooth_op (quad1 1) (fun x : R_IPS => 1 / 2 * (x * x)) (fun x : R_IPS => 1 * x) 1 /\ impl_prox zero1 (etot (E:=R_IPS) (fun _ => 0)) /\
  is_min (eadd (etot (E:=R_IPS) (fun x : R_IPS => 1 / 2 * (x * x))) (escal 1 (etot (E:=R_IPS) (fun _ => 0)))) 0 /\
  AndersonProximalGradient pinv2 (quad1 1) zero1 (0 : R_IPS) [1] (1 / 2) 5 2 1 false None = Err ZeroDivisionError.
Proof. exact C56_example_l. Qed.
