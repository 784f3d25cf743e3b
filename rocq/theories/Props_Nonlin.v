(** Property theorems for Nonlin: statements only; every proof is [exact] a lemma of P_Nonlin.v.
    Generated from the tagged lemmas of that file. *)
From Verif Require Import Base Space Spec SpecOps ConvexFacts M_ProxOp M_Norms M_Nonlin Smooth.
From Verif Require Import S_Nonlin.
From Verif Require Import P_Nonlin.
Open Scope result_scope.



(** every sequence of prox calls on one Nonlinear object, rejected and failing ones included: a
    call with tau <= 0 raises ValueError; any other call returns (or raises) what the user's
    optimize gives for the point and step of that call and, as start, the last returned
    result when warm=True (x0 before there is one) and always x0 when warm=False *)
Theorem C73_session : forall (E : IPS) (u : NLUser E) niter warm x0 (calls : list (E * R)),
  let rs := prox_session (nl_prox u niter warm) (mkNLSt x0 None) calls in
  length rs = length calls /\
  forall j x tau, nth_error calls j = Some (x, tau) ->
    nth_error rs j = Some (if Rle_dec tau 0 then Err ValueError
                           else nl_optimize u (if warm then last_result x0 (firstn j rs) else x0) x tau niter).
Proof. exact C73_session_l. Qed.
Print Assumptions C73_session.

(** if optimize returns a minimiser of _funprox then prox is the exact proximal point of the
    user's function; the functions handed to optimize are right: _gradprox is the gradient
    of _funprox and _fungradprox returns both *)
Theorem C73_prox : forall (E : IPS) (u : NLUser E) niter warm st x tau, 0 < tau ->
  (forall p st', nl_prox u niter warm st x tau = (st', Ok p) ->
     is_min (etot (fun z => nl_funprox u x z tau)) p -> is_prox (etot (nl_call u)) tau x p) /\
  (forall z, is_grad (nl_fun u) z (nl_grad u z) ->
     is_grad (fun z => nl_funprox u x z tau) z (nl_gradprox u x z tau) /\
     nl_fungradprox u x z tau = (nl_funprox u x z tau, nl_gradprox u x z tau)).
Proof. exact C73_prox_l. Qed.
Print Assumptions C73_prox.

(** for a convex differentiable function, whatever optimize returns: the distance of the result
    to the exact proximal point is at most tau times the norm of _gradprox there, so a point
    where _gradprox vanishes is exact *)
Theorem C73_inexact : forall (E : IPS) (u : NLUser E) niter warm st st' x tau p q, 0 < tau ->
  convex (etot (nl_fun u)) -> (forall z, is_grad (nl_fun u) z (nl_grad u z)) ->
  nl_prox u niter warm st x tau = (st', Ok p) -> is_prox (etot (nl_call u)) tau x q ->
  norm (p [-] q) <= tau * norm (nl_gradprox u x p tau).
Proof. exact C73_inexact_l. Qed.
Print Assumptions C73_inexact.

(** every sequence of prox calls on one Quadratic object with a non-explicit Op, rejected ones
    included: a non-positive step raises ValueError; any other call returns what lsqr
    returns for (I + tau Op) v = x - tau b with, as start, the last accepted result when
    warm=True (x0 before there is one) and always x0 when warm=False *)
Theorem C18_start : forall (E : IPS) div lsqr (A : linop E E) b c warm x0 (calls : list (E * R)),
  let q := quad_init (Some A) b c false warm in
  let rs := prox_session (quad_prox div lsqr q) x0 calls in
  length rs = length calls /\
  forall j x tau, nth_error calls j = Some (x, tau) ->
    nth_error rs j = Some (if Rle_dec tau 0 then Err ValueError
      else Ok (lsqr (fun v => v [+] tau [*] A v) (x [-] tau [*] match b with Some b => b | None => vzero end)
                 (if warm then last_result x0 (firstn j rs) else x0))).
Proof. exact C18_start_l. Qed.
Print Assumptions C18_start.

(** f(x) = x^2/2 on the real line with the exact minimiser y/(1+tau) as optimize: steps 1, -1, 3
    at 4 *)
Example C73_example :
  let u := mkNL (E:=R_IPS) (fun x => x * x / 2) (fun x => x) (fun _ y tau _ => Ok (y / (1 + tau))) in
  prox_session (nl_prox u 10 true) (mkNLSt None None) [(4 : R, 1); (4, -1); (4, 3)] = [Ok 2; Err ValueError; Ok 1] /\
  is_min (etot (E:=R_IPS) (fun z => nl_funprox u (4 : R_IPS) z 1)) (2 : R_IPS).
Proof. exact C73_example_l. Qed.

(** Op = 3 on the real line with an lsqr that returns its start plus one (0 when there is none) *)
Example C18_start_example :
  let lsqr := fun (_ : R_IPS -> R_IPS) (_ : R_IPS) (s : option R_IPS) => match s with Some p => p + 1 | None => 0 end : R_IPS in
  prox_session (quad_prox (E:=R_IPS) (fun _ y => y) lsqr (quad_init (Some (scal_linop R_IPS 3)) None 0 false true)) None
    [(4 : R, 1); (4, -1); (4, 3)] = [Ok 0; Err ValueError; Ok (0 + 1)].
Proof. exact C18_start_example_l. Qed.
