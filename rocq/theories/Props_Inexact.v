(** Property theorems for Inexact: statements only; every proof is [exact] a lemma of P_Inexact.v.
    Generated from the tagged lemmas of that file. *)
From Coq Require Import String Psatz.
From Verif Require Import Base Space Spec Cplx ConvexFacts Smooth VSum M_ProxOp SpecOps P_ProxOp M_Norms P_Norms M_Loop LoopFacts SeqFacts M_PG M_Split M_PD SplitMath P_PG P_PG2 P_PG3 P_Split2 S_Seq Compact Fejer IterMath S_PD P_PD P_PD2 P_Iter P_Iter2 S_Exist InexactMath InexactMath2.
From Verif Require Import S_Inexact.
From Verif Require Import P_Inexact.
Open Scope result_scope.
Open Scope R_scope.


(** the constants used below. The prox of a convex f is 1-Lipschitz and so is 2 prox - identity;
    if f - s/2 |.|^2 is convex the prox with step t is 1/(1+ts)-Lipschitz; if moreover f has
    an L-Lipschitz gradient the gradient step x - t df(x) is Lipschitz with constant
    max(|1-ts|, |1-tL|) and 2 prox - identity with constant max((1-ts)/(1+ts),
    (tL-1)/(tL+1)), both below 1 when s > 0 (and t < 2/L for the gradient step); 1 + q + ...
    + q^(n-1) is n for q = 1 and at most 1/(1-q) for q < 1 *)
Theorem C89_moduli :
  (forall (E : IPS) (f : efun E) t, convex f -> 0 < t -> prox_lip 1 f t /\ refl_lip 1 f t) /\
  (forall (E : IPS) (f : efun E) s t, strongly_convex s f -> 0 <= s -> 0 < t -> prox_lip (/ (1 + t * s)) f t) /\
  (forall (E : IPS) (f : E -> R) df s L t, 0 <= s < L -> strongly_convex s (etot f) -> L_smooth f df L -> 0 < t ->
     lipschitz (Rmax (Rabs (1 - t * s)) (Rabs (1 - t * L))) (fun x => x [-] t [*] df x) /\
     refl_lip (Rmax ((1 - t * s) / (1 + t * s)) ((t * L - 1) / (1 + t * L))) (etot f) t) /\
  (forall s L t, 0 < s < L -> 0 < t -> / (1 + t * s) < 1 /\ 0 <= Rmax ((1 - t * s) / (1 + t * s)) ((t * L - 1) / (1 + t * L)) < 1 /\ (t < 2 / L -> 0 <= Rmax (Rabs (1 - t * s)) (Rabs (1 - t * L)) < 1)) /\
  (forall n, geom 1 n = INR n) /\ (forall q n, 0 <= q < 1 -> geom q n <= / (1 - q)).
Proof. exact C89_moduli_l. Qed.
Print Assumptions C89_moduli.

(** two ProximalPoint runs on the same f, from x0 and x0', with operators whose prox is within e
    and e' of the proximal point of f, the proximal map being q-Lipschitz: after n
    iterations the two results differ by at most q^n |x0'-x0| + (e+e')(1 + q + ... +
    q^(n-1)); e = 0 is an exact operator *)
Theorem C89_proximal_point : forall (E : IPS) (o o' : Op E) f x0 x0' tau e e' q, approx_prox e tau o f -> approx_prox e' tau o' f -> prox_lip q f tau -> 0 <= q ->
  exists xs xs', (forall n, ProximalPoint o x0 tau n None = Ok (xs n, map xs (seq 1 n)) /\ ProximalPoint o' x0' tau n None = Ok (xs' n, map xs' (seq 1 n))) /\
    forall n, norm (xs' n [-] xs n) <= q ^ n * norm (x0' [-] x0) + (e + e') * geom q n.
Proof. exact C89_proximal_point_l. Qed.
Print Assumptions C89_proximal_point.

(** two ProximalGradient runs (fixed step, no acceleration, relaxation eta >= 0) whose gradients
    are within ef, ef' of df and whose prox are within eg, eg' of the proximal point of g, x
    - tau df(x) being qf-Lipschitz and the prox qg-Lipschitz: the results after n iterations
    differ by at most q^n |x0'-x0| + eta (eg+eg' + qg tau (ef+ef')) (1 + ... + q^(n-1)) with
    q = |1-eta| + eta qg qf *)
Theorem C89_proximal_gradient : forall (E : IPS) (proxf proxg proxf' proxg' : Op E) df g eps x0 x0' tau beta eta niterback accel ef eg ef' eg' qf qg,
  approx_grad ef proxf df -> approx_prox eg (eps * tau) proxg g -> approx_grad ef' proxf' df -> approx_prox eg' (eps * tau) proxg' g ->
  lipschitz qf (fun x => x [-] tau [*] df x) -> prox_lip qg g (eps * tau) -> 0 <= qf -> 0 <= qg -> 0 < tau -> 0 <= eta -> unaccelerated accel eta ->
  let q := Rabs (1 - eta) + eta * (qg * qf) in
  exists xs xs', xs 0%nat = x0 /\ xs' 0%nat = x0' /\
    (forall n, ProximalGradient proxf proxg x0 [eps] (Some tau) false beta eta (S n) niterback accel None = Ok (xs (S n), map xs (seq 1 (S n))) /\
      ProximalGradient proxf' proxg' x0' [eps] (Some tau) false beta eta (S n) niterback accel None = Ok (xs' (S n), map xs' (seq 1 (S n)))) /\
    forall n, norm (xs' n [-] xs n) <= q ^ n * norm (x0' [-] x0) + eta * (eg + eg' + qg * (tau * (ef + ef'))) * geom q n.
Proof. exact C89_proximal_gradient_l. Qed.
Print Assumptions C89_proximal_gradient.

(** two DouglasRachfordSplitting runs with operators within ef, ef' (f) and eg, eg' (g) of the
    proximal points, f and g convex with 2 prox - identity df- and dg-Lipschitz, eta >= 0,
    either order: after n+1 iterations the returned y differ by at most q^(n+1) |x0'-x0| +
    eta (3 e1 + e2)(1 + ... + q^n), q = |1-eta/2| + eta/2 df dg, e1 the total error of the
    operator that is applied first, e2 of the other; the returned x differ by at most q^n
    |x0'-x0| + eta (3 e1 + e2)(1 + ... + q^(n-1)) + e1 *)
Theorem C89_douglas_rachford : forall (E : IPS) (proxf proxg proxf' proxg' : Op E) f g x0 x0' tau eta (gfirst : bool) ef eg ef' eg' df dg,
  approx_prox ef tau proxf f -> approx_prox eg tau proxg g -> approx_prox ef' tau proxf' f -> approx_prox eg' tau proxg' g -> convex f -> convex g -> 0 < tau -> 0 <= eta ->
  refl_lip df f tau -> refl_lip dg g tau -> 0 <= df -> 0 <= dg ->
  let q := Rabs (1 - eta / 2) + eta / 2 * (df * dg) in let e1 := if gfirst then eg + eg' else ef + ef' in let e2 := if gfirst then ef + ef' else eg + eg' in
  exists xs ys xs' ys', (forall n, (exists tr, DouglasRachford proxf proxg x0 tau eta (S n) gfirst = Ok (xs n, ys n, tr)) /\ (exists tr, DouglasRachford proxf' proxg' x0' tau eta (S n) gfirst = Ok (xs' n, ys' n, tr))) /\
    forall n, norm (ys' n [-] ys n) <= q ^ S n * norm (x0' [-] x0) + eta * (3 * e1 + e2) * geom q (S n) /\
      norm (xs' n [-] xs n) <= q ^ n * norm (x0' [-] x0) + eta * (3 * e1 + e2) * geom q n + e1.
Proof. exact C89_douglas_rachford_l. Qed.
Print Assumptions C89_douglas_rachford.

(** two HQS runs (one tau) with operators within ef, ef' and eg, eg' of the proximal points, the
    maps being qf- and qg-Lipschitz: the vector computed last in each iteration differs
    after n iterations by at most (qf qg)^n |difference of the starts| + (e2 + q2 e1)(1 +
    ... + (qf qg)^(n-1)), the one computed first after n+1 iterations by at most q1 times
    that plus e1; index 1 is the operator applied first, 2 the other *)
Theorem C89_hqs : forall (E : IPS) (proxf proxg proxf' proxg' : Op E) f g x0 z0 x0' z0' x z x' z' tau (gfirst : bool) ef eg ef' eg' qf qg,
  approx_prox ef tau proxf f -> approx_prox eg tau proxg g -> approx_prox ef' tau proxf' f -> approx_prox eg' tau proxg' g ->
  x0z0_init x0 z0 = Ok (x, z) -> x0z0_init x0' z0' = Ok (x', z') -> prox_lip qf f tau -> prox_lip qg g tau -> 0 <= qf -> 0 <= qg ->
  let q := qf * qg in let e1 := if gfirst then eg + eg' else ef + ef' in let e2 := if gfirst then ef + ef' else eg + eg' in
  let q1 := if gfirst then qg else qf in let q2 := if gfirst then qf else qg in
  exists xs zs xs' zs', (forall n, (exists tr, HQS proxf proxg x0 [tau] n z0 gfirst = Ok (xs n, zs n, tr)) /\ (exists tr, HQS proxf' proxg' x0' [tau] n z0' gfirst = Ok (xs' n, zs' n, tr))) /\
    forall n, let d := if gfirst then fun k => norm (xs' k [-] xs k) else fun k => norm (zs' k [-] zs k) in
      let d1 := if gfirst then norm (zs' (S n) [-] zs (S n)) else norm (xs' (S n) [-] xs (S n)) in
      d n <= q ^ n * (if gfirst then norm (x' [-] x) else norm (z' [-] z)) + (e2 + q2 * e1) * geom q n /\ d1 <= q1 * d n + e1.
Proof. exact C89_hqs_l. Qed.
Print Assumptions C89_hqs.

(** two ADMM runs with operators within ef, ef' and eg, eg' of the proximal points, f and g
    convex with 2 prox - identity df- and dg-Lipschitz; let w(n) = q^n (|difference of the
    starts| + e1) + (3 e2 + e1)(1 + ... + q^(n-1)), q = 1/2 + df dg/2, where e1 is the total
    error of the operator applied first and e2 of the other and the start is the one the
    first step uses: after n+1 iterations the vector computed last differs by at most w(n) +
    e2, and after n+2 iterations the one computed first by at most w(n) + 2 e2 + e1 *)
Theorem C89_admm : forall (E : IPS) (proxf proxg proxf' proxg' : Op E) f g x0 z0 x0' z0' x z x' z' tau (gfirst : bool) ef eg ef' eg' df dg,
  approx_prox ef tau proxf f -> approx_prox eg tau proxg g -> approx_prox ef' tau proxf' f -> approx_prox eg' tau proxg' g ->
  x0z0_init x0 z0 = Ok (x, z) -> x0z0_init x0' z0' = Ok (x', z') -> convex f -> convex g -> 0 < tau ->
  refl_lip df f tau -> refl_lip dg g tau -> 0 <= df -> 0 <= dg ->
  let q := 1 / 2 + 1 / 2 * (df * dg) in let e1 := if gfirst then eg + eg' else ef + ef' in let e2 := if gfirst then ef + ef' else eg + eg' in
  let w := fun n => q ^ n * ((if gfirst then norm (x' [-] x) else norm (z' [-] z)) + e1) + (3 * e2 + e1) * geom q n in
  exists xs zs xs' zs', (forall n, (exists tr, ADMM proxf proxg x0 tau n z0 gfirst = Ok (xs n, zs n, tr)) /\ (exists tr, ADMM proxf' proxg' x0' tau n z0' gfirst = Ok (xs' n, zs' n, tr))) /\
    forall n, (if gfirst then norm (xs' (S n) [-] xs (S n)) else norm (zs' (S n) [-] zs (S n))) <= w n + e2 /\
      (if gfirst then norm (zs' (S (S n)) [-] zs (S (S n))) else norm (xs' (S (S n)) [-] xs (S (S n)))) <= w n + (2 * e2 + e1).
Proof. exact C89_admm_l. Qed.
Print Assumptions C89_admm.

(** two PrimalDual runs (theta = 1, tau mu |A|^2 <= kappa < 1, either order) from (x0, y0) and
    (x0', y0') with operators within ef, ef' of the proximal point of f and eg, eg' of that
    of g*: after n iterations the x differ by at most sqrt(tau) D and the y by at most
    sqrt(mu) D, where D = c (3 w + (n+1)(3 (ef+ef')/sqrt(tau) + (eg+eg')/sqrt(mu))), w =
    sqrt(|x0'-x0|^2/tau + |y0'-y0|^2/mu) and c^2 = (1 + sqrt kappa)/(1 - sqrt kappa): errors
    add up, they are not amplified *)
Theorem C89_primal_dual : forall (E F : IPS) (A : linop E F) proxf proxg proxf' proxg' f gs alias x0 x0' tau mu kappa y0 y0' z (gfirst : bool) ef eg ef' eg',
  approx_prox ef tau proxf f -> approx_proxdual eg mu proxg gs -> approx_prox ef' tau proxf' f -> approx_proxdual eg' mu proxg' gs -> convex f -> convex gs ->
  0 < tau -> 0 < mu -> 0 <= kappa < 1 -> (forall a, tau * mu * norm2 (lapp A a) <= kappa * norm2 a) -> alias = None \/ z = None ->
  let D := fun n => sqrt ((1 + sqrt kappa) / (1 - sqrt kappa)) * (3 * wnorm tau mu (x0' [-] x0) (y0vec y0' [-] y0vec y0) + INR (S n) * (3 * (ef + ef') / sqrt tau + (eg + eg') / sqrt mu)) in
  exists xs ys xs' ys', (forall n, (exists tr, PrimalDual proxf proxg A alias x0 (Scalar tau) (Scalar mu) y0 z 1 n gfirst = Ok (xs n, ys n, tr)) /\
      (exists tr, PrimalDual proxf' proxg' A alias x0' (Scalar tau) (Scalar mu) y0' z 1 n gfirst = Ok (xs' n, ys' n, tr))) /\
    forall n, norm (xs' n [-] xs n) <= sqrt tau * D n /\ norm (ys' n [-] ys n) <= sqrt mu * D n.
Proof. exact C89_primal_dual_l. Qed.
Print Assumptions C89_primal_dual.

(** f convex with a minimiser, tau > 0, finite dimension, the proximal points of f exist (some
    exact operator): there is a minimiser l such that for every d > 0, every large enough
    niter and every operator whose prox is accurate enough (within some e > 0 depending on d
    and niter), ProximalPoint returns a point within d of l *)
Theorem C89_reach_point : forall (E : IPS) f (x0 : E) tau, bw E -> convex f -> 0 < tau -> (exists o, impl_prox o f) -> (exists m, is_min f m) ->
  exists l, is_min f l /\ forall d, 0 < d -> exists N, forall n, (N <= n)%nat -> exists e, 0 < e /\
    forall o, approx_prox e tau o f -> exists x tr, ProximalPoint o x0 tau n None = Ok (x, tr) /\ norm (x [-] l) <= d.
Proof. exact C89_reach_point_l. Qed.
Print Assumptions C89_reach_point.

(** the same for ProximalGradient with a fixed step: f convex with L-Lipschitz gradient df, g
    convex, eps > 0, tau < 2/L, 0 < eta <= 1, no acceleration, f + eps g has a minimiser;
    the gradient and the prox are both within e *)
Theorem C89_reach_gradient : forall (E : IPS) (f : E -> R) df L g eps (x0 : E) tau beta eta niterback accel, bw E -> convex (etot f) -> 0 < L -> L_smooth f df L -> convex g -> 0 < eps ->
  0 < tau < 2 / L -> 0 < eta <= 1 -> unaccelerated accel eta -> (exists o, impl_prox o g) -> (exists m, is_min (eadd (etot f) (escal eps g)) m) ->
  exists l, is_min (eadd (etot f) (escal eps g)) l /\ forall d, 0 < d -> exists N, forall n, (N <= n)%nat -> exists e, 0 < e /\
    forall proxf proxg, approx_grad e proxf df -> approx_prox e (eps * tau) proxg g ->
      exists x tr, ProximalGradient proxf proxg x0 [eps] (Some tau) false beta eta (S n) niterback accel None = Ok (x, tr) /\ norm (x [-] l) <= d.
Proof. exact C89_reach_gradient_l. Qed.
Print Assumptions C89_reach_gradient.

(** the same for DouglasRachfordSplitting (0 < eta < 2) and ADMM, f and g convex, some solution
    with a multiplier, either order: the returned x (for ADMM both vectors) is within d of
    one minimiser of f + g *)
Theorem C89_reach_splitting : forall (E : IPS) f g tau (gfirst : bool), bw E -> convex f -> convex g -> 0 < tau -> (exists o, impl_prox (E:=E) o f) -> (exists o, impl_prox o g) -> (exists x u, kkt f g x u) ->
  (forall (x0 : E) eta, 0 < eta < 2 -> exists l, is_min (eadd f g) l /\ forall d, 0 < d -> exists N, forall n, (N <= n)%nat -> exists e, 0 < e /\
    forall proxf proxg, approx_prox e tau proxf f -> approx_prox e tau proxg g -> exists x y tr, DouglasRachford proxf proxg x0 tau eta (S n) gfirst = Ok (x, y, tr) /\ norm (x [-] l) <= d) /\
  (forall (x0 z0 : option E) x z, x0z0_init x0 z0 = Ok (x, z) -> exists l, is_min (eadd f g) l /\ forall d, 0 < d -> exists N, forall n, (N <= n)%nat -> exists e, 0 < e /\
    forall proxf proxg, approx_prox e tau proxf f -> approx_prox e tau proxg g -> exists a b tr, ADMM proxf proxg x0 tau n z0 gfirst = Ok (a, b, tr) /\ norm (a [-] l) <= d /\ norm (b [-] l) <= d).
Proof. exact C89_reach_splitting_l. Qed.
Print Assumptions C89_reach_splitting.

(** the same for PrimalDual (theta = 1, tau mu |A|^2 <= kappa < 1, a saddle point exists, either
    order): the returned x is within d of a minimiser xl of f + <z,.> + g(A .) and y within
    d of the dual solution that goes with it *)
Theorem C89_reach_primal_dual : forall (E F : IPS) (A : linop E F) f g gs alias (x0 : E) tau mu kappa y0 z (gfirst : bool), bw E -> bw F -> convex f -> convex g -> is_conj g gs -> (forall u, exists p, is_prox g 1 u p) ->
  0 < tau -> 0 < mu -> 0 <= kappa < 1 -> (forall a, tau * mu * norm2 (lapp A a) <= kappa * norm2 a) -> alias = None \/ z = None ->
  (exists o, impl_prox o f) -> (exists o, impl_proxdual o gs) -> (exists xo yo, saddle A f gs (zvec z) xo yo) ->
  exists xl yl, saddle A f gs (zvec z) xl yl /\ is_min (eadd (elin f (zvec z)) (epre g (lapp A))) xl /\ forall d, 0 < d -> exists N, forall n, (N <= n)%nat -> exists e, 0 < e /\
    forall proxf proxg, approx_prox e tau proxf f -> approx_proxdual e mu proxg gs ->
      exists x y tr, PrimalDual proxf proxg A alias x0 (Scalar tau) (Scalar mu) y0 z 1 n gfirst = Ok (x, y, tr) /\ norm (x [-] xl) <= d /\ norm (y [-] yl) <= d.
Proof. exact C89_reach_primal_dual_l. Qed.
Print Assumptions C89_reach_primal_dual.

(** the square x^2/2 on the real line with every prox, dual prox and gradient off by e: all
    hypotheses hold (f = g = x^2/2, A = identity, tau = mu = 1/2), and the bound is
    attained: ProximalPoint with tau = 1 from 0 returns e (1 + 1/2 + ... + 1/2^(n-1)) where
    an exact operator returns 0 *)
Example C89_example : let f := etot (E:=R_IPS) (fun x : R_IPS => 1 / 2 * (x * x)) in forall e, 0 <= e ->
  bw R_IPS /\ convex f /\ strongly_convex (1 / 2) f /\ L_smooth (E:=R_IPS) (fun x : R_IPS => 1 / 2 * (x * x)) (fun x : R_IPS => x) 1 /\
  (forall t, 0 < t -> approx_prox e t (off1 e) f /\ approx_proxdual e t (off1 e) f) /\ approx_grad (E:=R_IPS) e (off1 e) (fun x : R_IPS => x) /\ impl_prox (off1 0) f /\ impl_proxdual (off1 0) f /\
  is_min f (0 : R_IPS) /\ kkt f f (0 : R_IPS) (0 : R_IPS) /\ saddle (id_linop R_IPS) f f (zvec None) (0 : R_IPS) (0 : R_IPS) /\ (forall a : R_IPS, 1 / 2 * (1 / 2) * norm2 (lapp (id_linop R_IPS) a) <= 1 / 4 * norm2 a) /\
  (forall n, exists tr tr', ProximalPoint (off1 e) (0 : R_IPS) 1 n None = Ok (e * geom (1 / 2) n, tr) /\ ProximalPoint (off1 0) (0 : R_IPS) 1 n None = Ok (0, tr')).
Proof. exact C89_example_l. Qed.
