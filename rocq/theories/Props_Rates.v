(** Property theorems for Rates: statements only; every proof is [exact] a lemma of P_Rates.v.
    Generated from the tagged lemmas of that file. *)
From Coq Require Import String Psatz.
From Verif Require Import Base Space Spec Cplx ConvexFacts Smooth VSum M_ProxOp SpecOps P_ProxOp M_Norms P_Norms M_Loop LoopFacts SeqFacts M_PG M_Split M_PD SplitMath P_PG P_PG2 P_PG3 P_Split2 S_Seq Compact Fejer IterMath S_PD P_PD P_PD2 P_Iter P_Iter2 S_Exist InexactMath InexactMath2 P_Inexact RateMath.
From Verif Require Import S_Rates.
From Verif Require Import P_Rates.
Open Scope result_scope.
Open Scope R_scope.


(** the contraction factors are below 1: 1/(1+ts); max(|1-ts|, |1-tL|) for 0 < t < 2/L;
    max((1-ts)/(1+ts), (tL-1)/(tL+1)) for every t > 0. The best steps are t = 2/(s+L),
    giving (L-s)/(L+s), and t = 1/sqrt(sL), giving (sqrt L - sqrt s)/(sqrt L + sqrt s): no
    other t is better *)
Theorem C90_factors : forall s L, 0 < s < L ->
  (forall t, 0 < t -> 0 < / (1 + t * s) < 1 /\ 0 <= refl_rate s L t < 1 /\ (t < 2 / L -> 0 <= grad_rate s L t < 1)) /\
  grad_rate s L (2 / (s + L)) = (L - s) / (L + s) /\ (forall t, (L - s) / (L + s) <= grad_rate s L t) /\
  refl_rate s L (/ sqrt (s * L)) = (sqrt L - sqrt s) / (sqrt L + sqrt s) /\ (forall t, 0 < t -> (sqrt L - sqrt s) / (sqrt L + sqrt s) <= refl_rate s L t).
Proof. exact C90_factors_l. Qed.
Print Assumptions C90_factors.

(** f - s/2|.|^2 convex, s > 0, m the minimiser: after n iterations of ProximalPoint |x - m| <=
    |x0 - m| / (1 + tau s)^n *)
Theorem C90_proximal_point : forall (E : IPS) (o : Op E) f x0 tau s m, impl_prox o f -> strongly_convex s f -> 0 < s -> 0 < tau -> is_min f m ->
  forall n, exists x tr, ProximalPoint o x0 tau n None = Ok (x, tr) /\ norm (x [-] m) <= (/ (1 + tau * s)) ^ n * norm (x0 [-] m).
Proof. exact C90_proximal_point_l. Qed.
Print Assumptions C90_proximal_point.

(** f with L-Lipschitz gradient, f - sf/2|.|^2 and g - sg/2|.|^2 convex (sf, sg >= 0), fixed
    step, no acceleration, relaxation eta >= 0, m a minimiser of f + eps g: after n
    iterations |x - m| <= Q^n |x0 - m| with Q = |1-eta| + eta max(|1-tau sf|, |1-tau L|) /
    (1 + eps tau sg), which is below 1 when tau < 2/L, 0 < eta <= 1 and sf > 0 or sg > 0 *)
Theorem C90_proximal_gradient : forall (E : IPS) (proxf proxg : Op E) f df L sf g sg eps x0 tau beta eta niterback accel m, smooth_op proxf f df L -> impl_prox proxg g -> 0 <= sf < L -> strongly_convex sf (etot f) ->
  0 <= sg -> strongly_convex sg g -> 0 < eps -> 0 < tau -> 0 <= eta -> unaccelerated accel eta -> is_min (eadd (etot f) (escal eps g)) m ->
  let Q := Rabs (1 - eta) + eta * (/ (1 + eps * tau * sg) * grad_rate sf L tau) in
  (forall n, exists x tr, ProximalGradient proxf proxg x0 [eps] (Some tau) false beta eta (S n) niterback accel None = Ok (x, tr) /\ norm (x [-] m) <= Q ^ S n * norm (x0 [-] m)) /\
  (tau < 2 / L -> 0 < eta <= 1 -> 0 < sf \/ 0 < sg -> 0 <= Q < 1).
Proof. exact C90_proximal_gradient_l. Qed.
Print Assumptions C90_proximal_gradient.

(** f and g convex, one of them regular (s/2-strongly convex with L-Lipschitz gradient, 0 < s <
    L), eta >= 0, m with u in df(m) and -u in dg(m), either order: after n+1 iterations of
    DouglasRachfordSplitting the returned x is within q^n |x0 - y*| of m and the returned y
    within q^(n+1) |x0 - y*| of y*, where y* = m - tau u (gfirst) or m + tau u and q =
    |1-eta/2| + eta/2 max((1-tau s)/(1+tau s), (tau L-1)/(tau L+1)); q < 1 for 0 < eta <= 2,
    and m minimises f + g *)
Theorem C90_douglas_rachford : forall (E : IPS) (proxf proxg : Op E) f g s L x0 tau eta (gfirst : bool) m u, impl_prox proxf f -> impl_prox proxg g -> convex f -> convex g -> 0 < s < L -> regular s L f \/ regular s L g ->
  0 < tau -> 0 <= eta -> kkt f g m u ->
  let q := Rabs (1 - eta / 2) + eta / 2 * refl_rate s L tau in let ys := if gfirst then m [-] tau [*] u else m [+] tau [*] u in
  is_min (eadd f g) m /\ (0 < eta <= 2 -> 0 <= q < 1) /\
  forall n, exists x y tr, DouglasRachford proxf proxg x0 tau eta (S n) gfirst = Ok (x, y, tr) /\ norm (x [-] m) <= q ^ n * norm (x0 [-] ys) /\ norm (y [-] ys) <= q ^ S n * norm (x0 [-] ys).
Proof. exact C90_douglas_rachford_l. Qed.
Print Assumptions C90_douglas_rachford.

(** the same problem solved by ADMM, either order: both returned vectors are within q^n D of m
    after n+2 iterations (the one computed last already after n+1), where q = 1/2 + 1/2
    max((1-tau s)/(1+tau s), (tau L-1)/(tau L+1)) < 1 and D = |start - v*| + tau |u|, the
    start being the vector the first step uses and v* = m - tau u (gfirst) or m + tau u *)
Theorem C90_admm : forall (E : IPS) (proxf proxg : Op E) f g s L x0 z0 x z tau (gfirst : bool) m u, impl_prox proxf f -> impl_prox proxg g -> convex f -> convex g -> 0 < s < L -> regular s L f \/ regular s L g ->
  0 < tau -> kkt f g m u -> x0z0_init x0 z0 = Ok (x, z) ->
  let q := 1 / 2 + 1 / 2 * refl_rate s L tau in let D := norm (if gfirst then x [-] (m [-] tau [*] u) else z [-] (m [+] tau [*] u)) + tau * norm u in
  is_min (eadd f g) m /\ 0 <= q < 1 /\
  (forall n, exists a b tr, ADMM proxf proxg x0 tau (S n) z0 gfirst = Ok (a, b, tr) /\ norm ((if gfirst then a else b) [-] m) <= q ^ n * D) /\
  (forall n, exists a b tr, ADMM proxf proxg x0 tau (S (S n)) z0 gfirst = Ok (a, b, tr) /\ norm (a [-] m) <= q ^ n * D /\ norm (b [-] m) <= q ^ n * D).
Proof. exact C90_admm_l. Qed.
Print Assumptions C90_admm.

(** f - sf/2|.|^2 and g - sg/2|.|^2 convex, (xo, zo) minimising f(x) + g(z) + |x-z|^2/(2 tau):
    with q = 1/((1+tau sf)(1+tau sg)) (below 1 when sf or sg is positive) the vector that
    HQS computes last in each iteration is within q^n |start - limit| of its limit after n
    iterations, and the other one, after n+1 iterations, within the same distance of its own
    limit *)
Theorem C90_hqs : forall (E : IPS) (proxf proxg : Op E) f g sf sg x0 z0 x z tau (gfirst : bool) xo zo, impl_prox proxf f -> impl_prox proxg g -> 0 <= sf -> 0 <= sg -> strongly_convex sf f -> strongly_convex sg g ->
  0 < tau -> x0z0_init x0 z0 = Ok (x, z) -> hqs_min f g tau xo zo ->
  let q := / (1 + tau * sf) * / (1 + tau * sg) in let D := norm (if gfirst then x [-] xo else z [-] zo) in
  (0 < sf \/ 0 < sg -> 0 < q < 1) /\
  (forall n, exists a b tr, HQS proxf proxg x0 [tau] n z0 gfirst = Ok (a, b, tr) /\ norm (if gfirst then a [-] xo else b [-] zo) <= q ^ n * D) /\
  (forall n, exists a b tr, HQS proxf proxg x0 [tau] (S n) z0 gfirst = Ok (a, b, tr) /\ norm (if gfirst then b [-] zo else a [-] xo) <= q ^ n * D).
Proof. exact C90_hqs_l. Qed.
Print Assumptions C90_hqs.

(** f - sf/2|.|^2 and g* - sg/2|.|^2 convex, theta = 1, tau mu |A|^2 <= kappa < 1, (xo, yo) a
    saddle point, either order: PrimalDual returns after n iterations an x within sqrt(tau)
    q^n D of xo and after n+1 iterations a y within sqrt(mu) q^n D of yo, where q = 1/(1 +
    min(sf tau, sg mu)/(1 + sqrt kappa)) (below 1 when sf, sg > 0) and D = 3 sqrt((1 + sqrt
    kappa)/(1 - sqrt kappa)) sqrt(|x0-xo|^2/tau + |y0-yo|^2/mu) *)
Theorem C90_primal_dual : forall (E F : IPS) (A : linop E F) proxf proxg f gs sf sg alias x0 tau mu kappa y0 z (gfirst : bool) xo yo, impl_prox proxf f -> impl_proxdual proxg gs ->
  0 <= sf -> 0 <= sg -> strongly_convex sf f -> strongly_convex sg gs -> 0 < tau -> 0 < mu -> 0 <= kappa < 1 -> (forall a, tau * mu * norm2 (lapp A a) <= kappa * norm2 a) -> alias = None \/ z = None ->
  saddle A f gs (zvec z) xo yo ->
  let q := / (1 + Rmin (sf * tau) (sg * mu) / (1 + sqrt kappa)) in let D := 3 * sqrt ((1 + sqrt kappa) / (1 - sqrt kappa)) * wnorm tau mu (x0 [-] xo) (y0vec y0 [-] yo) in
  (0 < sf -> 0 < sg -> 0 < q < 1) /\
  (forall n, exists x y tr, PrimalDual proxf proxg A alias x0 (Scalar tau) (Scalar mu) y0 z 1 n gfirst = Ok (x, y, tr) /\ norm (x [-] xo) <= sqrt tau * (q ^ n * D)) /\
  (forall n, exists x y tr, PrimalDual proxf proxg A alias x0 (Scalar tau) (Scalar mu) y0 z 1 (S n) gfirst = Ok (x, y, tr) /\ norm (y [-] yo) <= sqrt mu * (q ^ n * D)).
Proof. exact C90_primal_dual_l. Qed.
Print Assumptions C90_primal_dual.

(** the factors cannot be improved: on the square c/2 x^2 of the real line ProximalPoint returns
    exactly x0/(1 + tau c)^n, and ProximalGradient with g = 0 returns exactly (1 - tau c)^n
    x0 (take c = s or c = L) *)
Theorem C90_sharp : forall c tau (x0 : R) n, 0 < c -> 0 < tau ->
  (exists tr, ProximalPoint (quad1 c) (x0 : R_IPS) tau n None = Ok ((/ (1 + tau * c)) ^ n * x0, tr)) /\
  (exists tr, ProximalGradient (quad1 c) zero1 (x0 : R_IPS) [1] (Some tau) false 1 1 (S n) 1 None None = Ok ((1 - tau * c) ^ S n * x0, tr)).
Proof. exact C90_sharp_l. Qed.
Print Assumptions C90_sharp.

(** x^2/2 on the real line with its own conjugate meets all the hypotheses with s = 1/2, L = 1
    (f = g = f* = x^2/2, A = identity, tau = mu = 1/2, kappa = 1/4, solution 0) *)
Example C90_example : let f := etot (E:=R_IPS) (fun x : R_IPS => 1 / 2 * (x * x)) in
  impl_prox half1 f /\ impl_proxdual half1 f /\ smooth_op (quad1 1) (fun x : R_IPS => 1 / 2 * (x * x)) (fun x : R_IPS => 1 * x) 1 /\ strongly_convex (1 / 2) f /\ regular (1 / 2) 1 f /\ is_min f (0 : R_IPS) /\
  is_min (eadd f (escal 1 f)) (0 : R_IPS) /\ kkt f f (0 : R_IPS) (0 : R_IPS) /\ hqs_min f f 1 (0 : R_IPS) (0 : R_IPS) /\ saddle (id_linop R_IPS) f f (zvec None) (0 : R_IPS) (0 : R_IPS) /\
  (forall a : R_IPS, 1 / 2 * (1 / 2) * norm2 (lapp (id_linop R_IPS) a) <= 1 / 4 * norm2 a) /\ refl_rate (1 / 2) 1 1 = 1 / 3 /\ x0z0_init (Some (1 : R_IPS)) None = Ok (1, 1).
Proof. exact C90_example_l. Qed.
