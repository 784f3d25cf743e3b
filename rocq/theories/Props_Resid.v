(** Property theorems for Resid: statements only; every proof is [exact] a lemma of P_Resid.v.
    Generated from the tagged lemmas of that file. *)
From Coq Require Import String Psatz.
From Verif Require Import Base Space Spec VSum Sep ConvexFacts Smooth MatFacts M_ProxOp SpecOps P_ProxOp M_Norms P_Norms M_Loop LoopFacts LoopFacts2 SeqFacts M_PG M_Split M_PD M_Breg SplitMath S_PG2 P_PG P_PG2 P_PG3 P_Multi3 P_Split P_Split2 S_Split3 P_Split3 S_PD P_PD S_Seq Compact Fejer IterMath IterMath2 IterMath3 S_Iter P_Iter P_Iter2 S_Pnp PnpMath P_Pnp M_L1 S_L1 P_L1 M_L2 M_Objs S_Sparse P_Sparse S_Lasso P_Lasso S_Incons InconsMath P_Incons MetricMath S_Metric P_Metric.
From Verif Require Import P_Resid.
Open Scope result_scope.
Open Scope R_scope.


(** f convex with exact prox, any step tau > 0 and start: ProximalPoint never raises; the
    distance between the iterates returned with niter = n and n + 1 never increases with n;
    it bounds the error of the last one, f(x_(n+1)) - f(y) <= |x_(n+1) - x_n| |x_(n+1) - y|
    / tau for every y in the domain; and if xo is a minimiser, (n + 1) |x_(n+1) - x_n|^2 <=
    |x0 - xo|^2 *)
Theorem C105_proximal_point : forall (E : IPS) (o : Op E) f x0 tau, impl_prox o f -> convex f -> 0 < tau ->
  exists xs, xs 0%nat = x0 /\ (forall n, ProximalPoint o x0 tau n None = Ok (xs n, map xs (seq 1 n))) /\
    (forall n, norm (xs (S (S n)) [-] xs (S n)) <= norm (xs (S n) [-] xs n)) /\
    (forall n y, edom f y -> edom f (xs (S n)) /\ eval f (xs (S n)) - eval f y <= norm (xs (S n) [-] xs n) * norm (xs (S n) [-] y) / tau) /\
    (forall n xo, is_min f xo -> INR (S n) * norm2 (xs (S n) [-] xs n) <= norm2 (x0 [-] xo)).
Proof. exact C105_proximal_point_l. Qed.
Print Assumptions C105_proximal_point.

(** f convex with an L-Lipschitz gradient, g convex with exact prox, weight eps > 0, fixed step
    tau, no acceleration (or a relaxation eta, which disables it) and 0 < eta < 2 - tau L /
    2: ProximalGradient never raises; the distance between the iterates returned with niter
    = n and n + 1 never increases with n; if xo minimises f + eps g, (n + 1) (2 - tau L / 2
    - eta) |x_(n+1) - x_n|^2 <= eta |x0 - xo|^2; and without relaxation this distance bounds
    the error: F(x_(n+1)) - F(y) <= |x_(n+1) - x_n| |x_(n+1) - y| / tau for F = f + eps g
    and every y in its domain *)
Theorem C105_proximal_gradient : forall (E : IPS) (proxf proxg : Op E) f df L g x0 eps tau beta eta niterback accel,
  smooth_op proxf f df L -> impl_prox proxg g -> convex g -> 0 < eps -> 0 < tau -> 0 < eta < 2 - tau * L / 2 -> unaccelerated accel eta ->
  exists xs, xs 0%nat = x0 /\ (forall n, ProximalGradient proxf proxg x0 [eps] (Some tau) false beta eta (S n) niterback accel None = Ok (xs (S n), map xs (seq 1 (S n)))) /\
    (forall n, norm (xs (S (S n)) [-] xs (S n)) <= norm (xs (S n) [-] xs n)) /\
    (forall n xo, is_min (eadd (etot f) (escal eps g)) xo -> INR (S n) * (2 - tau * L / 2 - eta) * norm2 (xs (S n) [-] xs n) <= eta * norm2 (x0 [-] xo)) /\
    (eta = 1 -> forall n y, edom g y -> edom g (xs (S n)) /\ f (xs (S n)) + eps * eval g (xs (S n)) - (f y + eps * eval g y) <= norm (xs (S n) [-] xs n) * norm (xs (S n) [-] y) / tau).
Proof. exact C105_proximal_gradient_l. Qed.
Print Assumptions C105_proximal_gradient.

(** the same with the operator that PlugAndPlay builds around a firmly non-expansive denoiser D
    in the place of g: the distance between consecutive iterates never increases, and (n +
    1) (2 - tau L / 2 - eta) |x_(n+1) - x_n|^2 <= eta |x0 - xo|^2 for every xo that a
    gradient step followed by the denoiser leaves unchanged *)
Theorem C105_denoiser_gradient : forall m fuel (proxf : Op (Vec m)) f df L den D dims x0 eps tau beta eta niterback accel,
  smooth_op proxf f df L -> 0 < eps -> 0 < tau -> 0 < eta < 2 - tau * L / 2 -> unaccelerated accel eta -> denoises den dims (eps * tau) D -> firm D ->
  exists xs, xs 0%nat = x0 /\ (forall n, PlugAndPlay (S fuel) (fun pf pg x0 => ProximalGradient pf pg x0 [eps] (Some tau) false beta eta (S n) niterback accel None) proxf den dims x0 = Ok (xs (S n), map xs (seq 1 (S n)))) /\
    (forall n, norm (xs (S (S n)) [-] xs (S n)) <= norm (xs (S n) [-] xs n)) /\
    (forall n xo, D (xo [-] tau [*] df xo) = xo -> INR (S n) * (2 - tau * L / 2 - eta) * norm2 (xs (S n) [-] xs n) <= eta * norm2 (x0 [-] xo)).
Proof. exact C105_denoiser_gradient_l. Qed.
Print Assumptions C105_denoiser_gradient.

(** f and g convex with exact prox, any tau > 0, either guess, either order: ADMM never raises.
    Write r for x - z and s for the change of the vector computed last (z, or x when gfirst)
    over the last iteration. The two residuals are small on the last iterate, not only on
    average: (n + 1) (|r|^2 + |s|^2) <= |(first x or z computed) - (xo -+ tau u)|^2 after n
    + 2 iterations, for every xo with multiplier u; the distance between the vector computed
    first and the one computed last of the previous iteration never increases; and the
    residuals bound the error: for every y in the domain, tau (f(x) + g(z) - f(y) - g(y)) <=
    |s| |(vector computed first) - y| + |sum of all r| |r| *)
Theorem C105_admm : forall (E : IPS) (proxf proxg : Op E) f g x0 z0 x z tau (gfirst : bool),
  impl_prox proxf f -> impl_prox proxg g -> convex f -> convex g -> 0 < tau -> x0z0_init x0 z0 = Ok (x, z) ->
  exists xs zs, (forall n, exists tr, ADMM proxf proxg x0 tau n z0 gfirst = Ok (xs n, zs n, tr)) /\
    (forall n xo u, kkt f g xo u -> INR (S n) * (norm2 (xs (S (S n)) [-] zs (S (S n))) + norm2 (if gfirst then xs (S (S n)) [-] xs (S n) else zs (S (S n)) [-] zs (S n))) <=
       norm2 (if gfirst then zs 1%nat [-] (xo [+] tau [*] u) else xs 1%nat [-] (xo [-] tau [*] u))) /\
    (forall n, norm (if gfirst then zs (S (S (S n))) [-] xs (S (S n)) else xs (S (S (S n))) [-] zs (S (S n))) <= norm (if gfirst then zs (S (S n)) [-] xs (S n) else xs (S (S n)) [-] zs (S n))) /\
    (forall n y, edom f y -> edom g y -> edom f (xs (S n)) /\ edom g (zs (S n)) /\
       eval f (xs (S n)) + eval g (zs (S n)) - (eval f y + eval g y) <=
         ((if gfirst then norm (xs (S n) [-] xs n) * norm (zs (S n) [-] y) else norm (zs (S n) [-] zs n) * norm (xs (S n) [-] y))
          + norm (VS (S n) (fun j => xs (S j) [-] zs (S j))) * norm (xs (S n) [-] zs (S n))) / tau).
Proof. exact C105_admm_l. Qed.
Print Assumptions C105_admm.

(** PlugAndPlay with ADMM and a firmly non-expansive denoiser D: the same two residuals satisfy
    (n + 1) (|r|^2 + |s|^2) <= |(first x or z computed) - (xo +- u)|^2 after n + 2
    iterations, for every balanced pair (xo, u), and the distance between the vector
    computed first and the one computed last of the previous iteration never increases *)
Theorem C105_denoiser_admm : forall m fuel (proxf : Op (Vec m)) f den D dims x0 tau z0 (gfirst : bool),
  impl_prox proxf f -> convex f -> 0 < tau -> denoises den dims tau D -> firm D ->
  exists xs zs, (forall n, exists tr, PlugAndPlay_default (S fuel) proxf den dims x0 tau n z0 gfirst = Ok (xs n, zs n, tr)) /\
    (forall n xo u, balanced f tau D xo u -> INR (S n) * (norm2 (xs (S (S n)) [-] zs (S (S n))) + norm2 (if gfirst then xs (S (S n)) [-] xs (S n) else zs (S (S n)) [-] zs (S n))) <=
       norm2 (if gfirst then zs 1%nat [-] (xo [-] u) else xs 1%nat [-] (xo [+] u))) /\
    (forall n, norm (if gfirst then zs (S (S (S n))) [-] xs (S (S n)) else xs (S (S (S n))) [-] zs (S (S n))) <= norm (if gfirst then zs (S (S n)) [-] xs (S n) else xs (S (S n)) [-] zs (S n))).
Proof. exact C105_denoiser_admm_l. Qed.
Print Assumptions C105_denoiser_admm.

(** f and g convex with exact prox, any tau > 0 and 0 < eta < 2, either order: besides what C49
    says about its size and monotonicity, the distance between the two proximal points x and
    p of an iteration bounds the error: with y the auxiliary vector before that iteration,
    the next one being y + eta (p - x), and x the point returned, tau (f + g at the two
    points - f(v) - g(v)) <= |p - x| |y - x + p - v| for every v in the domain *)
Theorem C105_douglas_rachford : forall (E : IPS) (proxf proxg : Op E) f g x0 tau eta (gfirst : bool),
  impl_prox proxf f -> impl_prox proxg g -> convex f -> convex g -> 0 < tau -> 0 < eta < 2 ->
  exists xs ps ys, ys 0%nat = x0 /\ (forall n, exists tr, DouglasRachford proxf proxg x0 tau eta (S n) gfirst = Ok (xs n, ys (S n), tr)) /\ (forall n, ys (S n) = ys n [+] eta [*] (ps n [-] xs n)) /\
    (forall n, norm (ps (S n) [-] xs (S n)) <= norm (ps n [-] xs n)) /\
    (forall n v, edom f v -> edom g v -> (if gfirst then edom f (ps n) /\ edom g (xs n) else edom f (xs n) /\ edom g (ps n)) /\
       (if gfirst then eval f (ps n) + eval g (xs n) else eval f (xs n) + eval g (ps n)) - (eval f v + eval g v) <= norm (ps n [-] xs n) * norm ((ys n [-] xs n) [+] (ps n [-] v)) / tau).
Proof. exact C105_douglas_rachford_l. Qed.
Print Assumptions C105_douglas_rachford.

(** f and gs convex with exact prox and dual prox, theta = 1, constant steps with tau mu |A a|^2
    <= kappa |a|^2 for some kappa < 1, any start, either order: PrimalDual never raises.
    Take the pairs (x, y) after n iterations (with gfirst, x after n and y after n + 1), and
    measure changes with |a|^2/(2 tau) + |b|^2/(2 mu) - <A a, b>: the change from one pair
    to the next never increases with n; (n + 1) times it is at most the distance of the
    first pair from any saddle point; and it bounds the gap of the last pair: for L(x, y) =
    <A x, y> + <z, x> + f(x) - gs(y) and every (u, v) in the domains, L(x, v) - L(u, y) is
    at most twice the product of the square roots of the last change and of the distance to
    (u, v) *)
Theorem C105_primal_dual : forall (E F : IPS) (A : linop E F) proxf proxg f gs alias x0 tau mu kappa y0 z (gfirst : bool),
  impl_prox proxf f -> impl_proxdual proxg gs -> convex f -> convex gs -> 0 < tau -> 0 < mu -> 0 <= kappa < 1 -> (forall a, tau * mu * norm2 (lapp A a) <= kappa * norm2 a) -> alias = None \/ z = None ->
  exists xs ys, (forall n, exists tr, PrimalDual proxf proxg A alias x0 (Scalar tau) (Scalar mu) y0 z 1 n gfirst = Ok (xs n, ys n, tr)) /\
    let ws := fun n => if gfirst then ys (S n) else ys n in
    (forall n, pd_metric A tau mu (xs (S (S n)) [-] xs (S n)) (ws (S (S n)) [-] ws (S n)) <= pd_metric A tau mu (xs (S n) [-] xs n) (ws (S n) [-] ws n)) /\
    (forall n xo yo, saddle A f gs (zvec z) xo yo -> INR (S n) * pd_metric A tau mu (xs (S n) [-] xs n) (ws (S n) [-] ws n) <= pd_metric A tau mu (xs 0%nat [-] xo) (ws 0%nat [-] yo)) /\
    (forall n u v, edom f u -> edom gs v -> edom f (xs (S n)) /\ edom gs (ws (S n)) /\
       lagr A f gs (zvec z) (xs (S n)) v - lagr A f gs (zvec z) u (ws (S n)) <= sqrt (2 * pd_metric A tau mu (xs (S n) [-] xs n) (ws (S n) [-] ws n)) * sqrt (2 * pd_metric A tau mu (xs (S n) [-] u) (ws (S n) [-] v))).
Proof. exact C105_primal_dual_l. Qed.
Print Assumptions C105_primal_dual.

(** f and g convex with exact prox, mu |A a|^2 <= kappa tau |a|^2 for some kappa < 1, either
    guess: LinearizedADMM never raises. For every xo with multiplier v, the two residuals of
    the last iterates satisfy (n + 1) (1 - kappa) (|A x_(n+1) - z_(n+1)|^2 + tau/mu |x_(n+2)
    - x_(n+1)|^2) <= 4 (tau^2 |v|^2 + tau/mu |x_1 - xo|^2); and for every y with y in the
    domain of f and A y in that of g they bound f(x_(n+2)) + g(z_(n+1)) - f(y) - g(A y) by
    |x_(n+2) - x_(n+1)| |x_(n+2) - y| / mu + (|sum of all A x - z| |A x_(n+2) - z_(n+1)| +
    |A x_(n+1) - z_(n+1)| |A (x_(n+2) - y)|) / tau *)
Theorem C105_linearized_admm : forall (E F : IPS) (A : linop E F) proxf proxg f g tau mu kappa x0 z0 x z,
  impl_prox proxf f -> impl_prox proxg g -> convex f -> convex g -> 0 < tau -> 0 < mu -> 0 <= kappa < 1 -> (forall a, mu * norm2 (lapp A a) <= kappa * tau * norm2 a) -> x0z0_initA (lapp A) x0 z0 = Ok (x, z) ->
  exists xs zs, (forall n, exists tr, LinearizedADMM proxf proxg A x0 tau mu n z0 = Ok (xs n, zs n, tr)) /\
    (forall n xo v, kktA f g A xo v -> INR (S n) * (1 - kappa) * (norm2 (lapp A (xs (S n)) [-] zs (S n)) + tau / mu * norm2 (xs (S (S n)) [-] xs (S n))) <= 4 * (tau * tau * norm2 v + tau / mu * norm2 (xs 1%nat [-] xo))) /\
    (forall n y, edom f y -> edom g (lapp A y) -> edom f (xs (S (S n))) /\ edom g (zs (S n)) /\
       eval f (xs (S (S n))) + eval g (zs (S n)) - (eval f y + eval g (lapp A y)) <= norm (xs (S (S n)) [-] xs (S n)) * norm (xs (S (S n)) [-] y) / mu +
         (norm (VS (S n) (fun j => lapp A (xs (S j)) [-] zs (S j))) * norm (lapp A (xs (S (S n))) [-] zs (S n)) + norm (lapp A (xs (S n)) [-] zs (S n)) * norm (lapp A (xs (S (S n)) [-] y))) / tau).
Proof. exact C105_linearized_admm_l. Qed.
Print Assumptions C105_linearized_admm.

(** the last change being small does not mean that the last iterate is near a solution, however
    small the change, and the bound of C105_proximal_point is attained: for the library
    object L1(sigma = d) on arrays with one entry, every d > 0, every distance K > 0 and
    every step there is a start from which ProximalPoint moves by tau d and stops at
    distance K from 0, the only minimiser; its error equals |x_1 - x_0| |x_1 - 0| / tau *)
Theorem C105_settled_refuted : forall (o : Op (Vec 1)) d K tau, is_L1 o d -> 0 < d -> 0 < K -> 0 < tau ->
  (forall x, is_min (etot (fun x : Vec 1 => d * sum_abs x)) x <-> x = vzero) /\
  exists x0 x1, ProximalPoint o x0 tau 1 None = Ok (x1, [x1]) /\ norm (x1 [-] x0) = tau * d /\ norm (x1 [-] vzero) = K /\ d * sum_abs x1 - d * sum_abs (vzero : Vec 1) = norm (x1 [-] x0) * norm (x1 [-] vzero) / tau.
Proof. exact C105_settled_refuted_l. Qed.
Print Assumptions C105_settled_refuted.

(** two objects L1 with any weights, arrays of any size, any tau > 0: x = 0 with multiplier 0
    meets the hypothesis of C105_admm, so after n + 2 iterations of ADMM the squared
    difference of x and z, times n + 1, is at most the squared norm of the first vector
    computed; and an object L2 together with L1 meets those of C105_proximal_gradient *)
Example C105_example : forall n (of og : Op (Vec n)) lf lg x0 tau (gfirst : bool), is_L1 of lf -> is_L1 og lg -> 0 <= lf -> 0 <= lg -> 0 < tau ->
  (exists xs zs, (forall k, exists tr, ADMM of og (Some x0) tau k None gfirst = Ok (xs k, zs k, tr)) /\ forall k, INR (S k) * norm2 (xs (S (S k)) [-] zs (S (S k))) <= norm2 (if gfirst then zs 1%nat else xs 1%nat)) /\
  (forall (F : IPS) (A : linop (Vec n) F) b s L (o : Op (Vec n)), is_L2 o A b s -> 0 < s -> 0 < L -> (forall v, s * norm2 (A v) <= L * norm2 v) ->
     exists xs, xs 0%nat = x0 /\ (forall k, ProximalGradient o of x0 [1] (Some (1 / L)) false (1 / 2) 1 (S k) 10 None None = Ok (xs (S k), map xs (seq 1 (S k)))) /\
       forall k, norm (xs (S (S k)) [-] xs (S k)) <= norm (xs (S k) [-] xs k)).
Proof. exact C105_example_l. Qed.
