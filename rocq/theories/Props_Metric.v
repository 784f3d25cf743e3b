(** Property theorems for Metric: statements only; every proof is [exact] a lemma of P_Metric.v.
    Generated from the tagged lemmas of that file. *)
From Coq Require Import String Psatz Classical.
From Verif Require Import Base Space Spec VSum Sep ConvexFacts Smooth MatFacts M_ProxOp SpecOps P_ProxOp M_Norms P_Norms M_Loop LoopFacts LoopFacts2 SeqFacts M_PG M_Split M_PD M_Breg SplitMath P_PG P_PG2 P_PG3 P_Split P_Split2 P_Split3 S_PD P_PD S_Seq Compact Fejer IterMath IterMath2 IterMath3 S_Iter P_Iter P_Iter2 S_Exist ExistMath S_Inexact InexactMath M_Count S_Count CountMath P_Count S_Pnp PnpMath P_Pnp S_Sets P_Sets S_Sparse M_L1 S_L1 P_L1 S_Incons InconsMath EscapeMath P_Incons MetricMath.
From Verif Require Import S_Metric.
From Verif Require Import P_Metric.
Open Scope result_scope.
Open Scope R_scope.


(** f and gs convex with exact prox and dual prox, theta = 1, constant steps with tau mu |A a|^2
    <= kappa |a|^2 for some kappa < 1, any start, either order, finite dimension, and no
    assumption that a solution exists: PrimalDual never raises, and the pairs returned with
    niter = 0, 1, 2, ... either converge to a saddle point, or there is no saddle point and
    the norm of the pair tends to infinity *)
Theorem C104_primal_dual : forall (E F : IPS) (A : linop E F) proxf proxg f gs alias x0 tau mu kappa y0 z (gfirst : bool), bw E -> bw F ->
  impl_prox proxf f -> impl_proxdual proxg gs -> convex f -> convex gs -> 0 < tau -> 0 < mu -> 0 <= kappa < 1 -> (forall a, tau * mu * norm2 (lapp A a) <= kappa * norm2 a) -> alias = None \/ z = None ->
  exists xs ys, (forall n, exists tr, PrimalDual proxf proxg A alias x0 (Scalar tau) (Scalar mu) y0 z 1 n gfirst = Ok (xs n, ys n, tr)) /\
    ((exists xl yl, saddle A f gs (zvec z) xl yl /\ vcv xs xl /\ vcv ys yl) \/ ((forall xo yo, ~ saddle A f gs (zvec z) xo yo) /\ escapes (E:=Prod_IPS E F) (fun n => (xs n, ys n)))).
Proof. exact C104_primal_dual_l. Qed.
Print Assumptions C104_primal_dual.

(** PrimalDual with the operator that PlugAndPlay builds around a firmly non-expansive denoiser
    (called with the parameter 1/mu) in the place of g, any linear operator A, f convex with
    exact prox, tau mu |A a|^2 <= kappa |a|^2 for some kappa < 1, any start, either order:
    it never raises, and the pairs returned with niter = 0, 1, 2, ... either converge to a
    balanced pair (x optimal for f given y, A x unchanged by the denoiser when y/mu is
    added), or no balanced pair exists and the norm of the pair tends to infinity *)
Theorem C104_denoiser : forall (E : IPS) m fuel (A : linop E (Vec m)) proxf f den D dims alias x0 tau mu kappa y0 z (gfirst : bool), bw E ->
  impl_prox proxf f -> convex f -> denoises den dims (1 / mu) D -> firm D -> 0 < tau -> 0 < mu -> 0 <= kappa < 1 -> (forall a, tau * mu * norm2 (lapp A a) <= kappa * norm2 a) -> alias = None \/ z = None ->
  exists xs ys, (forall n, exists tr, PrimalDual proxf (obj (S (S fuel)) (denoise_body den dims)) A alias x0 (Scalar tau) (Scalar mu) y0 z 1 n gfirst = Ok (xs n, ys n, tr)) /\
    ((exists xl yl, balancedA f D A (zvec z) mu xl yl /\ vcv xs xl /\ vcv ys yl) \/ ((forall xo yo, ~ balancedA f D A (zvec z) mu xo yo) /\ escapes (E:=Prod_IPS E (Vec m)) (fun n => (xs n, ys n)))).
Proof. exact C104_denoiser_l. Qed.
Print Assumptions C104_denoiser.

(** the same for a convex g whose operator has only a prox method, so that the solver uses the
    dual prox inherited from ProxOperator: the pairs either converge to (x, y) with -(A^T y
    + z) a subgradient of f at x and y a subgradient of g at A x, so that x minimises f(x) +
    g(A x) + <z, x>, or no such pair exists and the norm of the pair tends to infinity *)
Theorem C104_inherited : forall (E F : IPS) fuel (A : linop E F) proxf b f g alias x0 tau mu kappa y0 z (gfirst : bool), bw E -> bw F ->
  impl_prox proxf f -> b_proxdual b = None -> impl_prox (obj (S fuel) b) g -> convex f -> convex g -> 0 < tau -> 0 < mu -> 0 <= kappa < 1 -> (forall a, tau * mu * norm2 (lapp A a) <= kappa * norm2 a) -> alias = None \/ z = None ->
  exists xs ys, (forall n, exists tr, PrimalDual proxf (obj (S (S fuel)) b) A alias x0 (Scalar tau) (Scalar mu) y0 z 1 n gfirst = Ok (xs n, ys n, tr)) /\
    ((exists xl yl, (is_subgrad f xl (vopp (ladj A yl [+] zvec z)) /\ is_subgrad g (lapp A xl) yl) /\ is_min (elin (eadd f (epre g (lapp A))) (zvec z)) xl /\ vcv xs xl /\ vcv ys yl) \/
     ((forall xo yo, ~ (is_subgrad f xo (vopp (ladj A yo [+] zvec z)) /\ is_subgrad g (lapp A xo) yo)) /\ escapes (E:=Prod_IPS E F) (fun n => (xs n, ys n)))).
Proof. exact C104_inherited_l. Qed.
Print Assumptions C104_inherited.

(** f and g convex with exact prox, mu |A a|^2 <= kappa tau |a|^2 for some kappa < 1, either
    guess, finite dimension, and no assumption that a solution exists: LinearizedADMM never
    raises, and either x and z converge to a minimiser xl of f(x) + g(A x) and to A xl, the
    accumulated differences A x - z, divided by tau, converging to a multiplier, or no point
    of the problem has a multiplier and x together with the accumulated differences is
    unbounded: its norm tends to infinity *)
Theorem C104_linearized_admm : forall (E F : IPS) (A : linop E F) proxf proxg f g tau mu kappa x0 z0 x z, bw E -> bw F ->
  impl_prox proxf f -> impl_prox proxg g -> convex f -> convex g -> 0 < tau -> 0 < mu -> 0 <= kappa < 1 -> (forall a, mu * norm2 (lapp A a) <= kappa * tau * norm2 a) -> x0z0_initA (lapp A) x0 z0 = Ok (x, z) ->
  exists xs zs, (forall n, exists tr, LinearizedADMM proxf proxg A x0 tau mu n z0 = Ok (xs n, zs n, tr)) /\
    ((exists xl v, kktA f g A xl v /\ is_min (eadd f (epre g (lapp A))) xl /\ vcv xs xl /\ vcv zs (lapp A xl) /\ vcv (fun n => / tau [*] VS n (fun j => lapp A (xs (S j)) [-] zs (S j))) v) \/
     ((forall xo v, ~ kktA f g A xo v) /\ escapes (E:=Prod_IPS E F) (fun n => (xs (S n), VS n (fun j => lapp A (xs (S j)) [-] zs (S j)))))).
Proof. exact C104_linearized_admm_l. Qed.
Print Assumptions C104_linearized_admm.

(** LinearizedADMM with the operator that PlugAndPlay builds around a firmly non-expansive
    denoiser (called with the parameter tau) in the place of g: either x and z converge to
    xl and A xl, for a pair (xl, u) such that xl is optimal for f given u/tau and the
    denoiser leaves A xl unchanged when u is added, or there is no such pair and x together
    with the accumulated differences A x - z is unbounded *)
Theorem C104_denoiser_linearized : forall (E : IPS) m fuel (A : linop E (Vec m)) proxf f den D dims tau mu kappa x0 z0 x z, bw E ->
  impl_prox proxf f -> convex f -> denoises den dims tau D -> firm D -> 0 < tau -> 0 < mu -> 0 <= kappa < 1 -> (forall a, mu * norm2 (lapp A a) <= kappa * tau * norm2 a) -> x0z0_initA (lapp A) x0 z0 = Ok (x, z) ->
  exists xs zs, (forall n, exists tr, LinearizedADMM proxf (obj (S fuel) (denoise_body den dims)) A x0 tau mu n z0 = Ok (xs n, zs n, tr)) /\
    ((exists xl v, balancedA f D A vzero (/ tau) xl v /\ vcv xs xl /\ vcv zs (lapp A xl)) \/
     ((forall xo v, ~ balancedA f D A vzero (/ tau) xo v) /\ escapes (E:=Prod_IPS E (Vec m)) (fun n => (xs (S n), VS n (fun j => lapp A (xs (S j)) [-] zs (S j)))))).
Proof. exact C104_denoiser_linearized_l. Qed.
Print Assumptions C104_denoiser_linearized.

(** PrimalDual with operators that may change from call to call (f and gs convex, theta = 1,
    constant steps, kappa < 1, either order, a saddle point exists): the k-th calls are
    exact up to ef k and eg k. If the errors have a finite sum, the pair returned with niter
    = 0, 1, 2, ... converges to a saddle point *)
Theorem C104_count_primal_dual : forall (E F : IPS) (A : linop E F) proxf proxg f gs cf cg ef eg alias x0 tau mu kappa y0 z (gfirst : bool), bw E -> bw F ->
  serves proxf cf ef tau f -> serves_dual proxg cg eg mu gs -> summable ef -> summable eg -> convex f -> convex gs -> 0 < tau -> 0 < mu -> 0 <= kappa < 1 -> (forall a, tau * mu * norm2 (lapp A a) <= kappa * norm2 a) -> alias = None \/ z = None ->
  (exists xo yo, saddle A f gs (zvec z) xo yo) ->
  exists xs ys xl yl, (forall n, exists tr, cPrimalDual proxf proxg (cf 0%nat) (cg 0%nat) A alias x0 (Scalar tau) (Scalar mu) y0 z 1 n gfirst = Ok (xs n, ys n, tr, (cf n, cg n))) /\ saddle A f gs (zvec z) xl yl /\ vcv xs xl /\ vcv ys yl.
Proof. exact C104_count_primal_dual_l. Qed.
Print Assumptions C104_count_primal_dual.

(** the same for an operator g whose dual prox is inherited (one prox call per dual prox call,
    with the step 1/mu): if its prox calls are those of a convex g up to errors with a
    finite sum and some x is optimal with a multiplier, the pair converges to (xl, yl) where
    xl minimises f(x) + g(A x) + <z, x> and yl is a multiplier *)
Theorem C104_count_inherited : forall (E F : IPS) (A : linop E F) proxf proxg f g cf cg ef eg alias x0 tau mu kappa y0 z (gfirst : bool), bw E -> bw F ->
  serves proxf cf ef tau f -> inherits proxg -> serves proxg cg eg (1 / mu) g -> summable ef -> summable eg -> convex f -> convex g -> 0 < tau -> 0 < mu -> 0 <= kappa < 1 -> (forall a, tau * mu * norm2 (lapp A a) <= kappa * norm2 a) -> alias = None \/ z = None ->
  (exists xo yo, is_subgrad f xo (vopp (ladj A yo [+] zvec z)) /\ is_subgrad g (lapp A xo) yo) ->
  exists xs ys xl yl, (forall n, exists tr, cPrimalDual proxf proxg (cf 0%nat) (cg 0%nat) A alias x0 (Scalar tau) (Scalar mu) y0 z 1 n gfirst = Ok (xs n, ys n, tr, (cf n, cg n))) /\
    (is_subgrad f xl (vopp (ladj A yl [+] zvec z)) /\ is_subgrad g (lapp A xl) yl) /\ vcv xs xl /\ vcv ys yl.
Proof. exact C104_count_inherited_l. Qed.
Print Assumptions C104_count_inherited.

(** LinearizedADMM with operators that may change from call to call (f, g convex, mu |A a|^2 <=
    kappa tau |a|^2 for some kappa < 1, either guess, some point is a solution with a
    multiplier): if the errors ef k, eg k of the k-th calls have a finite sum, the returned
    x converges to a minimiser xl of f(x) + g(A x) and z to A xl *)
Theorem C104_count_linearized_admm : forall (E F : IPS) (A : linop E F) (proxf : COp E) (proxg : COp F) f g cf cg ef eg tau mu kappa x0 z0 x z, bw E -> bw F ->
  serves proxf cf ef mu f -> serves proxg cg eg tau g -> summable ef -> summable eg -> convex f -> convex g -> 0 < tau -> 0 < mu -> 0 <= kappa < 1 -> (forall a, mu * norm2 (lapp A a) <= kappa * tau * norm2 a) -> x0z0_initA (lapp A) x0 z0 = Ok (x, z) ->
  (exists xo v, kktA f g A xo v) ->
  exists xs zs xl, (forall n, exists tr, cLinearizedADMM proxf proxg (cf 0%nat) (cg 0%nat) A x0 tau mu n z0 = Ok (xs n, zs n, tr, (cf n, cg n))) /\ is_min (eadd f (epre g (lapp A))) xl /\ vcv xs xl /\ vcv zs (lapp A xl).
Proof. exact C104_count_linearized_admm_l. Qed.
Print Assumptions C104_count_linearized_admm.

(** ADMM on f + g, f and g convex with exact prox, any tau > 0, any guess, either order, finite
    dimension, no assumption that a solution exists: it never raises, and either x and z
    converge to one minimiser of f + g, or no point has a multiplier and the last updated
    vector of the pair, together with the accumulated differences x - z, is unbounded: its
    norm tends to infinity *)
Theorem C104_admm : forall (E : IPS) (proxf proxg : Op E) f g x0 z0 x z tau (gfirst : bool), bw E ->
  impl_prox proxf f -> impl_prox proxg g -> convex f -> convex g -> 0 < tau -> x0z0_init x0 z0 = Ok (x, z) ->
  exists xs zs, (forall n, exists tr, ADMM proxf proxg x0 tau n z0 gfirst = Ok (xs n, zs n, tr)) /\
    ((exists l, is_min (eadd f g) l /\ vcv xs l /\ vcv zs l) \/
     ((forall l u, ~ kkt f g l u) /\ escapes (E:=Prod_IPS E E) (fun n => (if gfirst then xs n else zs n, VS n (fun j => xs (S j) [-] zs (S j)))))).
Proof. exact C104_admm_l. Qed.
Print Assumptions C104_admm.

(** without offset a callable sigma of L1 is no schedule for PrimalDual
    (C100_primal_dual_refuted). With an offset b it is one: the dual prox is then inherited
    and counts. f convex with exact prox, proxg = L1(sigma, g = b) with a callable sigma >=
    0 whose values approach the weights s >= 0 so fast that the sum of |sigma(k) - s| is
    finite, kappa < 1, theta = 1, either order: if the problem with the limit weights, min
    f(x) + sum s_i |A x - b|_i + <z, x>, has a solution with a multiplier, x converges to a
    solution of it and y to a multiplier; the counter ends at c + niter *)
Theorem C104_offset : forall (E : IPS) n (A : linop E (Vec n)) (pf : Op E) f (sig : nat -> nlist R n) (s : nlist R n) b cf c alias x0 tau mu kappa y0 z (gfirst : bool), bw E ->
  impl_prox pf f -> convex f -> (forall k, nonneg_list (sig k)) -> nonneg_list s -> summable (fun k => wdist (sig (S (k + c))) s) -> 0 < tau -> 0 < mu -> 0 <= kappa < 1 -> (forall a, tau * mu * norm2 (lapp A a) <= kappa * norm2 a) -> alias = None \/ z = None ->
  (exists xo yo, is_subgrad f xo (vopp (ladj A yo [+] zvec z)) /\ is_subgrad (etot (wl1 s b)) (lapp A xo) yo) ->
  exists xs ys xl yl, (forall k, exists tr, cPrimalDual (plain pf) (l1_cop sig (Some b)) cf c A alias x0 (Scalar tau) (Scalar mu) y0 z 1 k gfirst = Ok (xs k, ys k, tr, (cf, (k + c)%nat))) /\
    is_min (elin (eadd f (etot (fun x => wl1 s b (lapp A x)))) (zvec z)) xl /\ is_subgrad (etot (wl1 s b)) (lapp A xl) yl /\ vcv xs xl /\ vcv ys yl.
Proof. exact C104_offset_l. Qed.
Print Assumptions C104_offset.

(** a solution is not enough. There are two EuclideanBall operators on R^2 and a vector z such
    that min <z, x> over the intersection of the balls has a solution, but for every start,
    every order and all steps with tau mu < 1 PrimalDual (A = identity) produces dual
    vectors whose norm tends to infinity, while x stays in the first ball: the pair never
    converges *)
Theorem C104_multiplier_refuted : exists (f g : Op (Vec 2)) c1 c2 (z xo : Vec 2), is_ball f c1 1 /\ is_ball g c2 1 /\
  is_min (elin (eadd (indic (fun x => norm (x [-] c1) <= 1)) (indic (fun x => norm (x [-] c2) <= 1))) z) xo /\
  forall x0 y0 tau mu (gfirst : bool), 0 < tau -> 0 < mu -> tau * mu < 1 ->
    exists xs ys, (forall n, exists tr, PrimalDual f g (id_linop (Vec 2)) None x0 (Scalar tau) (Scalar mu) y0 (Some z) 1 n gfirst = Ok (xs n, ys n, tr)) /\ (forall n, norm (xs (S n) [-] c1) <= 1) /\ escapes ys.
Proof. exact C104_multiplier_refuted_l. Qed.
Print Assumptions C104_multiplier_refuted.

(** the same two balls without the vector z: a pair of subgradients exists, so PrimalDual with
    tau = mu = 1/2 converges from every start, in either order, to the point where the balls
    touch *)
Example C104_example : forall x0 y0 (gfirst : bool), exists xs ys yl, (forall n, exists tr, PrimalDual (obj 2 (ball_body (vec2 (-1) 0) 1)) (obj 2 (ball_body (vec2 1 0) 1)) (id_linop (Vec 2)) None x0 (Scalar (1 / 2)) (Scalar (1 / 2)) y0 None 1 n gfirst = Ok (xs n, ys n, tr)) /\
  vcv xs (vzero : Vec 2) /\ vcv ys yl.
Proof. exact C104_example_l. Qed.
