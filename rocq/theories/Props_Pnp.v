(** Property theorems for Pnp: statements only; every proof is [exact] a lemma of P_Pnp.v.
    Generated from the tagged lemmas of that file. *)
From Coq Require Import String Psatz.
From Verif Require Import Base Space Spec VSum ConvexFacts Smooth MatFacts M_ProxOp SpecOps P_ProxOp M_Norms P_Norms M_Loop LoopFacts LoopFacts2 SeqFacts M_PG M_Split M_Breg SplitMath P_PG P_PG2 P_PG3 P_Split P_Split2 P_Multi3 P_Breg S_Seq Compact Fejer IterMath S_Iter P_Iter S_Exist S_Inexact InexactMath S_Count CountMath ExistMath P_Exist M_L1 M_L2 P_L1 P_L2 M_Objs S_Lasso P_Lasso PnpMath.
From Verif Require Import S_Pnp.
From Verif Require Import P_Pnp.
Open Scope result_scope.
Open Scope R_scope.


(** plug-and-play with the default solver (ADMM), in either order and from any start, with a
    data term f convex whose prox is exact and with any denoiser that is firmly non-
    expansive at tau, whether or not it is the proximal map of a function: as soon as one
    balanced pair exists (x unchanged by the data step started from x - u and by the
    denoiser started from x + u), the two vectors returned with niter = 0, 1, 2, ... both
    converge to one and the same x which is part of a balanced pair *)
Theorem C101_admm : forall m fuel (proxf : Op (Vec m)) f den D dims x0 tau z0 (gfirst : bool),
  impl_prox proxf f -> convex f -> 0 < tau -> denoises den dims tau D -> firm D -> (exists x u, balanced f tau D x u) ->
  exists xs zs x u, (forall n, exists tr, PlugAndPlay_default (S fuel) proxf den dims x0 tau n z0 gfirst = Ok (xs n, zs n, tr)) /\
    balanced f tau D x u /\ vcv xs x /\ vcv zs x.
Proof. exact C101_admm_l. Qed.
Print Assumptions C101_admm.

(** the same with DouglasRachfordSplitting as solver, any 0 < eta < 2 and either order: the x
    returned with niter = 1, 2, ... converges to an x that is part of a balanced pair (x,
    u), and the auxiliary vector to x + u (denoiser first) or x - u *)
Theorem C101_douglas_rachford : forall m fuel (proxf : Op (Vec m)) f den D dims x0 tau eta (gfirst : bool),
  impl_prox proxf f -> convex f -> 0 < tau -> 0 < eta < 2 -> denoises den dims tau D -> firm D -> (exists x u, balanced f tau D x u) ->
  exists xs ys x u, (forall n, exists tr, PlugAndPlay (S fuel) (fun pf pg x0 => DouglasRachford pf pg x0 tau eta (S n) gfirst) proxf den dims x0 = Ok (xs n, ys n, tr)) /\
    balanced f tau D x u /\ vcv xs x /\ vcv ys (if gfirst then x [+] u else x [-] u).
Proof. exact C101_douglas_rachford_l. Qed.
Print Assumptions C101_douglas_rachford.

(** the same with ProximalGradient as solver, for f convex with an L-Lipschitz gradient, a
    scalar epsg = eps > 0, a fixed step tau > 0, 0 < eta < 2 - tau L/2 (tau < 2/L when eta =
    1), no acceleration and a denoiser that is firmly non-expansive at eps tau: if x = D(x -
    tau grad f(x)) has a solution, the vectors returned with niter = 1, 2, ... converge to a
    solution *)
Theorem C101_proximal_gradient : forall m fuel (proxf : Op (Vec m)) f df L den D dims x0 eps tau beta eta niterback accel,
  smooth_op proxf f df L -> 0 < eps -> 0 < tau -> 0 < eta < 2 - tau * L / 2 -> unaccelerated accel eta -> denoises den dims (eps * tau) D -> firm D ->
  (exists x, D (x [-] tau [*] df x) = x) ->
  exists xs x, xs 0%nat = x0 /\ (forall n, PlugAndPlay (S fuel) (fun pf pg x0 => ProximalGradient pf pg x0 [eps] (Some tau) false beta eta (S n) niterback accel None) proxf den dims x0 = Ok (xs (S n), map xs (seq 1 (S n)))) /\
    D (x [-] tau [*] df x) = x /\ vcv xs x.
Proof. exact C101_proximal_gradient_l. Qed.
Print Assumptions C101_proximal_gradient.

(** the same with HQS as solver, one fixed tau and either order: if x = prox_(tau f)(z), z =
    D(x) has a solution, the pair returned with niter = 0, 1, 2, ... converges to such a
    pair *)
Theorem C101_hqs : forall m fuel (proxf : Op (Vec m)) f den D dims x0 tau z0 (gfirst : bool),
  impl_prox proxf f -> convex f -> 0 < tau -> denoises den dims tau D -> firm D -> (exists x z, is_prox f tau z x /\ D x = z) ->
  exists xs zs x z, (forall n, exists tr, PlugAndPlay (S fuel) (fun pf pg x0 => HQS pf pg (Some x0) [tau] n z0 gfirst) proxf den dims x0 = Ok (xs n, zs n, tr)) /\
    is_prox f tau z x /\ D x = z /\ vcv xs x /\ vcv zs z.
Proof. exact C101_hqs_l. Qed.
Print Assumptions C101_hqs.

(** what a balanced pair is. For f convex and differentiable, (x, u) is balanced exactly when u
    = - tau grad f(x) and x = D(x - tau grad f(x)): ADMM, DouglasRachfordSplitting and
    ProximalGradient have the same limits. And if the denoiser is the proximal map of a
    convex g with step tau, then x belongs to a balanced pair exactly when 0 is the sum of a
    subgradient of f and one of g at x, and then x minimises f + g *)
Theorem C101_same :
  (forall (E : IPS) f df (D : E -> E) tau x u, convex (etot f) -> (forall y, is_grad f y (df y)) -> 0 < tau ->
    (balanced (etot f) tau D x u <-> u = (- tau) [*] df x /\ D (x [-] tau [*] df x) = x)) /\
  (forall (E : IPS) f g (D : E -> E) tau x, convex f -> convex g -> 0 < tau -> (forall y, is_prox g tau y (D y)) ->
    ((exists u, balanced f tau D x u) <-> exists v, is_subgrad f x v /\ is_subgrad g x (vopp v)) /\ ((exists u, balanced f tau D x u) -> is_min (eadd f g) x)).
Proof. exact C101_same_l. Qed.
Print Assumptions C101_same.

(** a data term f that is s-strongly convex (s > 0) and a denoiser, firmly non-expansive or not,
    whose residual x - D(x) is Lipschitz with constant e < tau s / (1 + tau s), as is
    arranged when training denoising networks: there is exactly one balanced pair (x, u),
    and both vectors returned by plug-and-play ADMM with niter = n, from any start and in
    either order, are within C q^n of x, where q = 1 / (1 + tau s) + e < 1 *)
Theorem C101_residual : forall m fuel (proxf : Op (Vec m)) f s den D dims x0 tau z0 (gfirst : bool) e,
  impl_prox proxf f -> strongly_convex s f -> 0 < s -> 0 < tau -> denoises den dims tau D -> residual_lip e D -> 0 <= e < tau * s / (1 + tau * s) ->
  let q := / (1 + tau * s) + e in 0 < q < 1 /\
  exists xs zs x u C, (forall n, exists tr, PlugAndPlay_default (S fuel) proxf den dims x0 tau n z0 gfirst = Ok (xs n, zs n, tr)) /\
    balanced f tau D x u /\ (forall x' u', balanced f tau D x' u' -> x' = x /\ u' = u) /\
    forall n, norm (xs n [-] x) <= C * q ^ n /\ norm (zs n [-] x) <= C * q ^ n.
Proof. exact C101_residual_l. Qed.
Print Assumptions C101_residual.

(** denoisers that may even expand distances, with constant r > 0, when f is s-strongly convex.
    HQS as solver: if r < 1 + tau s there is exactly one pair x = prox_(tau f)(z), z = D(x),
    and the vectors returned with niter = n are within C q^n of it, q = r / (1 + tau s).
    ProximalGradient as solver, gradient L-Lipschitz, s < L, relaxation eta > 0: if q = |1 -
    eta| + eta r max(|1 - tau s|, |1 - tau L|) < 1 there is exactly one solution x of x =
    D(x - tau grad f(x)), and the vector returned with niter = n is within q^n |x0 - x| of
    it *)
Theorem C101_lipschitz :
  (forall m fuel (proxf : Op (Vec m)) f s den D dims x0 tau z0 (gfirst : bool) r,
    impl_prox proxf f -> strongly_convex s f -> 0 <= s -> 0 < tau -> denoises den dims tau D -> lipschitz r D -> 0 < r < 1 + tau * s ->
    exists xs zs x z C, (forall n, exists tr, PlugAndPlay (S fuel) (fun pf pg x0 => HQS pf pg (Some x0) [tau] n z0 gfirst) proxf den dims x0 = Ok (xs n, zs n, tr)) /\
      (forall x' z', is_prox f tau z' x' /\ D x' = z' <-> x' = x /\ z' = z) /\
      forall n, norm (xs n [-] x) <= C * (r / (1 + tau * s)) ^ n /\ norm (zs n [-] z) <= C * (r / (1 + tau * s)) ^ n) /\
  (forall m fuel (proxf : Op (Vec m)) f df s L den D dims x0 eps tau beta eta niterback accel r,
    smooth_op proxf f df L -> strongly_convex s (etot f) -> 0 <= s < L -> 0 < eps -> 0 < tau -> 0 < eta -> unaccelerated accel eta -> denoises den dims (eps * tau) D -> lipschitz r D -> 0 <= r ->
    let q := Rabs (1 - eta) + eta * (r * Rmax (Rabs (1 - tau * s)) (Rabs (1 - tau * L))) in q < 1 ->
    exists xs x, xs 0%nat = x0 /\ (forall n, PlugAndPlay (S fuel) (fun pf pg x0 => ProximalGradient pf pg x0 [eps] (Some tau) false beta eta (S n) niterback accel None) proxf den dims x0 = Ok (xs (S n), map xs (seq 1 (S n)))) /\
      (forall x', D (x' [-] tau [*] df x') = x' <-> x' = x) /\ forall n, norm (xs n [-] x) <= q ^ n * norm (x0 [-] x)).
Proof. exact C101_lipschitz_l. Qed.
Print Assumptions C101_lipschitz.

(** D is firmly non-expansive exactly when 2 D - identity is non-expansive, and exactly when the
    noise x - D(x) it removes is; the proximal map of a convex function is; the mean of the
    identity and of any non-expansive N is; a linear filter W is exactly when |W x|^2 <= <W
    x, x> for every x; a weighted mean of two of them is. A firmly non-expansive D has a
    residual with Lipschitz constant 1, and removing the fraction e of the output of a non-
    expansive N leaves a denoiser whose residual has constant e *)
Theorem C101_denoisers : forall (E : IPS),
  (forall D : E -> E, firm D <-> lipschitz 1 (fun x => 2 [*] D x [-] x)) /\
  (forall D : E -> E, firm D <-> firm (fun x => x [-] D x)) /\
  (forall (D : E -> E) g t, convex g -> 0 < t -> (forall x, is_prox g t x (D x)) -> firm D) /\
  (forall N : E -> E, lipschitz 1 N -> firm (fun x => (1 / 2) [*] (x [+] N x))) /\
  (forall W : E -> E, (forall x y, W (x [-] y) = W x [-] W y) -> (firm W <-> forall x, norm2 (W x) <= << W x, x >>)) /\
  (forall (D D' : E -> E) t, firm D -> firm D' -> 0 <= t <= 1 -> firm (fun x => (1 - t) [*] D x [+] t [*] D' x)) /\
  (forall D : E -> E, firm D -> residual_lip 1 D) /\
  (forall (N : E -> E) e, lipschitz 1 N -> 0 <= e -> residual_lip e (fun x => x [-] e [*] N x)).
Proof. exact C101_denoisers_l. Qed.
Print Assumptions C101_denoisers.

(** when is there a limit at all? f convex with an L-Lipschitz gradient, tau <= 2/L, a non-
    expansive denoiser whose output is bounded (as when it clips to the range of an image):
    x = D(x - tau grad f(x)) has a solution and (x, - tau grad f(x)) is a balanced pair *)
Theorem C101_bounded : forall n (f : Vec n -> R) df L tau D M, convex (etot f) -> 0 < L -> L_smooth f df L -> 0 < tau -> tau * L <= 2 -> lipschitz 1 D -> (forall x, norm (D x) <= M) ->
  exists x, D (x [-] tau [*] df x) = x /\ balanced (etot f) tau D x ((- tau) [*] df x).
Proof. exact C101_bounded_l. Qed.
Print Assumptions C101_bounded.

(** plug-and-play on L2(Op=A, b=b, sigma=s) with s |A v|^2 <= L |v|^2 and tau < 2/L (the
    tutorial takes tau = 1/L for both solvers), any denoiser that is firmly non-expansive at
    tau with a bounded output, any start: ProximalGradient (epsg = 1, no acceleration) and
    ADMM, in either order, never raise, and both converge to solutions of the same equation
    x = D(x - tau s A^T (A x - b)) *)
Theorem C101_tutorial : forall n (F : IPS) fuel (proxf : Op (Vec n)) (A : linop (Vec n) F) b s L den D M dims x0 tau beta niterback z0 (gfirst : bool),
  is_L2 proxf A b s -> 0 < s -> 0 < L -> (forall v, s * norm2 (A v) <= L * norm2 v) -> 0 < tau -> tau * L < 2 ->
  denoises den dims tau D -> firm D -> (forall x, norm (D x) <= M) ->
  let eqn := fun x => D (x [-] tau [*] (s [*] ladj A (A x [-] b))) = x in
  (exists xs x, (forall k, PlugAndPlay (S fuel) (fun pf pg x0 => ProximalGradient pf pg x0 [1] (Some tau) false beta 1 (S k) niterback None None) proxf den dims x0 = Ok (xs (S k), map xs (seq 1 (S k)))) /\ eqn x /\ vcv xs x) /\
  (exists xs zs x, (forall k, exists tr, PlugAndPlay_default (S fuel) proxf den dims x0 tau k z0 gfirst = Ok (xs k, zs k, tr)) /\ eqn x /\ vcv xs x /\ vcv zs x).
Proof. exact C101_tutorial_l. Qed.
Print Assumptions C101_tutorial.

(** these results are not covered by the convergence of ADMM on min f + g: there is a firmly
    non-expansive map of the plane that is not the proximal map of any convex function, for
    any step *)
Theorem C101_more : exists D : Vec 2 -> Vec 2, firm D /\ forall g t, convex g -> 0 < t -> ~ (forall x, is_prox g t x (D x)).
Proof. exact C101_more_l. Qed.
Print Assumptions C101_more.

(** non-expansive is not enough: with the denoiser D(x) = -x, which is non-expansive, and f = 0,
    which make (0, 0) a balanced pair, the z returned by plug-and-play ADMM with niter = n
    is (-1)^n x0, in either order, for every x0; for x0 <> 0 it does not converge *)
Theorem C101_refuted : forall m fuel (proxf : Op (Vec m)) (x0 : Vec m) tau (gfirst : bool), impl_prox proxf (etot (fun _ => 0)) -> 0 < tau ->
  let D := fun x : Vec m => (-1) [*] x in
  lipschitz 1 D /\ balanced (etot (fun _ => 0)) tau D vzero vzero /\
  (forall n, exists x tr, PlugAndPlay_default (S fuel) proxf (fun x _ => Ok (D x)) [m] x0 tau n None gfirst = Ok (x, (-1) ^ n [*] x0, tr)) /\
  (x0 <> vzero -> ~ exists l, vcv (fun n => (-1) ^ n [*] x0) l).
Proof. exact C101_refuted_l. Qed.
Print Assumptions C101_refuted.

(** the hypotheses are satisfiable. A turn of the plane by 45 degrees that divides lengths by
    sqrt 2 is a firmly non-expansive denoiser, and an object L2(b=0) with it has the
    balanced pair (0, 0); the residual of x - turn(x)/4 is small enough for C101_residual
    with tau = 1; clipping to [0, 1] is firmly non-expansive and bounded, and there is an
    object L2 with an operator A and data b for C101_tutorial; f = 0 has an operator *)
Example C101_example : denoises (fun x (_ : R) => Ok (turn2 x)) [2%nat] 1 turn2 /\ firm turn2 /\
  (exists o, is_L2b o (vzero : Vec 2) 1 /\ impl_prox o (etot (fun x => 1 / 2 * norm2 x)) /\ strongly_convex 1 (etot (fun x : Vec 2 => 1 / 2 * norm2 x)) /\
     convex (etot (fun x : Vec 2 => 1 / 2 * norm2 x)) /\ balanced (etot (fun x => 1 / 2 * norm2 x)) 1 turn2 vzero vzero) /\
  residual_lip (1 / 4) (fun x => x [-] (1 / 4) [*] turn2 x) /\ 0 <= 1 / 4 < 1 * 1 / (1 + 1 * 1) /\
  (forall n, firm (@clip01 n) /\ forall x : Vec n, norm (clip01 x) <= INR n) /\
  (forall b : Vec 1, exists f : Op (Vec 2), is_L2 f sumop b 1 /\ forall v, 1 * norm2 (sumop v) <= 2 * norm2 v) /\
  (forall m, exists o : Op (Vec m), impl_prox o (etot (fun _ => 0))).
Proof. exact C101_example_l. Qed.
