(** Property theorems for Exist: statements only; every proof is [exact] a lemma of P_Exist.v.
    Generated from the tagged lemmas of that file. *)
From Coq Require Import String Psatz Classical.
From Verif Require Import Base Space Spec Cplx ConvexFacts Smooth VSum M_ProxOp SpecOps P_ProxOp M_Norms P_Norms M_Loop LoopFacts LoopFacts2 SeqFacts M_PG M_Split M_PD M_Multi SplitMath P_PG P_PG2 P_PG3 P_Split P_Split2 P_Split3 P_PD P_PD2 P_Multi P_Multi2 P_Multi3 S_Seq Compact Fejer P_Iter P_Iter2 P_Iter3 HahnBanach P_Qual ExistMath.
From Verif Require Import S_Exist.
From Verif Require Import P_Exist.
Open Scope result_scope.
Open Scope R_scope.


(** the arrays the library works on have the two properties of the space used below: the real
    numbers, real and complex arrays of n entries, products and stacked arrays (no axiom of
    choice is used) *)
Theorem C85_arrays : (complete R_IPS /\ described R_IPS) /\ (forall n, complete (Vec n) /\ described (Vec n)) /\ (forall n, complete (CArr n) /\ described (CArr n)) /\
  (forall E F, complete E -> complete F -> complete (Prod_IPS E F)) /\ (forall E F, described E -> described F -> described (Prod_IPS E F)) /\
  (forall E m, complete E -> complete (Pow E m)) /\ (forall E m, described E -> described (Pow E m)).
Proof. exact C85_arrays_l. Qed.
Print Assumptions C85_arrays.

(** f, g convex and closed, each above some affine function, A a bounded linear operator, some
    point where f(x) + g(A x) is finite, the sets {f + g(A .) <= c} bounded, finite
    dimension: f + g(A .) has a minimiser. f strongly convex instead: exactly one minimiser,
    and the value grows quadratically away from it. Every function with an exact proximal
    operator is above an affine function *)
Theorem C85_existence :
  (forall (E F : IPS) (f : efun E) (g : efun F) (A : linop E F) C, bw E -> complete E -> described E -> convex f -> convex g -> closed f -> closed g -> minorised f -> minorised g ->
     (forall v, norm (A v) <= C * norm v) -> (exists x, edom f x /\ edom g (A x)) -> level_bounded (eadd f (epre g (lapp A))) -> exists m, is_min (eadd f (epre g (lapp A))) m) /\
  (forall (E F : IPS) s (f : efun E) (g : efun F) (A : linop E F) C, complete E -> 0 < s -> strongly_convex s f -> convex g -> closed f -> closed g -> minorised f -> minorised g ->
     (forall v, norm (A v) <= C * norm v) -> (exists x, edom f x /\ edom g (A x)) ->
     exists m, is_min (eadd f (epre g (lapp A))) m /\ (forall y, edom f y -> edom g (A y) -> eval f m + eval g (A m) + s / 4 * norm2 (y [-] m) <= eval f y + eval g (A y)) /\
       forall y, is_min (eadd f (epre g (lapp A))) y -> y = m) /\
  (forall (E : IPS) (o : Op E) (f : efun E), convex f -> impl_prox o f -> minorised f).
Proof. exact C85_existence_l. Qed.
Print Assumptions C85_existence.

(** ways to see that the sets {f + g(A .) <= c} are bounded: f has bounded level sets and g is
    bounded below; f grows faster than every multiple of the norm and g is anything with an
    exact proximal operator; f is finite only on a bounded set; f strongly convex (for
    instance s/2 |. - b|^2); |.| itself *)
Theorem C85_bounded :
  (forall (E F : IPS) (f : efun E) (g : efun F) (A : linop E F), level_bounded f -> bounded_below g -> level_bounded (eadd f (epre g (lapp A)))) /\
  (forall (E F : IPS) (f : efun E) (g : efun F) (A : linop E F), fast_growing f -> minorised g -> level_bounded (eadd f (epre g (lapp A)))) /\
  (forall (E : IPS) (f : efun E) M, (forall x, edom f x -> norm x <= M) -> level_bounded f /\ fast_growing f) /\
  (forall (E : IPS) s (f : efun E), 0 < s -> strongly_convex s f -> minorised f -> fast_growing f) /\
  (forall (E : IPS) s (b : E), 0 < s -> strongly_convex s (etot (fun x => s / 2 * norm2 (x [-] b)))) /\
  (forall (E : IPS) s, 0 < s -> level_bounded (etot (fun x : E => s * norm x))).
Proof. exact C85_bounded_l. Qed.
Print Assumptions C85_bounded.

(** f, g convex and closed, Slater's condition, the sets {f + g <= c} bounded, tau > 0, 0 < eta
    < 2, any start, either order, finite dimension (no minimiser assumed): f + g has a
    minimiser, the x returned by DouglasRachfordSplitting with niter = 1, 2, ... converges
    to one, and the two vectors returned by ADMM with niter = 0, 1, 2, ... both converge to
    one *)
Theorem C85_splitting : forall (E : IPS) (proxf proxg : Op E) f g x0 tau eta (gfirst : bool), bw E -> hb E -> complete E -> described E ->
  impl_prox proxf f -> impl_prox proxg g -> convex f -> convex g -> closed f -> closed g -> 0 < tau -> 0 < eta < 2 -> qualified2 f g -> level_bounded (eadd f g) ->
  (exists xs ys l, (forall n, exists tr, DouglasRachford proxf proxg x0 tau eta (S n) gfirst = Ok (xs n, ys n, tr)) /\ is_min (eadd f g) l /\ vcv xs l) /\
  (exists xs zs l, (forall n, exists tr, ADMM proxf proxg (Some x0) tau n None gfirst = Ok (xs n, zs n, tr)) /\ is_min (eadd f g) l /\ vcv xs l /\ vcv zs l).
Proof. exact C85_splitting_l. Qed.
Print Assumptions C85_splitting.

(** f, g convex and closed, gs the conjugate of g, Slater's condition for f + g(A .), the sets
    {f + <z,.> + g(A .) <= c} bounded, theta = 1, constant steps with tau mu |A a|^2 <=
    kappa |a|^2 for some kappa <= 1, any start, either order, finite dimension (no minimiser
    assumed): the x returned by PrimalDual with niter = 0, 1, 2, ... converges to a
    minimiser of f + <z,.> + g(A .) *)
Theorem C85_primal_dual : forall (E F : IPS) (A : linop E F) proxf proxg f g gs alias x0 tau mu kappa y0 z gfirst, bw E -> bw F -> hb F -> complete E -> described E ->
  impl_prox proxf f -> impl_proxdual proxg gs -> convex f -> convex g -> closed f -> closed g -> is_conj g gs -> (forall u, exists p, is_prox g 1 u p) ->
  0 < tau -> 0 < mu -> 0 <= kappa <= 1 -> (forall a, tau * mu * norm2 (lapp A a) <= kappa * norm2 a) -> alias = None \/ z = None ->
  qualified f g A -> level_bounded (eadd (elin f (zvec z)) (epre g (lapp A))) ->
  exists xs ys xl yl, (forall n, exists tr, PrimalDual proxf proxg A alias x0 (Scalar tau) (Scalar mu) y0 z 1 n gfirst = Ok (xs n, ys n, tr)) /\
    is_min (eadd (elin f (zvec z)) (epre g (lapp A))) xl /\ vcv xs xl /\ vcv ys yl.
Proof. exact C85_primal_dual_l. Qed.
Print Assumptions C85_primal_dual.

(** the same for LinearizedADMM, with mu |A a|^2 <= kappa tau |a|^2 for some kappa <= 1 *)
Theorem C85_linearized_admm : forall (E F : IPS) (proxf : Op E) (proxg : Op F) f g (A : linop E F) tau mu kappa x0 z0 x z, bw E -> bw F -> hb F -> complete E -> described E ->
  impl_prox proxf f -> impl_prox proxg g -> convex f -> convex g -> closed f -> closed g -> 0 < tau -> 0 < mu -> 0 <= kappa <= 1 ->
  (forall a, mu * norm2 (lapp A a) <= kappa * tau * norm2 a) -> x0z0_initA (lapp A) x0 z0 = Ok (x, z) -> qualified f g A -> level_bounded (eadd f (epre g (lapp A))) ->
  exists xs zs xl, (forall n, exists tr, LinearizedADMM proxf proxg A x0 tau mu n z0 = Ok (xs n, zs n, tr)) /\
    is_min (eadd f (epre g (lapp A))) xl /\ vcv xs xl /\ vcv zs (lapp A xl).
Proof. exact C85_linearized_admm_l. Qed.
Print Assumptions C85_linearized_admm.

(** g convex and closed with a point A x interior to its domain, tau > 0, exact inner solves,
    gfirst=False, either guess, unique least-squares solutions (c |a|^2 <= |B a|^2 + |A a|^2
    for some c > 0), A bounded, bounded sets {1/2|B . - b|^2 + g(A .) <= c}, finite
    dimension (no minimiser assumed): the x returned by ADMML2 with niter = 0, 1, 2, ...
    converges to a minimiser xl and the returned z to A xl *)
Theorem C85_admml2 : forall (E F G : IPS) (B : linop E G) b (A : linop E F) proxg reginv g tau c CA x0 z0 x z, bw E -> bw F -> hb F -> complete E -> described E ->
  impl_prox proxg g -> convex g -> closed g -> exact_reginv B b A reginv -> 0 < tau -> 0 < c -> (forall a, c * norm2 a <= norm2 (lapp B a) + norm2 (lapp A a)) ->
  (forall v, norm (A v) <= CA * norm v) ->
  x0z0_initA (lapp A) x0 z0 = Ok (x, z) -> (exists y, interior (edom g) (lapp A y)) -> level_bounded (eadd (etot (fun y => 1 / 2 * norm2 (lapp B y [-] b))) (epre g (lapp A))) ->
  exists xs zs xl, (forall n, exists tr, ADMML2 proxg A reginv x0 tau n z0 false = Ok (xs n, zs n, tr)) /\
    is_min (eadd (etot (fun y => 1 / 2 * norm2 (lapp B y [-] b))) (epre g (lapp A))) xl /\ vcv xs xl /\ vcv zs (lapp A xl).
Proof. exact C85_admml2_l. Qed.
Print Assumptions C85_admml2.

(** m >= 1 closed convex functions with a common point interior to all domains except one, the
    level sets of the sum bounded, tau > 0, 0 < eta < 2, admissible weights, any start,
    finite dimension (no minimiser assumed): the iterates of PPXA and of ConsensusADMM
    converge to a minimiser of the sum, whatever niter and tol they are cut at *)
Theorem C85_ppxa : forall (E : IPS) (os : list (Op E)) (f : nat -> efun E) x0 x1 tau eta weights, bw E -> hb E -> complete E -> described E ->
  let m := List.length os in
  impl_all os f -> (forall i, (i < m)%nat -> convex (f i) /\ closed (f i)) -> (0 < m)%nat -> 0 < tau -> 0 < eta < 2 ->
  good_weights weights m -> ppxa_start_ok x0 weights m -> qualified_sum m f -> level_bounded (esum m f) ->
  (exists xs xl, (forall niter amax t, exists k, PPXA os x0 tau eta weights niter amax (Some t) = Ok (xs k, map xs (seq 1 k)) /\
       stops_when (fun j => amax (xs j [-] xs (j - 1)%nat) < t) niter k) /\ is_min (esum m f) xl /\ vcv xs xl) /\
  (exists xs xl, (forall niter amax t, exists k, ConsensusADMM os x1 tau niter amax (Some t) = Ok (xs k, map xs (seq 1 k)) /\
       stops_when (fun j => amax (xs j [-] xs (j - 1)%nat) < t) niter k) /\ is_min (esum m f) xl /\ vcv xs xl).
Proof. exact C85_ppxa_l. Qed.
Print Assumptions C85_ppxa.

(** f convex with L-Lipschitz gradient, g convex and closed, eps > 0, 0 < eta < 2 - tau L/2,
    fixed step, no acceleration, the sets {f + eps g <= c} bounded, finite dimension (no
    minimiser assumed): the vectors returned by ProximalGradient with niter = 1, 2, ...
    converge to a minimiser of f + eps g; and f closed with bounded level sets:
    ProximalPoint converges to a minimiser of f *)
Theorem C85_proximal_gradient :
  (forall (E : IPS) (proxf proxg : Op E) f df L g eps x0 tau beta eta niterback accel, bw E -> complete E -> described E ->
    smooth_op proxf f df L -> impl_prox proxg g -> convex g -> closed g -> 0 < eps -> 0 < tau -> 0 < eta < 2 - tau * L / 2 -> unaccelerated accel eta ->
    level_bounded (eadd (etot f) (escal eps g)) ->
    exists xs l, xs 0%nat = x0 /\ (forall n, ProximalGradient proxf proxg x0 [eps] (Some tau) false beta eta (S n) niterback accel None = Ok (xs (S n), map xs (seq 1 (S n)))) /\
      is_min (eadd (etot f) (escal eps g)) l /\ vcv xs l) /\
  (forall (E : IPS) (o : Op E) f x0 tau, bw E -> complete E -> described E -> impl_prox o f -> convex f -> closed f -> 0 < tau -> level_bounded f ->
    exists xs l, (forall n, ProximalPoint o x0 tau n None = Ok (xs n, map xs (seq 1 n))) /\ is_min f l /\ vcv xs l).
Proof. exact C85_proximal_gradient_l. Qed.
Print Assumptions C85_proximal_gradient.
