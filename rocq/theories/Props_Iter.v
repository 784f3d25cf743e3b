(** Property theorems for Iter: statements only; every proof is [exact] a lemma of P_Iter.v.
    Generated from the tagged lemmas of that file. *)
From Coq Require Import String Psatz.
From Verif Require Import Base Space Spec Cplx ConvexFacts Smooth VSum M_ProxOp SpecOps P_ProxOp M_Norms P_Norms M_Loop LoopFacts SeqFacts M_PG M_Split SplitMath P_PG P_PG2 P_PG3 P_Split2 S_Seq Compact Fejer IterMath.
From Verif Require Import S_Iter.
From Verif Require Import P_Iter.
Open Scope result_scope.
Open Scope R_scope.


(** the arrays the library works on have the property used below (every bounded sequence has a
    convergent subsequence): the real numbers, real arrays of n entries, complex arrays of n
    entries, products and stacked arrays *)
Theorem C75_arrays : bw R_IPS /\ (forall n, bw (Vec n)) /\ (forall n, bw (CArr n)) /\ (forall E F, bw E -> bw F -> bw (Prod_IPS E F)) /\ (forall E m, bw E -> bw (Pow E m)).
Proof. exact C75_arrays_l. Qed.
Print Assumptions C75_arrays.

(** f convex with a minimiser, any tau > 0 and x0, in finite dimension: the vectors returned by
    ProximalPoint with niter = 0, 1, 2, ... (tol not given) converge to a minimiser of f;
    the callback of a run receives exactly the earlier ones *)
Theorem C75_proximal_point : forall (E : IPS) (o : Op E) f x0 tau, bw E -> impl_prox o f -> convex f -> 0 < tau -> (exists m, is_min f m) ->
  exists xs l, (forall n, ProximalPoint o x0 tau n None = Ok (xs n, map xs (seq 1 n))) /\ is_min f l /\ vcv xs l.
Proof. exact C75_proximal_point_l. Qed.
Print Assumptions C75_proximal_point.

(** f convex with L-Lipschitz gradient, g convex, eps > 0, 0 < eta < 2 - tau L/2 (tau < 2/L for
    the default eta = 1), fixed step, no acceleration, f + eps g has a minimiser, finite
    dimension: the vectors returned by ProximalGradient with niter = 1, 2, ... converge to a
    minimiser of f + eps g *)
Theorem C75_proximal_gradient : forall (E : IPS) (proxf proxg : Op E) f df L g eps x0 tau beta eta niterback accel, bw E ->
  smooth_op proxf f df L -> impl_prox proxg g -> convex g -> 0 < eps -> 0 < tau -> 0 < eta < 2 - tau * L / 2 -> unaccelerated accel eta ->
  (exists m, is_min (eadd (etot f) (escal eps g)) m) ->
  exists xs l, xs 0%nat = x0 /\ (forall n, ProximalGradient proxf proxg x0 [eps] (Some tau) false beta eta (S n) niterback accel None = Ok (xs (S n), map xs (seq 1 (S n)))) /\
    is_min (eadd (etot f) (escal eps g)) l /\ vcv xs l.
Proof. exact C75_proximal_gradient_l. Qed.
Print Assumptions C75_proximal_gradient.

(** f, g convex, 0 < eta < 2, tau > 0, any start and either order, finite dimension, and some
    point is a solution with a multiplier: the x returned by DouglasRachfordSplitting with
    niter = 1, 2, ... converges to a minimiser l of f + g and the auxiliary vector y
    converges to l - tau u (gfirst) or l + tau u for a subgradient u of f at l with -u one
    of g *)
Theorem C75_douglas_rachford : forall (E : IPS) (proxf proxg : Op E) f g x0 tau eta (gfirst : bool), bw E ->
  impl_prox proxf f -> impl_prox proxg g -> convex f -> convex g -> 0 < tau -> 0 < eta < 2 -> (exists x u, kkt f g x u) ->
  exists xs ys l u, (forall n, exists tr, DouglasRachford proxf proxg x0 tau eta (S n) gfirst = Ok (xs n, ys n, tr)) /\
    kkt f g l u /\ is_min (eadd f g) l /\ vcv xs l /\ vcv ys (if gfirst then l [-] tau [*] u else l [+] tau [*] u).
Proof. exact C75_douglas_rachford_l. Qed.
Print Assumptions C75_douglas_rachford.

(** f, g convex, tau > 0, any start and either order, finite dimension, and some point is a
    solution with a multiplier: the two vectors returned by ADMM with niter = 0, 1, 2, ...
    both converge to one and the same minimiser of f + g *)
Theorem C75_admm : forall (E : IPS) (proxf proxg : Op E) f g x0 z0 x z tau (gfirst : bool), bw E ->
  impl_prox proxf f -> impl_prox proxg g -> convex f -> convex g -> 0 < tau -> x0z0_init x0 z0 = Ok (x, z) -> (exists x u, kkt f g x u) ->
  exists xs zs l, (forall n, exists tr, ADMM proxf proxg x0 tau n z0 gfirst = Ok (xs n, zs n, tr)) /\ is_min (eadd f g) l /\ vcv xs l /\ vcv zs l.
Proof. exact C75_admm_l. Qed.
Print Assumptions C75_admm.

(** f, g convex, one fixed tau > 0, any start and either order, finite dimension, and the
    penalised problem min over (w, v) of f(w) + g(v) + |w-v|^2/(2 tau) has a solution: the
    pair returned by HQS with niter = 0, 1, 2, ... converges to a solution of that problem *)
Theorem C75_hqs : forall (E : IPS) (proxf proxg : Op E) f g x0 z0 x z tau (gfirst : bool), bw E ->
  impl_prox proxf f -> impl_prox proxg g -> convex f -> convex g -> 0 < tau -> x0z0_init x0 z0 = Ok (x, z) ->
  let J := mkEfun (E := Prod_IPS E E) (fun p => edom f (fst p) /\ edom g (snd p)) (fun p => eval f (fst p) + eval g (snd p) + / (2 * tau) * norm2 (fst p [-] snd p)) in
  (exists p, is_min J p) ->
  exists xs zs xl zl, (forall n, exists tr, HQS proxf proxg x0 [tau] n z0 gfirst = Ok (xs n, zs n, tr)) /\ is_min J (xl, zl) /\ vcv xs xl /\ vcv zs zl.
Proof. exact C75_hqs_l. Qed.
Print Assumptions C75_hqs.
