(** Property theorems for Qual: statements only; every proof is [exact] a lemma of P_Qual.v.
    Generated from the tagged lemmas of that file. *)
From Coq Require Import String Psatz.
From Verif Require Import Base Space Spec Cplx ConvexFacts Smooth VSum M_ProxOp SpecOps P_ProxOp M_Norms P_Norms M_Loop LoopFacts LoopFacts2 SeqFacts M_PG M_Split M_PD M_Multi SplitMath P_PG P_PG2 P_PG3 P_Split P_Split2 P_Split3 P_PD P_PD2 P_Multi P_Multi2 P_Multi3 S_Seq Compact Fejer IterMath IterMath2 IterMath3 P_Iter P_Iter2 P_Iter3 HahnBanach.
From Verif Require Import S_Qual.
From Verif Require Import P_Qual.
Open Scope result_scope.
Open Scope R_scope.


(** the arrays the library works on have the property used below (Hahn-Banach): the real
    numbers, real arrays and complex arrays of n entries, products and stacked arrays *)
Theorem C81_arrays : hb R_IPS /\ (forall n, hb (Vec n)) /\ (forall n, hb (CArr n)) /\ (forall E F, hb E -> hb F -> hb (Prod_IPS E F)) /\ (forall E m, hb E -> hb (Pow E m)).
Proof. exact C81_arrays_l. Qed.
Print Assumptions C81_arrays.

(** Slater's condition makes the optimality conditions exact. f, g convex, A linear, a point of
    the domain of f mapped into the interior of the domain of g (for f + g: either role): x
    minimises f + g(A .) exactly when it has a multiplier; likewise for sums of m convex
    functions with a common point interior to all domains except one. A function that is
    finite everywhere always qualifies *)
Theorem C81_multiplier :
  (forall (E F : IPS) (f : efun E) (g : efun F) (A : linop E F) x, hb F -> convex f -> convex g -> qualified f g A ->
     (is_min (eadd f (epre g (lapp A))) x <-> exists v, is_subgrad f x (vopp (ladj A v)) /\ is_subgrad g (lapp A x) v)) /\
  (forall (E : IPS) (f g : efun E) x, hb E -> convex f -> convex g -> qualified2 f g ->
     (is_min (eadd f g) x <-> exists u, is_subgrad f x u /\ is_subgrad g x (vopp u))) /\
  (forall (E : IPS) m (f : nat -> efun E) x, hb E -> (forall i, (i < m)%nat -> convex (f i)) -> qualified_sum m f ->
     (is_min (esum m f) x <-> exists v, (forall i, (i < m)%nat -> is_subgrad (f i) x (v i)) /\ VS m v = vzero)) /\
  (forall (E F : IPS) (f : efun E) (g : efun F) (A : linop E F), (forall z, edom g z) -> (exists x, edom f x) -> qualified f g A).
Proof. exact C81_multiplier_l. Qed.
Print Assumptions C81_multiplier.

(** f, g convex, Slater's condition, a minimiser of f + g exists, tau > 0, 0 < eta < 2, any
    start, either order, finite dimension: the x returned by DouglasRachfordSplitting with
    niter = 1, 2, ... converges to a minimiser of f + g *)
Theorem C81_douglas_rachford : forall (E : IPS) (proxf proxg : Op E) f g x0 tau eta (gfirst : bool), bw E -> hb E ->
  impl_prox proxf f -> impl_prox proxg g -> convex f -> convex g -> 0 < tau -> 0 < eta < 2 -> qualified2 f g -> (exists m, is_min (eadd f g) m) ->
  exists xs ys l u, (forall n, exists tr, DouglasRachford proxf proxg x0 tau eta (S n) gfirst = Ok (xs n, ys n, tr)) /\
    kkt f g l u /\ is_min (eadd f g) l /\ vcv xs l /\ vcv ys (if gfirst then l [-] tau [*] u else l [+] tau [*] u).
Proof. exact C81_douglas_rachford_l. Qed.
Print Assumptions C81_douglas_rachford.

(** f, g convex, Slater's condition, a minimiser of f + g exists, tau > 0, any start, either
    order, finite dimension: the two vectors returned by ADMM with niter = 0, 1, 2, ... both
    converge to one and the same minimiser of f + g *)
Theorem C81_admm : forall (E : IPS) (proxf proxg : Op E) f g x0 z0 x z tau (gfirst : bool), bw E -> hb E ->
  impl_prox proxf f -> impl_prox proxg g -> convex f -> convex g -> 0 < tau -> x0z0_init x0 z0 = Ok (x, z) -> qualified2 f g -> (exists m, is_min (eadd f g) m) ->
  exists xs zs l, (forall n, exists tr, ADMM proxf proxg x0 tau n z0 gfirst = Ok (xs n, zs n, tr)) /\ is_min (eadd f g) l /\ vcv xs l /\ vcv zs l.
Proof. exact C81_admm_l. Qed.
Print Assumptions C81_admm.

(** f, g convex, gs the conjugate of g, Slater's condition for f + g(A .), a minimiser of f +
    <z,.> + g(A .) exists, theta = 1, constant steps with tau mu |A a|^2 <= kappa |a|^2 for
    some kappa <= 1, any start, either order, finite dimension: the x returned by PrimalDual
    with niter = 0, 1, 2, ... converges to a minimiser of f + <z,.> + g(A .) *)
Theorem C81_primal_dual : forall (E F : IPS) (A : linop E F) proxf proxg f g gs alias x0 tau mu kappa y0 z gfirst, bw E -> bw F -> hb F ->
  impl_prox proxf f -> impl_proxdual proxg gs -> convex f -> convex g -> is_conj g gs -> (forall u, exists p, is_prox g 1 u p) ->
  0 < tau -> 0 < mu -> 0 <= kappa <= 1 -> (forall a, tau * mu * norm2 (lapp A a) <= kappa * norm2 a) -> alias = None \/ z = None ->
  qualified f g A -> (exists m, is_min (eadd (elin f (zvec z)) (epre g (lapp A))) m) ->
  exists xs ys xl yl, (forall n, exists tr, PrimalDual proxf proxg A alias x0 (Scalar tau) (Scalar mu) y0 z 1 n gfirst = Ok (xs n, ys n, tr)) /\
    is_min (eadd (elin f (zvec z)) (epre g (lapp A))) xl /\ vcv xs xl /\ vcv ys yl.
Proof. exact C81_primal_dual_l. Qed.
Print Assumptions C81_primal_dual.

(** f, g convex, Slater's condition, a minimiser of f + g(A .) exists, tau, mu > 0 with mu |A
    a|^2 <= kappa tau |a|^2 for some kappa <= 1, either guess, finite dimension: the x
    returned by LinearizedADMM with niter = 0, 1, 2, ... converges to a minimiser xl of f +
    g(A .) and the returned z to A xl *)
Theorem C81_linearized_admm : forall (E F : IPS) (proxf : Op E) (proxg : Op F) f g (A : linop E F) tau mu kappa x0 z0 x z, bw E -> bw F -> hb F ->
  impl_prox proxf f -> impl_prox proxg g -> convex f -> convex g -> 0 < tau -> 0 < mu -> 0 <= kappa <= 1 ->
  (forall a, mu * norm2 (lapp A a) <= kappa * tau * norm2 a) -> x0z0_initA (lapp A) x0 z0 = Ok (x, z) -> qualified f g A -> (exists m, is_min (eadd f (epre g (lapp A))) m) ->
  exists xs zs xl, (forall n, exists tr, LinearizedADMM proxf proxg A x0 tau mu n z0 = Ok (xs n, zs n, tr)) /\
    is_min (eadd f (epre g (lapp A))) xl /\ vcv xs xl /\ vcv zs (lapp A xl).
Proof. exact C81_linearized_admm_l. Qed.
Print Assumptions C81_linearized_admm.

(** g convex with a point A x interior to its domain, tau > 0, exact inner solves, gfirst=False,
    either guess, unique least-squares solutions (c |a|^2 <= |B a|^2 + |A a|^2 for some c >
    0), a minimiser of 1/2|B x - b|^2 + g(A x) exists, finite dimension: the x returned by
    ADMML2 with niter = 0, 1, 2, ... converges to a minimiser xl and the returned z to A xl *)
Theorem C81_admml2 : forall (E F G : IPS) (B : linop E G) b (A : linop E F) proxg reginv g tau c x0 z0 x z, bw F -> hb F ->
  impl_prox proxg g -> convex g -> exact_reginv B b A reginv -> 0 < tau -> 0 < c -> (forall a, c * norm2 a <= norm2 (lapp B a) + norm2 (lapp A a)) ->
  x0z0_initA (lapp A) x0 z0 = Ok (x, z) -> (exists y, interior (edom g) (lapp A y)) ->
  (exists m, is_min (eadd (etot (fun y => 1 / 2 * norm2 (lapp B y [-] b))) (epre g (lapp A))) m) ->
  exists xs zs xl, (forall n, exists tr, ADMML2 proxg A reginv x0 tau n z0 false = Ok (xs n, zs n, tr)) /\
    is_min (eadd (etot (fun y => 1 / 2 * norm2 (lapp B y [-] b))) (epre g (lapp A))) xl /\ vcv xs xl /\ vcv zs (lapp A xl).
Proof. exact C81_admml2_l. Qed.
Print Assumptions C81_admml2.

(** m >= 1 convex functions with a common point interior to all domains except one, a minimiser
    of the sum exists, tau > 0, 0 < eta < 2, admissible weights, any start, finite
    dimension: there is one sequence x_0, x_1, ... converging to a minimiser of the sum such
    that, for every niter and every tol, PPXA returns x_k, where k is the first iteration
    whose change is below tol (niter if there is none) *)
Theorem C81_ppxa : forall (E : IPS) (os : list (Op E)) (f : nat -> efun E) x0 tau eta weights, bw E -> hb E ->
  let m := List.length os in
  impl_all os f -> (forall i, (i < m)%nat -> convex (f i)) -> (0 < m)%nat -> 0 < tau -> 0 < eta < 2 ->
  good_weights weights m -> ppxa_start_ok x0 weights m -> qualified_sum m f -> (exists xo, is_min (esum m f) xo) ->
  exists xs xl, (forall niter amax t, exists k, PPXA os x0 tau eta weights niter amax (Some t) = Ok (xs k, map xs (seq 1 k)) /\
       stops_when (fun j => amax (xs j [-] xs (j - 1)%nat) < t) niter k) /\
    is_min (esum m f) xl /\ vcv xs xl.
Proof. exact C81_ppxa_l. Qed.
Print Assumptions C81_ppxa.

(** the same for ConsensusADMM *)
Theorem C81_consensus_admm : forall (E : IPS) (os : list (Op E)) (f : nat -> efun E) x0 tau, bw E -> hb E -> let m := List.length os in
  impl_all os f -> (forall i, (i < m)%nat -> convex (f i)) -> (0 < m)%nat -> 0 < tau -> qualified_sum m f -> (exists xo, is_min (esum m f) xo) ->
  exists xs xl, (forall niter amax t, exists k, ConsensusADMM os x0 tau niter amax (Some t) = Ok (xs k, map xs (seq 1 k)) /\
       stops_when (fun j => amax (xs j [-] xs (j - 1)%nat) < t) niter k) /\
    is_min (esum m f) xl /\ vcv xs xl.
Proof. exact C81_consensus_admm_l. Qed.
Print Assumptions C81_consensus_admm.

(** smooth convex f_i (total Lipschitz constant at most L), m >= 1 convex g_j with a common
    point interior to all domains except one, positive eps_j, admissible weights, no
    acceleration, 0 < eta < 2 - tau L/2, a minimiser exists, finite dimension: the vectors
    returned by GeneralizedProximalGradient with niter = 0, 1, 2, ... converge to a
    minimiser of sum f_i + sum eps_j g_j *)
Theorem C81_gpg : forall (E : IPS) (fs gs : list (Op E)) f df L Lt (g : nat -> efun E) x0 tau epsg weights eta accel, bw E -> hb E ->
  let m := List.length gs in let nf := List.length fs in
  let eps := nthr (gpg_eps epsg m) in let t := match tau with None => 1 | Some t => t end in
  let F := fun x => RS nf (fun i => f i x) in
  smooth_all fs f df L -> RS nf L <= Lt -> 0 < Lt -> impl_all gs g -> (forall i, (i < m)%nat -> convex (g i)) -> (0 < m)%nat -> 0 < t -> 0 < eta < 2 - t * Lt / 2 ->
  good_weights weights m -> List.length (gpg_eps epsg m) = m -> (forall i, (i < m)%nat -> 0 < eps i) -> accel = None \/ accel = Some "None"%string ->
  qualified_sum m g -> (exists xo, is_min (eadd (etot F) (esum m (fun i => escal (eps i) (g i)))) xo) ->
  exists xs xl, (forall niter, GeneralizedProximalGradient fs gs x0 tau epsg weights eta niter accel = Ok (xs niter, map xs (seq 1 niter))) /\
    is_min (eadd (etot F) (esum m (fun i => escal (eps i) (g i)))) xl /\ vcv xs xl.
Proof. exact C81_gpg_l. Qed.
Print Assumptions C81_gpg.

(** without Slater's condition a minimiser need not have a multiplier. In the plane, f = the
    indicator of the ball of radius 1 around (1,0) (EuclideanBall) plus <(0,1),.> (the
    library's + v) and g = the indicator of the half-plane x1 <= 0 (HalfSpace): both convex,
    the origin is the only minimiser of f + g, no multiplier exists, and Slater's condition
    fails *)
Theorem C81_no_slater_refuted : exists f g : efun (Prod_IPS R_IPS R_IPS),
  f = elin (indic (fun x : Prod_IPS R_IPS R_IPS => norm2 (x [-] ((1, 0) : Prod_IPS R_IPS R_IPS)) <= 1)) ((0, 1) : Prod_IPS R_IPS R_IPS) /\
  g = indic (fun x : Prod_IPS R_IPS R_IPS => << ((1, 0) : Prod_IPS R_IPS R_IPS), x >> <= 0) /\
  convex f /\ convex g /\ (forall x, is_min (eadd f g) x <-> x = vzero) /\ (forall x u, ~ kkt f g x u) /\ ~ qualified2 f g.
Proof. exact C81_no_slater_refuted_l. Qed.
Print Assumptions C81_no_slater_refuted.

(** on the real line, f = the indicator of {1} and g = |.|: convex, Slater's condition holds (g
    is finite), 1 is the minimiser; the same for f + g(2 .) and for the three functions f,
    |.|, the indicator of [0,2] *)
Example C81_example : let f := indic (fun x : R_IPS => x = 1) in let g := etot (E:=R_IPS) Rabs in let h := indic (fun x : R_IPS => 0 <= x <= 2) in
  bw R_IPS /\ hb R_IPS /\ convex f /\ convex g /\ convex h /\ qualified2 f g /\ is_min (eadd f g) 1 /\ (forall A : linop R_IPS R_IPS, qualified f g A) /\
  qualified_sum 3 (fun i => nth i [f; g; h] f) /\ is_min (esum 3 (fun i => nth i [f; g; h] f)) 1.
Proof. exact C81_example_l. Qed.
