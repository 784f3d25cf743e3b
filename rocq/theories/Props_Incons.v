(** Property theorems for Incons: statements only; every proof is [exact] a lemma of P_Incons.v.
    Generated from the tagged lemmas of that file. *)
From Coq Require Import String Psatz Classical.
From Verif Require Import Base Space Spec VSum Sep ConvexFacts Smooth MatFacts M_ProxOp SpecOps P_ProxOp M_Norms P_Norms M_Loop LoopFacts LoopFacts2 SeqFacts M_PG M_Split M_Multi SplitMath P_PG P_PG2 P_PG3 P_Split P_Split2 P_Multi P_Multi2 P_Multi3 S_Seq Compact Fejer IterMath IterMath2 IterMath3 S_Iter P_Iter P_Iter3 S_Exist S_Inexact InexactMath S_Count CountMath M_L1 P_L1 S_L1 M_Proj S_Sets P_Sets M_Expr S_Expr P_Expr S_Lasso S_Sparse P_Sparse S_PG2 S_Pnp PnpMath P_Pnp InconsMath EscapeMath.
From Verif Require Import S_Incons.
From Verif Require Import P_Incons.
Open Scope result_scope.
Open Scope R_scope.


(** f and g the projections on two convex sets A and B that need not meet (indicators), in
    finite dimension, with at least one closest pair (a, b); any start, tau > 0, 0 < eta <
    2, either order: DouglasRachfordSplitting never raises, its x converges to a closest
    point (of the set projected on first), and its y moves by vectors that converge to eta
    times the gap b - a between the sets, so that y is bounded exactly when the sets meet;
    after n iterations the mean squared error of these moves is at most eta/(2-eta) |y_0 -
    c|^2 / n *)
Theorem C102_douglas_rachford : forall (E : IPS) (proxf proxg : Op E) A B x0 tau eta (gfirst : bool), bw E ->
  impl_prox proxf (indic A) -> impl_prox proxg (indic B) -> convex_set A -> convex_set B -> 0 < tau -> 0 < eta < 2 -> (exists a b, closest A B a b) ->
  exists xs ys a b, ys 0%nat = x0 /\ (forall n, exists tr, DouglasRachford proxf proxg x0 tau eta (S n) gfirst = Ok (xs n, ys (S n), tr)) /\
    closest A B a b /\ vcv xs (if gfirst then b else a) /\ vcv (fun n => ys (S n) [-] ys n) (eta [*] if gfirst then a [-] b else b [-] a) /\
    ((exists M, forall n, norm (ys n) <= M) <-> exists x, A x /\ B x) /\
    forall c d n, closest A B c d -> (2 - eta) / eta * RS n (fun k => norm2 ((ys (S k) [-] ys k) [-] eta [*] if gfirst then c [-] d else d [-] c)) <= norm2 (x0 [-] if gfirst then d else c).
Proof. exact C102_douglas_rachford_l. Qed.
Print Assumptions C102_douglas_rachford.

(** the same two sets: ADMM never raises, and its x and z converge to a closest pair, x in A and
    z in B from the second iteration on, from any start, for any tau > 0 and in either
    order. Nothing tells the caller whether the sets meet except the distance between x and
    z *)
Theorem C102_admm : forall (E : IPS) (proxf proxg : Op E) A B x0 z0 x z tau (gfirst : bool), bw E ->
  impl_prox proxf (indic A) -> impl_prox proxg (indic B) -> convex_set A -> convex_set B -> 0 < tau -> x0z0_init x0 z0 = Ok (x, z) -> (exists a b, closest A B a b) ->
  exists xs zs a b, (forall n, exists tr, ADMM proxf proxg x0 tau n z0 gfirst = Ok (xs n, zs n, tr)) /\
    closest A B a b /\ vcv xs a /\ vcv zs b /\ forall n, A (xs (S n)) /\ B (zs (S n)).
Proof. exact C102_admm_l. Qed.
Print Assumptions C102_admm.

(** HQS on two sets (alternating projections) never raises; its x and z stay bounded exactly
    when there is a closest pair, and then they converge to one, from any start, for any tau
    > 0 and in either order *)
Theorem C102_hqs : forall (E : IPS) (proxf proxg : Op E) A B x0 z0 x z tau (gfirst : bool), bw E ->
  impl_prox proxf (indic A) -> impl_prox proxg (indic B) -> convex_set A -> convex_set B -> 0 < tau -> x0z0_init x0 z0 = Ok (x, z) ->
  exists xs zs, (forall n, exists tr, HQS proxf proxg x0 [tau] n z0 gfirst = Ok (xs n, zs n, tr)) /\
    ((exists M, forall n, norm (xs n) <= M /\ norm (zs n) <= M) <-> exists a b, closest A B a b) /\
    ((exists a b, closest A B a b) -> exists a b, closest A B a b /\ vcv xs a /\ vcv zs b).
Proof. exact C102_hqs_l. Qed.
Print Assumptions C102_hqs.

(** two convex sets with projections, in finite dimension: a closest pair exists as soon as one
    of the sets is bounded; the gap b - a is the same for all closest pairs; and a = b
    exactly when the sets meet *)
Theorem C102_exists : forall (E : IPS) (proxf proxg : Op E) A B, bw E -> impl_prox proxf (indic A) -> impl_prox proxg (indic B) -> convex_set A -> convex_set B ->
  (bounded_set A \/ bounded_set B -> exists a b, closest A B a b) /\
  (forall a b a' b', closest A B a b -> closest A B a' b' -> b [-] a = b' [-] a') /\
  (forall a b, closest A B a b -> (a = b <-> exists x, A x /\ B x)).
Proof. exact C102_exists_l. Qed.
Print Assumptions C102_exists.

(** m >= 1 convex sets with projections that need not have a common point, admissible weights
    (given or default), an admissible start, tau > 0, 0 < eta < 2, finite dimension, and
    some point has the least weighted sum of squared distances to the sets: PPXA never
    raises, and the vectors it goes through converge to such a point (a common point
    whenever there is one) *)
Theorem C102_ppxa : forall (E : IPS) (os : list (Op E)) (C : nat -> E -> Prop) x0 tau eta weights, bw E ->
  let m := List.length os in let w := nthr (ppxa_weights weights m) in
  impl_all os (fun i => indic (C i)) -> (forall i, (i < m)%nat -> convex_set (C i)) -> (0 < m)%nat -> 0 < tau -> 0 < eta < 2 ->
  good_weights weights m -> ppxa_start_ok x0 weights m -> (exists x a, compromise m w C x a) ->
  exists xs x a, (forall niter amax t, exists k, PPXA os x0 tau eta weights niter amax (Some t) = Ok (xs k, map xs (seq 1 k)) /\
       stops_when (fun j => amax (xs j [-] xs (j - 1)%nat) < t) niter k) /\
    compromise m w C x a /\ vcv xs x.
Proof. exact C102_ppxa_l. Qed.
Print Assumptions C102_ppxa.

(** the same sets with equal weights, any start and any tau > 0: ConsensusADMM never raises, and
    the vectors it goes through converge to a point with the least sum of squared distances
    to the sets *)
Theorem C102_consensus : forall (E : IPS) (os : list (Op E)) (C : nat -> E -> Prop) x0 tau, bw E -> let m := List.length os in
  impl_all os (fun i => indic (C i)) -> (forall i, (i < m)%nat -> convex_set (C i)) -> (0 < m)%nat -> 0 < tau -> (exists x a, compromise m (fun _ => 1 / INR m) C x a) ->
  exists xs x a, (forall niter amax t, exists k, ConsensusADMM os x0 tau niter amax (Some t) = Ok (xs k, map xs (seq 1 k)) /\
       stops_when (fun j => amax (xs j [-] xs (j - 1)%nat) < t) niter k) /\
    compromise m (fun _ => 1 / INR m) C x a /\ vcv xs x.
Proof. exact C102_consensus_l. Qed.
Print Assumptions C102_consensus.

(** such a point exists as soon as one of the sets is bounded; when the sets have a common
    point, the points with the least weighted sum of squared distances are exactly the
    common points *)
Theorem C102_compromise : forall (E : IPS) (os : list (Op E)) (C : nat -> E -> Prop) (w : nat -> R), bw E -> let m := List.length os in
  impl_all os (fun i => indic (C i)) -> (forall i, (i < m)%nat -> convex_set (C i)) -> (forall i, (i < m)%nat -> 0 < w i) -> RS m w = 1 ->
  ((exists i, (i < m)%nat /\ bounded_set (C i)) -> exists x a, compromise m w C x a) /\
  ((exists q, forall i, (i < m)%nat -> C i q) -> forall x, (exists a, compromise m w C x a) <-> forall i, (i < m)%nat -> C i x).
Proof. exact C102_compromise_l. Qed.
Print Assumptions C102_compromise.

(** f convex, any x0 and tau > 0, finite dimension, nothing known about minimisers: the vectors
    returned by ProximalPoint with niter = 0, 1, 2, ... either converge to a minimiser, or f
    has none and their norms tend to infinity; in both cases the values f(x_n) get below
    f(y) + e for every y and e > 0 *)
Theorem C102_proximal_point : forall (E : IPS) (o : Op E) f x0 tau, bw E -> impl_prox o f -> convex f -> 0 < tau ->
  exists xs, (forall n, ProximalPoint o x0 tau n None = Ok (xs n, map xs (seq 1 n))) /\
    ((exists l, is_min f l /\ vcv xs l) \/ ((forall l, ~ is_min f l) /\ escapes xs)) /\
    forall y e, edom f y -> 0 < e -> exists N, forall n, (N <= n)%nat -> edom f (xs n) /\ eval f (xs n) <= eval f y + e.
Proof. exact C102_proximal_point_l. Qed.
Print Assumptions C102_proximal_point.

(** f convex with L-Lipschitz gradient, g convex, eps > 0, 0 < eta < 2 - tau L/2, fixed step, no
    acceleration, finite dimension: the vectors returned by ProximalGradient with niter = 1,
    2, ... either converge to a minimiser of f + eps g, or there is none and their norms
    tend to infinity *)
Theorem C102_proximal_gradient : forall (E : IPS) (proxf proxg : Op E) f df L g eps x0 tau beta eta niterback accel, bw E ->
  smooth_op proxf f df L -> impl_prox proxg g -> convex g -> 0 < eps -> 0 < tau -> 0 < eta < 2 - tau * L / 2 -> unaccelerated accel eta ->
  exists xs, xs 0%nat = x0 /\ (forall n, ProximalGradient proxf proxg x0 [eps] (Some tau) false beta eta (S n) niterback accel None = Ok (xs (S n), map xs (seq 1 (S n)))) /\
    ((exists l, is_min (eadd (etot f) (escal eps g)) l /\ vcv xs l) \/ ((forall l, ~ is_min (eadd (etot f) (escal eps g)) l) /\ escapes xs)).
Proof. exact C102_proximal_gradient_l. Qed.
Print Assumptions C102_proximal_gradient.

(** f and g convex, 0 < eta < 2, tau > 0, any start, either order, finite dimension:
    DouglasRachfordSplitting either returns an x that converges to a minimiser l of f + g
    (and a y that converges to l - tau u or l + tau u, u a subgradient of f at l with -u one
    of g), or there is no solution with a multiplier and the norm of y tends to infinity *)
Theorem C102_dr_cases : forall (E : IPS) (proxf proxg : Op E) f g x0 tau eta (gfirst : bool), bw E ->
  impl_prox proxf f -> impl_prox proxg g -> convex f -> convex g -> 0 < tau -> 0 < eta < 2 ->
  exists xs ys, (forall n, exists tr, DouglasRachford proxf proxg x0 tau eta (S n) gfirst = Ok (xs n, ys (S n), tr)) /\
    ((exists l u, kkt f g l u /\ is_min (eadd f g) l /\ vcv xs l /\ vcv ys (if gfirst then l [-] tau [*] u else l [+] tau [*] u)) \/
     ((forall l u, ~ kkt f g l u) /\ escapes ys)).
Proof. exact C102_dr_cases_l. Qed.
Print Assumptions C102_dr_cases.

(** f and g convex, tau > 0, any start, either order, finite dimension: the x and z returned by
    HQS either converge to a pair minimising f(x) + g(z) + |x-z|^2/(2 tau), or there is no
    such pair and the norms of both tend to infinity *)
Theorem C102_hqs_cases : forall (E : IPS) (proxf proxg : Op E) f g x0 z0 x z tau (gfirst : bool), bw E ->
  impl_prox proxf f -> impl_prox proxg g -> convex f -> convex g -> 0 < tau -> x0z0_init x0 z0 = Ok (x, z) ->
  exists xs zs, (forall n, exists tr, HQS proxf proxg x0 [tau] n z0 gfirst = Ok (xs n, zs n, tr)) /\
    ((exists a b, hqs_min f g tau a b /\ vcv xs a /\ vcv zs b) \/ ((forall a b, ~ hqs_min f g tau a b) /\ escapes xs /\ escapes zs)).
Proof. exact C102_hqs_cases_l. Qed.
Print Assumptions C102_hqs_cases.

(** f = AffineSet(A, b) (inner solver exact) or any projection on a convex set, g = Box with
    finite bounds (real vectors) or EuclideanBall with positive radius (any finite-
    dimensional arrays), and nothing assumed about a point satisfying both constraints:
    ADMM, HQS and DouglasRachfordSplitting find a closest pair from every start *)
Theorem C102_library :
  (forall n (F : IPS) (A : linop (Vec n) F) b f g lu, is_affine f A b -> is_box g lu -> Forall finite_bounds (proj1_sig lu) -> finds_closest f g (fun x => A x = b) (box_set lu)) /\
  (forall (E F : IPS) (A : linop E F) b f g c r, bw E -> is_affine f A b -> is_ball g c r -> 0 < r -> finds_closest f g (fun x => A x = b) (fun x => norm (x [-] c) <= r)) /\
  (forall n (C : Vec n -> Prop) f g lu, impl_prox f (indic C) -> convex_set C -> is_box g lu -> Forall finite_bounds (proj1_sig lu) -> finds_closest f g C (box_set lu)) /\
  (forall (E : IPS) (C : E -> Prop) f g c r, bw E -> impl_prox f (indic C) -> convex_set C -> is_ball g c r -> 0 < r -> finds_closest f g C (fun x => norm (x [-] c) <= r)).
Proof. exact C102_library_l. Qed.
Print Assumptions C102_library.

(** "when the iterates settle down, they have settled on a solution" is false: for f = Box(0, 1)
    and g = Box(2, 3) on arrays with one entry, no point satisfies both constraints, yet,
    from every start and for every tau > 0, the x of ADMM and of HQS converge to 1 and the z
    to 2 (either order), and PPXA (any 0 < eta < 2) and ConsensusADMM converge to 3/2, which
    is in neither set *)
Theorem C102_settled_refuted : let f := obj 2 (box_body lo_box) in let g := obj 2 (box_body hi_box) in
  (forall x : Vec 1, ~ (box_set lo_box x /\ box_set hi_box x)) /\
  forall (x0 : Vec 1) tau eta (gfirst : bool), 0 < tau -> 0 < eta < 2 ->
    (exists xs zs, (forall n, exists tr, ADMM f g (Some x0) tau n None gfirst = Ok (xs n, zs n, tr)) /\ vcv xs (pt 1) /\ vcv zs (pt 2)) /\
    (exists xs zs, (forall n, exists tr, HQS f g (Some x0) [tau] n None gfirst = Ok (xs n, zs n, tr)) /\ vcv xs (pt 1) /\ vcv zs (pt 2)) /\
    (exists xs, (forall niter amax t, exists k, PPXA [f; g] (Common x0) tau eta None niter amax (Some t) = Ok (xs k, map xs (seq 1 k)) /\ stops_when (fun j => amax (xs j [-] xs (j - 1)%nat) < t) niter k) /\ vcv xs (pt (3 / 2))) /\
    (exists xs, (forall niter amax t, exists k, ConsensusADMM [f; g] x0 tau niter amax (Some t) = Ok (xs k, map xs (seq 1 k)) /\ stops_when (fun j => amax (xs j [-] xs (j - 1)%nat) < t) niter k) /\ vcv xs (pt (3 / 2))).
Proof. exact C102_settled_refuted_l. Qed.
Print Assumptions C102_settled_refuted.

(** f(x) = x on the real line: the operator meets the hypotheses, f has no minimiser, and
    ProximalPoint from x0 returns x0 - n tau after n iterations; two boxes that do not meet
    have the closest pair (1, 2) and the point 3/2 with the least sum of squared distances *)
Example C102_example : impl_prox lin1 (etot (E:=R_IPS) (fun x : R_IPS => x)) /\ convex (etot (E:=R_IPS) (fun x : R_IPS => x)) /\ (forall l, ~ is_min (etot (E:=R_IPS) (fun x : R_IPS => x)) l) /\
  (forall (x0 tau : R) n, exists tr, ProximalPoint lin1 (x0 : R_IPS) tau n None = Ok (x0 - INR n * tau, tr)) /\
  closest (box_set lo_box) (box_set hi_box) (pt 1) (pt 2) /\ compromise 2 (fun _ => 1 / 2) (fun i => match i with O => box_set lo_box | _ => box_set hi_box end) (pt (3 / 2)) (fun i => match i with O => pt 1 | _ => pt 2 end).
Proof. exact C102_example_l. Qed.
