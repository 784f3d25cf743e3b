(** Property theorems for Noncvx: statements only; every proof is [exact] a lemma of P_Noncvx.v.
    Generated from the tagged lemmas of that file. *)
From Coq Require Import String ZArith Psatz FunctionalExtensionality.
From Verif Require Import Base Space Spec Cplx ConvexFacts Smooth VSum MatFacts M_ProxOp SpecOps P_ProxOp M_Norms P_Norms M_L1 M_L2 M_Pen S_Pen S_Pen2 S_Pen3 P_L1 P_L2 P_Pen P_Pen2 P_Pen3 M_L0 S_L0 P_L0 P_QE P_Cx2 M_PALM S_PALM P_PALM S_Lasso P_Lasso M_Loop LoopFacts SeqFacts SeqConv M_PG M_Split SplitMath P_PG P_PG2 P_PG3 P_Split2 P_Breg S_Seq Compact Fejer IterMath S_Iter S_PGB P_Iter S_Exist ExistMath P_Exist S_Breg2 P_Breg2 NoncvxMath.
From Verif Require Import S_Noncvx.
From Verif Require Import P_Noncvx.
Open Scope result_scope.
Open Scope R_scope.


(** stationary points (first-order optimality without convexity of g, at step t): a global
    minimiser of f + g is stationary for every t <= 1/L; stationarity at t implies it at
    every smaller t; if f and g are convex a point is stationary exactly when it is a global
    minimiser of f + g *)
Theorem C94_stationary : forall (E : IPS) f (df : E -> E) L (g : efun E) t x, 0 < t ->
  (L_smooth f df L -> t * L <= 1 -> is_min (eadd (etot f) g) x -> stationary df g t x) /\
  (forall s, 0 < s <= t -> stationary df g t x -> stationary df g s x) /\
  (convex (etot f) -> convex g -> is_grad f x (df x) -> (stationary df g t x <-> is_min (eadd (etot f) g) x)).
Proof. exact C94_stationary_l. Qed.
Print Assumptions C94_stationary.

(** f any function with L-Lipschitz gradient (convex or not), g any function, convex or not,
    whose prox is exact at the step epsg tau used, tau < 1/L, epsg > 0, eta = 1, no
    acceleration: ProximalGradient returns for every niter, f + epsg g drops by at least
    (1/(2 tau) - L/2) times the squared step in every iteration; if f + epsg g is bounded
    below by m, among any n consecutive iterations one moves by at most the square root of
    (F(x_i) - m) / (n (1/(2 tau) - L/2)) and the steps vanish; if moreover g is closed every
    limit point of the iterates is stationary, and in finite dimension with bounded level
    sets the iterates approach the set of stationary points *)
Theorem C94_proximal_gradient : forall (E : IPS) (proxf proxg : Op E) f df L g eps x0 tau beta niterback accel,
  L_smooth f df L -> (forall x, o_grad proxf x = Ok (Some (df x))) -> 0 < eps -> 0 < tau -> tau * L < 1 -> prox_at proxg g (eps * tau) -> no_accel accel ->
  let F := fun x => f x + eps * eval g x in let c := / (2 * tau) - L / 2 in
  0 < c /\
  exists xs, xs 0%nat = x0 /\ (forall n, ProximalGradient proxf proxg x0 [eps] (Some tau) false beta 1 (S n) niterback accel None = Ok (xs (S n), map xs (seq 1 (S n)))) /\
    (forall n, edom g (xs (S n))) /\
    (forall n, edom g (xs n) -> F (xs (S n)) + c * norm2 (xs (S n) [-] xs n) <= F (xs n)) /\
    (forall m, (forall y, edom g y -> m <= F y) ->
      (forall i n, edom g (xs i) -> (n <> 0)%nat -> exists j, (i <= j < i + n)%nat /\ c * INR n * norm2 (xs (S j) [-] xs j) <= F (xs i) - m) /\
      Un_cv (fun n => norm (xs (S n) [-] xs n)) 0 /\
      (closed g -> (forall l, cluster xs l -> stationary df (escal eps g) tau l) /\
        (bw E -> level_bounded (eadd (etot f) (escal eps g)) -> approaches (stationary df (escal eps g) tau) xs))).
Proof. exact C94_proximal_gradient_l. Qed.
Print Assumptions C94_proximal_gradient.

(** the range tau < 2/L of the convex case is lost: for f = x^2/2 (L = 1), g the indicator of
    the two points -1 and 1 with exact prox, and every tau > 1, ProximalGradient started at
    1 returns the points (-1)^n for ever: its steps have length 2 and it never settles *)
Theorem C94_step_refuted : forall tau beta niterback, 1 < tau ->
  smooth_op (quad1 1) (fun x : R_IPS => 1 / 2 * (x * x)) (fun x : R_IPS => 1 * x) 1 /\ prox_at signs_op signs (1 * tau) /\ closed signs /\
  forall n, ProximalGradient (quad1 1) signs_op (1 : R) [1] (Some tau) false beta 1 (S n) niterback None None = Ok ((-1) ^ S n, map (fun k => (-1) ^ k) (seq 1 (S n))).
Proof. exact C94_step_refuted_l. Qed.
Print Assumptions C94_step_refuted.

(** f any function with L-Lipschitz gradient (convex or not), g any function, convex or not;
    both prox exact at tau; tau < 1/(2L); f + g bounded below; ADMM, in either order, with f
    given to the argument that is updated second: it returns for every niter, from the first
    iteration on the merit f(x) + <grad f(x), z-x> + g(z) + |x-z|^2/(2 tau) drops by a fixed
    multiple of the squared step, x_n - z_n tends to 0, the steps vanish; if g is closed
    every limit point is a stationary point of f + g, and in finite dimension with bounded
    level sets both returned vectors approach the set of stationary points *)
Theorem C94_admm : forall (E : IPS) (proxs proxn : Op E) f df L g x0 z0 x z tau (gfirst : bool) m,
  L_smooth f df L -> 0 <= L -> 0 < tau -> tau * L < 1 / 2 -> prox_at proxs (etot f) tau -> prox_at proxn g tau ->
  (forall y, edom g y -> m <= f y + eval g y) -> x0z0_init x0 z0 = Ok (x, z) ->
  exists xs zs, (forall n, exists tr, ADMM (if gfirst then proxs else proxn) (if gfirst then proxn else proxs) x0 tau n z0 gfirst = Ok (if gfirst then (xs n, zs n, tr) else (zs n, xs n, tr))) /\
    (forall n, edom g (zs (S n))) /\
    (forall n, merit f df g tau (xs (S (S n))) (zs (S (S n))) + ((/ tau - L) / 2 - tau * (L * L)) * norm2 (xs (S (S n)) [-] xs (S n)) <= merit f df g tau (xs (S n)) (zs (S n))) /\
    Un_cv (fun n => norm (xs (S n) [-] xs n)) 0 /\ Un_cv (fun n => norm (xs n [-] zs n)) 0 /\
    (closed g -> (forall l, cluster xs l -> stationary df g tau l) /\
      (bw E -> level_bounded (eadd (etot f) g) -> approaches (stationary df g tau) xs /\ approaches (stationary df g tau) zs)).
Proof. exact C94_admm_l. Qed.
Print Assumptions C94_admm.

(** the same functions and step for DouglasRachfordSplitting with eta = 1, f given to the
    argument that is updated first (proxg when gfirst): the vectors y of successive
    iterations differ by less and less, every limit point of the returned x is a stationary
    point of f + g, and in finite dimension with bounded level sets the returned x
    approaches the set of stationary points *)
Theorem C94_douglas_rachford : forall (E : IPS) (proxs proxn : Op E) f df L g x0 tau (gfirst : bool) m,
  L_smooth f df L -> 0 <= L -> 0 < tau -> tau * L < 1 / 2 -> prox_at proxs (etot f) tau -> prox_at proxn g tau ->
  (forall y, edom g y -> m <= f y + eval g y) ->
  exists xs ys, (forall n, exists tr, DouglasRachford (if gfirst then proxn else proxs) (if gfirst then proxs else proxn) x0 tau 1 (S n) gfirst = Ok (xs n, ys n, tr)) /\
    Un_cv (fun n => norm (xs (S n) [-] xs n)) 0 /\ Un_cv (fun n => norm (ys (S n) [-] ys n)) 0 /\
    (closed g -> (forall l, cluster xs l -> stationary df g tau l) /\
      (bw E -> level_bounded (eadd (etot f) g) -> approaches (stationary df g tau) xs)).
Proof. exact C94_douglas_rachford_l. Qed.
Print Assumptions C94_douglas_rachford.

(** f and g any closed functions, convex or not, with exact prox at the one step tau: HQS
    returns for every niter, its penalised objective f(x) + g(z) + |x-z|^2/(2 tau) never
    increases, and every limit point (a, b) of the returned pairs is optimal in each block:
    a is the proximal point of f at b and b that of g at a; in finite dimension with bounded
    level sets the pairs approach the set of such pairs *)
Theorem C94_hqs : forall (E : IPS) (proxf proxg : Op E) f g x0 z0 x z tau (gfirst : bool),
  0 < tau -> prox_at proxf f tau -> prox_at proxg g tau -> closed f -> closed g -> x0z0_init x0 z0 = Ok (x, z) ->
  let J := mkEfun (E := Prod_IPS E E) (fun p => edom f (fst p) /\ edom g (snd p)) (fun p => eval f (fst p) + eval g (snd p) + / (2 * tau) * norm2 (fst p [-] snd p)) in
  let best := fun p : Prod_IPS E E => is_prox f tau (snd p) (fst p) /\ is_prox g tau (fst p) (snd p) in
  exists ps : nat -> Prod_IPS E E, (forall n, exists tr, HQS proxf proxg x0 [tau] n z0 gfirst = Ok (fst (ps n), snd (ps n), tr)) /\
    (forall n, edom J (ps (S n))) /\ (forall n, edom J (ps n) -> eval J (ps (S n)) <= eval J (ps n)) /\
    (forall l, cluster ps l -> best l) /\ (bw E -> level_bounded J -> approaches best ps).
Proof. exact C94_hqs_l. Qed.
Print Assumptions C94_hqs.

(** for each non-convex penalty of the library (Log, ETP, Geman, SCAD with step <= a-1,
    QuadraticEnvelopeCard with step <= 1, the separable relaxed Mumford-Shah penalty, L0
    with the penalty it computes, L0Ball) and every step t > 0 it allows, the object
    satisfies what the theorems above ask for: exact prox at t, closed, and nonnegative *)
Theorem C94_penalties : forall n t (o : Op (Vec n)) g, 0 < t -> penalty t o g -> prox_at o g t /\ closed g /\ forall x, edom g x -> 0 <= eval g x.
Proof. exact C94_penalties_l. Qed.
Print Assumptions C94_penalties.

(** end to end: ProximalGradient on s/2 |A x - b|^2 (an L2 object) plus epsg times any of these
    penalties, tau < 1/L: every run returns, the objective drops in every iteration, the
    steps vanish and every limit point is stationary; ADMM with the same two objects, the L2
    object updated second, and tau < 1/(2L) likewise *)
Theorem C94_least_squares : forall n (F : IPS) (A : linop (Vec n) F) b s L (o pen : Op (Vec n)) g eps x0 tau,
  is_L2 o A b s -> 0 < s -> 0 < L -> (forall v, s * norm2 (A v) <= L * norm2 v) -> 0 < tau ->
  let df := fun x => s [*] ladj A (A x [-] b) in
  (forall beta niterback, 0 < eps -> tau * L < 1 -> penalty (eps * tau) pen g ->
    let obj := fun x => s / 2 * norm2 (A x [-] b) + eps * eval g x in
    exists xs, (forall k, ProximalGradient o pen x0 [eps] (Some tau) false beta 1 (S k) niterback None None = Ok (xs (S k), map xs (seq 1 (S k)))) /\
      (forall k, obj (xs (S (S k))) <= obj (xs (S k))) /\ Un_cv (fun k => norm (xs (S k) [-] xs k)) 0 /\ forall l, cluster xs l -> stationary df (escal eps g) tau l) /\
  (forall gfirst : bool, tau * L < 1 / 2 -> penalty tau pen g ->
    exists xs zs, (forall k, exists tr, ADMM (if gfirst then o else pen) (if gfirst then pen else o) (Some x0) tau k None gfirst = Ok (if gfirst then (xs k, zs k, tr) else (zs k, xs k, tr))) /\
      Un_cv (fun k => norm (xs (S k) [-] xs k)) 0 /\ Un_cv (fun k => norm (xs k [-] zs k)) 0 /\ forall l, cluster xs l -> stationary df g tau l).
Proof. exact C94_least_squares_l. Qed.
Print Assumptions C94_least_squares.

(** PALM with fixed steps (both gamma > 1), any f and g, convex or not, closed with exact prox,
    any H with block-Lipschitz partial gradients whose block constants are at least lo > 0
    on the domains: it returns for every niter and f + g + H drops by at least (gamma-1)
    lo/2 times the squared block moves; if f + g + H is bounded below the moves vanish, and
    with continuous partial gradients and constants every limit point (a, b) is stationary
    in each block; in finite dimension with bounded level sets the pairs approach the set of
    such pairs *)
Theorem C94_palm : forall (E F : IPS) (H : Bilin E F) h gx gy lx ly hx0 proxf proxg (f : efun E) (g : efun F) x0 y0 gf gg beta nb lo,
  bilin_spec H h gx gy lx ly -> opt_impl (option_map on_x proxf) f -> opt_impl proxg g -> 1 < gf -> 1 < gg -> 0 < lo ->
  (forall y, edom g y -> lo <= ly y) -> (forall x, edom f x -> lo <= lx x) -> edom f x0 -> edom g y0 ->
  let J := mkEfun (E := Prod_IPS E F) (fun p => edom f (fst p) /\ edom g (snd p)) (fun p => eval f (fst p) + eval g (snd p) + h (fst p) (snd p)) in
  let balanced := fun p : Prod_IPS E F => stationary (fun x => gx x (snd p)) f (1 / (gf * ly (snd p))) (fst p) /\ stationary (gy (fst p)) g (1 / (gg * lx (fst p))) (snd p) in
  exists ps : nat -> Prod_IPS E F, ps 0%nat = (x0, y0) /\ (forall n, PALM H hx0 y0 proxf proxg x0 y0 (Some gf) (Some gg) beta n nb = Ok (fst (ps n), snd (ps n), map ps (seq 1 n))) /\
    (forall n, edom J (ps n)) /\
    (forall n, eval J (ps (S n)) + (gf - 1) * lo / 2 * norm2 (fst (ps (S n)) [-] fst (ps n)) + (gg - 1) * lo / 2 * norm2 (snd (ps (S n)) [-] snd (ps n)) <= eval J (ps n)) /\
    (bounded_below J -> Un_cv (fun n => norm (ps (S n) [-] ps n)) 0 /\
      (closed f -> closed g -> cont2 gx -> cont2 gy -> scont lx -> scont ly -> (forall l, cluster ps l -> balanced l) /\
        (bw E -> bw F -> level_bounded J -> approaches balanced ps))).
Proof. exact C94_palm_l. Qed.
Print Assumptions C94_palm.

(** b = (3, 1), A the identity, s = 1, L = 1, tau = 1/2 for ProximalGradient (1/4 for ADMM) and
    L0Ball with radius 1 meet the hypotheses; (3, 0) is a stationary point and the origin is
    not *)
Example C94_example : exists (o pen : Op (Vec 2)), let g := indic (l0_ball (n:=2) 1) in let b := vtab 2 (fun i => if Nat.eqb i 0 then 3 else 1) in
  let df := fun x => 1 [*] ladj (id_linop (Vec 2)) (id_linop (Vec 2) x [-] b) in
  is_L2 o (id_linop (Vec 2)) b 1 /\ penalty (1 * (1 / 2)) pen g /\ penalty (1 / 4) pen g /\ (forall v, 1 * norm2 (id_linop (Vec 2) v) <= 1 * norm2 v) /\
  stationary df (escal 1 g) (1 / 2) (vtab 2 (fun i => if Nat.eqb i 0 then 3 else 0)) /\ ~ stationary df (escal 1 g) (1 / 2) vzero.
Proof. exact C94_example_l. Qed.

(** H = (x-y)^2/2 on the line, f the indicator of the two points -1 and 1 (not convex) and no g,
    with gammas 2 and lo = 1, meet all the hypotheses of C94_palm *)
Example C94_palm_example : let h := fun x y : R => / 2 * ((x - y) * (x - y)) in let gx := fun x y : R => x - y in let gy := fun x y : R => y - x in
  let one := fun _ : R => 1 in let pf := Some (mkOp2 signs_op signs_op) in
  bilin_spec gap1 h gx gy one one /\ opt_impl (option_map on_x pf) signs /\ opt_impl (E:=R_IPS) None (etot (E:=R_IPS) (fun _ => 0)) /\ 1 < 2 /\
  ~ convex signs /\ bounded_below (E:=Prod_IPS R_IPS R_IPS) (mkEfun (E:=Prod_IPS R_IPS R_IPS) (fun p => edom signs (fst p) /\ True) (fun p => eval signs (fst p) + 0 + h (fst p) (snd p))) /\
  level_bounded (E:=Prod_IPS R_IPS R_IPS) (mkEfun (E:=Prod_IPS R_IPS R_IPS) (fun p => edom signs (fst p) /\ True) (fun p => eval signs (fst p) + 0 + h (fst p) (snd p))) /\
  closed signs /\ closed (etot (E:=R_IPS) (fun _ => 0)) /\ cont2 (E:=R_IPS) (F:=R_IPS) (G:=R_IPS) gx /\ cont2 (E:=R_IPS) (F:=R_IPS) (G:=R_IPS) gy /\ scont (E:=R_IPS) one /\ bw R_IPS.
Proof. exact C94_palm_example_l. Qed.
