(** Property theorems for Units: statements only; every proof is [exact] a lemma of P_Units.v.
    Generated from the tagged lemmas of that file. *)
From Coq Require Import String Psatz Permutation.
From Verif Require Import Base Space Spec ConvexFacts Smooth VSum M_ProxOp SpecOps P_ProxOp M_Norms P_Norms M_Loop LoopFacts SeqFacts M_PG M_Split M_PD M_Multi P_PG P_PG2 P_PG3 P_Iter P_Split2 P_PD2 S_Lasso S_PD2 S_Split2 P_L0 P_Resume P_Equiv.
From Verif Require Import S_Units.
From Verif Require Import P_Units.
Open Scope result_scope.
Open Scope R_scope.


(** c * f.precomposition(a, b) behaves as c f(a x + b), whatever operator f is; so does
    f.precomposition(a, b) with c = 1, and c * f with a = 1, b = 0 *)
Theorem C88_algebra : forall (E : IPS) (f : Op E) c a b k k', 0 < c -> a <> 0 ->
  units c a b f (obj (S k) (post_body (obj (S k') (pre_body f a b)) c)) /\ units 1 a b f (obj (S k) (pre_body f a b)) /\ units c 1 vzero f (obj (S k) (post_body f c)).
Proof. exact C88_algebra_l. Qed.
Print Assumptions C88_algebra.

(** for an operator whose proxdual is the one derived from its prox, the proxdual of c *
    g.precomposition(a, d) is that of c g(a y + d) in terms of g's, and again derived from
    its prox *)
Theorem C88_dual_algebra : forall (F : IPS) (g : Op F) c a d k k', 0 < c -> a <> 0 -> inherits_dual g ->
  let g' := obj (S (S k)) (post_body (obj (S k') (pre_body g a d)) c) in units_dual c a d g g' /\ inherits_dual g'.
Proof. exact C88_dual_algebra_l. Qed.
Print Assumptions C88_dual_algebra.

(** ProximalPoint on c f(a x + b) from x0 with step tau is ProximalPoint on f from a x0 + b with
    step c a^2 tau, mapped back: returned vector, callbacks, number of iterations under a
    tolerance and errors *)
Theorem C88_proximal_point : forall (E : IPS) c a (b : E), 0 < c -> a <> 0 -> forall (f f' : Op E) x0 tau n tol, units c a b f f' -> 0 < tau ->
  ProximalPoint f' x0 tau n tol = (r <- ProximalPoint f (fwd a b x0) (c * a ^ 2 * tau) n tol ;; Ok (back a b (fst r), map (back a b) (snd r))).
Proof. exact C88_proximal_point_l. Qed.
Print Assumptions C88_proximal_point.

(** the same for DouglasRachfordSplitting, ADMM and HQS (with one step or a list of steps), in
    both orders *)
Theorem C88_splitting : forall (E : IPS) c a (b : E), 0 < c -> a <> 0 -> forall (f f' g g' : Op E) n gfirst, units c a b f f' -> units c a b g g' ->
  let both := fun p => (back a b (fst p), back a b (snd p)) in
  (forall x0 tau eta, 0 < tau -> DouglasRachford f' g' x0 tau eta n gfirst = (r <- DouglasRachford f g (fwd a b x0) (c * a ^ 2 * tau) eta n gfirst ;; Ok (both (fst r), map both (snd r)))) /\
  (forall x0 z0 tau, 0 < tau -> ADMM f' g' x0 tau n z0 gfirst = (r <- ADMM f g (option_map (fwd a b) x0) (c * a ^ 2 * tau) n (option_map (fwd a b) z0) gfirst ;; Ok (both (fst r), map both (snd r)))) /\
  (forall x0 z0 taus, Forall (fun t => 0 < t) taus -> HQS f' g' x0 taus n z0 gfirst = (r <- HQS f g (option_map (fwd a b) x0) (map (Rmult (c * a ^ 2)) taus) n (option_map (fwd a b) z0) gfirst ;; Ok (both (fst r), map both (snd r)))).
Proof. exact C88_splitting_l. Qed.
Print Assumptions C88_splitting.

(** the same for ProximalGradient with every option: backtracking, acceleration, relaxation, a
    list of epsg, a tolerance *)
Theorem C88_proximal_gradient : forall (E : IPS) c a (b : E), 0 < c -> a <> 0 -> forall (f f' g g' : Op E) x0 epsg tau bt beta eta n nb accel tol, units c a b f f' -> units c a b g g' ->
  Forall (fun e => 0 < e) epsg -> 0 < tau -> 0 < beta ->
  ProximalGradient f' g' x0 epsg (Some tau) bt beta eta n nb accel tol = (r <- ProximalGradient f g (fwd a b x0) epsg (Some (c * a ^ 2 * tau)) bt beta eta n nb accel tol ;; Ok (back a b (fst r), map (back a b) (snd r))).
Proof. exact C88_proximal_gradient_l. Qed.
Print Assumptions C88_proximal_gradient.

(** the same for PPXA, ConsensusADMM (the tolerance on the entries times |a|) and
    GeneralizedProximalGradient, with any number of functions and any positive weights that
    sum to 1 *)
Theorem C88_many : forall (E : IPS) c a (b : E), 0 < c -> a <> 0 -> forall (fs fs' gs gs' : list (Op E)) n, Forall2 (units c a b) fs fs' -> Forall2 (units c a b) gs gs' ->
  (forall x0 tau eta w amax tol, 0 < tau -> weights_ok w -> homogeneous amax ->
    PPXA fs' x0 tau eta w n amax tol = (r <- PPXA fs (fwd_init a b x0) (c * a ^ 2 * tau) eta w n amax (option_map (Rmult (Rabs a)) tol) ;; Ok (back a b (fst r), map (back a b) (snd r)))) /\
  (forall x0 tau amax tol, 0 < tau -> homogeneous amax ->
    ConsensusADMM fs' x0 tau n amax tol = (r <- ConsensusADMM fs (fwd a b x0) (c * a ^ 2 * tau) n amax (option_map (Rmult (Rabs a)) tol) ;; Ok (back a b (fst r), map (back a b) (snd r)))) /\
  (forall x0 tau eps w eta accel, 0 < tau -> Forall (fun e => 0 < e) eps -> weights_ok w ->
    GeneralizedProximalGradient fs' gs' x0 (Some tau) eps w eta n accel = (r <- GeneralizedProximalGradient fs gs (fwd a b x0) (Some (c * a ^ 2 * tau)) eps w eta n accel ;; Ok (back a b (fst r), map (back a b) (snd r)))).
Proof. exact C88_many_l. Qed.
Print Assumptions C88_many.

(** the same for the solvers with an operator A, g being moved to c g(a y + A b):
    LinearizedADMM; PrimalDual with constant or listed steps, whose mu is divided by c a^2
    and whose y and z are divided by c a, in both orders, also with an A that returns its
    argument *)
Theorem C88_operator : forall (E F : IPS) (A : linop E F) c a (b : E), 0 < c -> a <> 0 -> forall (f f' : Op E) (g g' : Op F) n, units c a b f f' ->
  (forall x0 z0 tau mu, units c a (lapp A b) g g' -> 0 < tau -> 0 < mu -> LinearizedADMM f' g' A x0 tau mu n z0 =
    (r <- LinearizedADMM f g A (option_map (fwd a b) x0) (c * a ^ 2 * tau) (c * a ^ 2 * mu) n (option_map (fwd a (lapp A b)) z0) ;; Ok (back a b (fst (fst r)), back a (lapp A b) (snd (fst r)), map (back a b) (snd r)))) /\
  (forall alias x0 tau mu y0 z theta gfirst, units_dual c a (lapp A b) g g' -> steps_pos tau -> steps_pos mu -> (forall h, alias = Some h -> forall k x, h (k [*] x) = k [*] h x) ->
    PrimalDual f' g' A alias x0 tau mu y0 z theta n gfirst =
    (r <- PrimalDual f g A alias (fwd a b x0) (fwd_steps (c * a ^ 2) tau) (fwd_steps (/ (c * a ^ 2)) mu) (option_map (vscal (/ (c * a))) y0) (option_map (vscal (/ (c * a))) z) theta n gfirst ;;
     Ok (back a b (fst (fst r)), (c * a) [*] snd (fst r), map (fun p => (back a b (fst p), (c * a) [*] snd p)) (snd r)))).
Proof. exact C88_operator_l. Qed.
Print Assumptions C88_operator.

(** PPXA, ConsensusADMM and GeneralizedProximalGradient return the same vector and call back
    with the same vectors in whatever order the functions (each with its weight, epsilon and
    starting vector) are listed *)
Theorem C88_order : forall (E : IPS) n,
  (forall (l l' : list (Op E * R * E)) tau eta amax tol r, Permutation l l' ->
    PPXA (map fst (map fst l)) (PerFun (map snd l)) tau eta (Some (map snd (map fst l))) n amax tol = Ok r -> PPXA (map fst (map fst l')) (PerFun (map snd l')) tau eta (Some (map snd (map fst l'))) n amax tol = Ok r) /\
  (forall (fs fs' : list (Op E)) x0 tau eta amax tol r, Permutation fs fs' -> PPXA fs (Common x0) tau eta None n amax tol = Ok r -> PPXA fs' (Common x0) tau eta None n amax tol = Ok r) /\
  (forall (fs fs' : list (Op E)) x0 tau amax tol r, Permutation fs fs' -> ConsensusADMM fs x0 tau n amax tol = Ok r -> ConsensusADMM fs' x0 tau n amax tol = Ok r) /\
  (forall (fs fs' : list (Op E)) (l l' : list (Op E * R * R)) x0 tau eta accel r, Permutation fs fs' -> Permutation l l' ->
    GeneralizedProximalGradient fs (map fst (map fst l)) x0 tau (map snd (map fst l)) (Some (map snd l)) eta n accel = Ok r -> GeneralizedProximalGradient fs' (map fst (map fst l')) x0 tau (map snd (map fst l')) (Some (map snd l')) eta n accel = Ok r) /\
  (forall (fs fs' gs gs' : list (Op E)) x0 tau e eta accel r, Permutation fs fs' -> Permutation gs gs' ->
    GeneralizedProximalGradient fs gs x0 tau [e] None eta n accel = Ok r -> GeneralizedProximalGradient fs' gs' x0 tau [e] None eta n accel = Ok r).
Proof. exact C88_order_l. Qed.
Print Assumptions C88_order.

(** PPXA accepts weights that do not sum to 1, and then where the origin is decides the result:
    on two zero functions with weights 1, 1 one iteration takes x0 = 1 to 2, while the same
    problem seen from the point 1 (where it starts at the origin) stays at x0 *)
Theorem C88_weights_refuted : units 1 1 (-1 : R_IPS) zero1 zero1 /\ back 1 (-1 : R_IPS) (0 : R_IPS) = 1 /\ exists tr tr',
  PPXA [zero1; zero1] (Common (1:R_IPS)) 1 1 (Some [1; 1]) 1 Rabs (Some 0) = Ok (2, tr) /\ PPXA [zero1; zero1] (fwd_init 1 (-1 : R_IPS) (Common (1:R_IPS))) 1 1 (Some [1; 1]) 1 Rabs (Some 0) = Ok (0, tr').
Proof. exact C88_weights_refuted_l. Qed.
Print Assumptions C88_weights_refuted.

(** (x-1)^2/2 is x^2/2 moved to the point 1, and 2 (3x+1)^2/2 is reached by the operator
    algebra; x^2/2 has the inherited dual prox, the absolute value is homogeneous; from 0
    with step 1 DouglasRachfordSplitting on two copies of (x-1)^2/2 returns 1/2 after one
    iteration, and on two copies of x^2/2 from -1 it returns -1/2 *)
Example C88_example : units 1 1 (-1 : R_IPS) half1 shifted1 /\ units 2 3 (1 : R_IPS) half1 (obj 2 (post_body (obj 2 (pre_body half1 3 1)) 2)) /\ inherits_dual half1 /\ homogeneous (E:=R_IPS) Rabs /\ weights_ok (Some [1/3; 2/3]) /\
  (exists y tr, DouglasRachford shifted1 shifted1 (0:R_IPS) 1 1 1 false = Ok (1/2, y, tr)) /\ (exists y tr, DouglasRachford half1 half1 (-1:R_IPS) 1 1 1 false = Ok (-(1/2), y, tr)) /\ back 1 (-1 : R_IPS) (-(1/2) : R_IPS) = 1/2.
Proof. exact C88_example_l. Qed.
