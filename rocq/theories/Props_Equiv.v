(** Property theorems for Equiv: statements only; every proof is [exact] a lemma of P_Equiv.v.
    Generated from the tagged lemmas of that file. *)
From Coq Require Import String Psatz.
From Verif Require Import Base Space Spec ConvexFacts Smooth VSum M_ProxOp SpecOps P_ProxOp M_Norms P_Norms M_Loop LoopFacts SeqFacts M_PG M_Split M_PD M_Multi M_PALM M_Anderson P_PG P_PG2 P_PG3 P_Iter P_Split2 P_PD2 S_Lasso S_PD2 S_Split2 P_Resume.
From Verif Require Import S_Equiv.
From Verif Require Import P_Equiv.
Open Scope result_scope.
Open Scope R_scope.


(** gfirst=True is gfirst=False with the two operators (and the two returned vectors) exchanged:
    for DouglasRachfordSplitting, HQS and ADMM, for arbitrary operators (also ones that
    raise), starts and steps *)
Theorem C87_order : forall (E : IPS) (f g : Op E) (n : nat),
  (forall x0 tau eta, DouglasRachford f g x0 tau eta n true = DouglasRachford g f x0 tau eta n false) /\
  (forall x0 z0 taus, HQS f g x0 taus n z0 true = (r <- HQS g f z0 taus n x0 false ;; Ok (snd (fst r), fst (fst r), map (fun p => (snd p, fst p)) (snd r)))) /\
  (forall x0 z0 tau, ADMM f g x0 tau n z0 true = (r <- ADMM g f z0 tau n x0 false ;; Ok (snd (fst r), fst (fst r), map (fun p => (snd p, fst p)) (snd r)))).
Proof. exact C87_order_l. Qed.
Print Assumptions C87_order.

(** LinearizedADMM with the identity and mu = tau is ADMM with gfirst=False (z0 not given, or
    equal to x0): same vectors, callbacks and exceptions *)
Theorem C87_linearized_admm : forall (E : IPS) (f g : Op E) x0 z0 tau n, tau <> 0 -> z0 = None \/ z0 = Some x0 ->
  LinearizedADMM f g (id_linop E) (Some x0) tau tau n z0 = (r <- ADMM f g (Some x0) tau n z0 false ;; Ok (fst (fst r), snd (fst r), map fst (snd r))).
Proof. exact C87_linearized_admm_l. Qed.
Print Assumptions C87_linearized_admm.

(** ADMML2 (gfirst=False) with the identity as A is ADMM on f and g, for every operator f whose
    proximal operator at tau is the regularised inversion that ADMML2 makes (whatever its
    start), with or without z0 *)
Theorem C87_admml2 : forall (E : IPS) (f g : Op E) reginv x0 z0 tau n, 0 < tau -> (forall x v, reginv x v (1 / sqrt tau) = o_prox f v tau) ->
  ADMML2 g (id_linop E) reginv (Some x0) tau n z0 false = (r <- ADMM f g (Some x0) tau n z0 false ;; Ok (fst (fst r), snd (fst r), map fst (snd r))).
Proof. exact C87_admml2_l. Qed.
Print Assumptions C87_admml2.

(** every class that defines only prox has the dual proximal operator required by
    C87_primal_dual *)
Theorem C87_moreau_dual : forall (E : IPS) (b : Body E) m fuel tau, b_prox b = Some m -> b_proxdual b = None -> 0 < tau -> moreau_dual (obj (S (S fuel)) b) tau.
Proof. exact C87_moreau_dual_l. Qed.
Print Assumptions C87_moreau_dual.

(** PrimalDual with the identity, theta = 1 and mu = 1/tau is DouglasRachfordSplitting with eta
    = 1 started at x0 - tau y0 (gfirst=False in both), which returns x - tau y in place of
    y; for arbitrary operators, g's dual proximal operator following Moreau's identity *)
Theorem C87_primal_dual_dr : forall (E : IPS) (f g : Op E) x0 y0 tau n, tau <> 0 -> moreau_dual g tau -> (1 <= n)%nat ->
  DouglasRachford f g (x0 [-] tau [*] y0) tau 1 n false =
    (r <- PrimalDual f g (id_linop E) None x0 (Scalar tau) (Scalar (1 / tau)) (Some y0) None 1 n false ;;
     Ok (fst (fst r), fst (fst r) [-] tau [*] snd (fst r), map (fun p => (fst p, fst p [-] tau [*] snd p)) (snd r))).
Proof. exact C87_primal_dual_dr_l. Qed.
Print Assumptions C87_primal_dual_dr.

(** PrimalDual with gfirst=True started at (x0, y0) makes the primal iterates of gfirst=False
    started at (x0, y1), where y1 is the first dual update; its dual iterates are y1
    followed by those of the other run, one iteration late; for arbitrary operators, any
    theta and z *)
Theorem C87_primal_dual_order : forall (E F : IPS) (f : Op E) (g : Op F) (A : linop E F) x0 y0 z tau mu theta n y1 x y tr,
  o_proxdual g (y0 [+] mu [*] lapp A x0) mu = Ok y1 -> PrimalDual f g A None x0 (Scalar tau) (Scalar mu) (Some y1) z theta n false = Ok (x, y, tr) ->
  exists y' tr', PrimalDual f g A None x0 (Scalar tau) (Scalar mu) (Some y0) z theta n true = Ok (x, y', tr') /\ map fst tr' = map fst tr /\ map snd tr' = firstn n (y1 :: map snd tr).
Proof. exact C87_primal_dual_order_l. Qed.
Print Assumptions C87_primal_dual_order.

(** AdaptivePrimalDual with alpha = 0 keeps its steps and is PrimalDual with theta = 1 and
    gfirst=False started at y = 0, stopped after some number k of iterations, when A x0 = 0
    (in particular from x0 = 0) *)
Theorem C87_adaptive : forall (E F : IPS) (f : Op E) (g : Op F) (A : linop E F) x0 tau mu eta s delta rz n tol x taus mus alphas tr, lapp A x0 = vzero ->
  AdaptivePrimalDual f g A None x0 tau mu 0 eta s delta None rz n tol = Ok (x, (taus, mus, alphas), tr) ->
  exists k y tr', (k <= n)%nat /\ PrimalDual f g A None x0 (Scalar tau) (Scalar mu) None None 1 k false = Ok (x, y, tr') /\ tr = map fst tr' /\
    taus = repeat tau (S k) /\ mus = repeat mu (S k) /\ alphas = repeat 0 (S k).
Proof. exact C87_adaptive_l. Qed.
Print Assumptions C87_adaptive.

(** TwIST with alpha = beta = 1 makes the iterations of ProximalGradient (step 1, no
    acceleration) on 1/2|A x - b|^2 and g, one more than asked for and without handing the
    first one to the callback; f is any operator with that gradient *)
Theorem C87_twist : forall (E F : IPS) (f g : Op E) (A : linop E F) b x0 eigs e1 e2 beta nb a n, no_acceleration a -> (forall x, get_grad f x = Ok (ladj A (lapp A x [-] b))) ->
  TwIST g A b x0 (Some 1) (Some 1) eigs e1 e2 n = (r <- ProximalGradient f g x0 [1] (Some 1) false beta 1 (S n) nb a None ;; Ok (fst r, tl (snd r))).
Proof. exact C87_twist_l. Qed.
Print Assumptions C87_twist.

(** GeneralizedProximalGradient with one smooth and one other function is ProximalGradient
    without backtracking and acceleration: same vectors, callbacks and exceptions, for every
    eta, step and factor *)
Theorem C87_generalized_single : forall (E : IPS) (f g : Op E) x0 tau e eta beta nb a n, no_acceleration a -> (1 <= n)%nat ->
  GeneralizedProximalGradient [f] [g] x0 (Some tau) [e] None eta n a = ProximalGradient f g x0 [e] (Some tau) false beta eta n nb a None.
Proof. exact C87_generalized_single_l. Qed.
Print Assumptions C87_generalized_single.

(** PPXA with the default weights, eta = 1 and step tau/m is ConsensusADMM with step tau, for
    every list of m >= 1 operators (also ones that raise), start, number of iterations and
    tolerance: same vectors, same stopping, same callbacks, same exceptions *)
Theorem C87_ppxa_consensus : forall (E : IPS) (fs : list (Op E)) x0 tau n amax tol, fs <> [] ->
  PPXA fs (Common x0) (tau / INR (List.length fs)) 1 None n amax tol = ConsensusADMM fs x0 tau n amax tol.
Proof. exact C87_ppxa_consensus_l. Qed.
Print Assumptions C87_ppxa_consensus.

(** ConsensusADMM on a single function makes the iterations of ProximalPoint until it stops;
    with a tolerance that is never met it makes all of them *)
Theorem C87_consensus_single : forall (E : IPS) (o : Op E) x0 tau n amax t x tr, ConsensusADMM [o] x0 tau n amax (Some t) = Ok (x, tr) ->
  exists k, (k <= n)%nat /\ ProximalPoint o x0 tau k None = Ok (x, tr) /\ ((t <= 0 /\ forall v, 0 <= amax v) -> k = n).
Proof. exact C87_consensus_single_l. Qed.
Print Assumptions C87_consensus_single.

(** GeneralizedProximalGradient without smooth functions is PPXA (common start, weights summing
    to one, any eta, factors 1): PPXA makes its iterations until it stops, all of them with
    a tolerance that is never met *)
Theorem C87_generalized_ppxa : forall (E : IPS) (fs : list (Op E)) x0 tau eta w n amax t x tr a, no_acceleration a -> fs <> [] -> match w with None => True | Some l => Rsum l = 1 end ->
  PPXA fs (Common x0) tau eta w n amax (Some t) = Ok (x, tr) ->
  exists k, (k <= n)%nat /\ GeneralizedProximalGradient [] fs x0 (Some tau) [1] w eta k a = Ok (x, tr) /\ ((t <= 0 /\ forall v, 0 <= amax v) -> k = n).
Proof. exact C87_generalized_ppxa_l. Qed.
Print Assumptions C87_generalized_ppxa.

(** AndersonProximalGradient with a history of one residual and no safeguard, whenever it
    returns, returns what ProximalGradient (no acceleration) returns after one more
    iteration, and hands the callback the same vectors but the first *)
Theorem C87_anderson : forall (E : IPS) pinv (f g : Op E) x0 e tau n epsr x tr beta nb a, no_acceleration a -> pinv [[0]] = [[0]] -> (forall c, c <> 0 -> pinv [[c]] = [[/ c]]) ->
  AndersonProximalGradient pinv f g x0 [e] tau n 1 epsr false None = Ok (x, tr) ->
  exists x1, ProximalGradient f g x0 [e] (Some tau) false beta 1 (S n) nb a None = Ok (x, x1 :: tr).
Proof. exact C87_anderson_l. Qed.
Print Assumptions C87_anderson.

(** iPALM without inertia is PALM: same vectors, callbacks and exceptions, unless gammaf is
    given and gammag is not (where iPALM raises) *)
Theorem C87_ipalm : forall (E F : IPS) (H : Bilin E F) hx hy proxf proxg x0 y0 gf gg beta n nb, gf = None \/ gg <> None ->
  iPALM H hx hy proxf proxg x0 y0 gf gg 0 0 beta n nb = PALM H hx hy proxf proxg x0 y0 gf gg beta n nb.
Proof. exact C87_ipalm_l. Qed.
Print Assumptions C87_ipalm.

(** with a z0 different from x0, LinearizedADMM with the identity and mu = tau is not ADMM: it
    ignores z0 in the first iteration *)
Theorem C87_linearized_admm_refuted : exists tr tr', LinearizedADMM shifted1 half1 (id_linop R_IPS) (Some (0:R_IPS)) 1 1 1 (Some 1) = Ok (1/2, 1/4, tr) /\ ADMM shifted1 half1 (Some (0:R_IPS)) 1 1 (Some 1) false = Ok (1, 1/2, tr').
Proof. exact C87_linearized_admm_refuted_l. Qed.
Print Assumptions C87_linearized_admm_refuted.

(** with acceleration, GeneralizedProximalGradient on one smooth and one other function is not
    the accelerated ProximalGradient: it evaluates the gradient at x instead of at the
    extrapolated point: on x^2/2 with step 1/2 from 1, after 3 iterations 1/16 against 3/32 *)
Theorem C87_generalized_single_refuted : exists tr tr', GeneralizedProximalGradient [quad1 1] [zero1] (1:R_IPS) (Some (1/2)) [1] None 1 3 (Some "vandenberghe"%string) = Ok (1/16, tr) /\
  ProximalGradient (quad1 1) zero1 (1:R_IPS) [1] (Some (1/2)) false 1 1 3 1 (Some "vandenberghe"%string) None = Ok (3/32, tr').
Proof. exact C87_generalized_single_refuted_l. Qed.
Print Assumptions C87_generalized_single_refuted.

(** from an x0 with A x0 <> 0 AdaptivePrimalDual with alpha = 0 is not PrimalDual: its first
    iteration extrapolates as if A x0 were zero *)
Theorem C87_adaptive_refuted : exists h tr y tr', AdaptivePrimalDual shifted1 half1 (id_linop R_IPS) None (1:R_IPS) (1/2) (1/2) 0 1 1 2 None (fun _ => None) 2 (-1) = Ok (7/9, h, tr) /\
  PrimalDual shifted1 half1 (id_linop R_IPS) None (1:R_IPS) (Scalar (1/2)) (Scalar (1/2)) None None 1 2 false = Ok (8/9, y, tr').
Proof. exact C87_adaptive_refuted_l. Qed.
Print Assumptions C87_adaptive_refuted.

(** PPXA with step 1/2 and ConsensusADMM with step 1 on (x-1)^2/2 and 0 return 1/2 after two
    iterations; PrimalDual and DouglasRachfordSplitting on (x-1)^2/2 and x^2/2 (step 1, from
    x0 = 1, y0 = 0) return 3/4 after two, and x^2/2 computes its dual prox as required *)
Example C87_example : (exists tr, PPXA [shifted1; zero1] (Common (0:R_IPS)) (1/2) 1 None 2 Rabs (Some 0) = Ok (1/2, tr)) /\ (exists tr, ConsensusADMM [shifted1; zero1] (0:R_IPS) 1 2 Rabs (Some 0) = Ok (1/2, tr)) /\
  moreau_dual half1 1 /\ (exists tr, PrimalDual shifted1 half1 (id_linop R_IPS) None (1:R_IPS) (Scalar 1) (Scalar (1/1)) (Some 0) None 1 2 false = Ok (3/4, 1/2, tr)) /\
  (exists tr, DouglasRachford shifted1 half1 (1:R_IPS) 1 1 2 false = Ok (3/4, 1/4, tr)) /\
  (forall x, get_grad (quad1 1) x = Ok (ladj (id_linop R_IPS) (vsub (E:=R_IPS) (lapp (id_linop R_IPS) x) vzero))) /\ no_acceleration None.
Proof. exact C87_example_l. Qed.
