(** Property theorems for Resume: statements only; every proof is [exact] a lemma of P_Resume.v.
    Generated from the tagged lemmas of that file. *)
From Coq Require Import String Psatz.
From Verif Require Import Base Space Spec ConvexFacts Smooth VSum M_ProxOp SpecOps P_ProxOp M_Norms P_Norms M_Loop LoopFacts SeqFacts M_PG M_Split M_PD M_Multi M_PALM P_PG P_PG2 P_PG3 P_Iter P_Split2 P_PD2 S_Lasso S_PD2 S_Split2.
From Verif Require Import S_Resume.
From Verif Require Import P_Resume.
Open Scope result_scope.
Open Scope R_scope.


(** whatever the operator does (it may raise), a run of ProximalPoint of k + m iterations (tol
    not given) is the run of k iterations followed by a run of m iterations started at the
    vector it returned: same result, same callbacks, same exception *)
Theorem C86_proximal_point : forall (E : IPS) (o : Op E) x0 tau k m xk tr, ProximalPoint o x0 tau k None = Ok (xk, tr) ->
  ProximalPoint o x0 tau (k + m) None = (r <- ProximalPoint o xk tau m None ;; Ok (fst r, tr ++ snd r)).
Proof. exact C86_proximal_point_l. Qed.
Print Assumptions C86_proximal_point.

(** the same for ProximalGradient without acceleration (or with eta different from 1, where the
    code ignores it) and without backtracking, the second run being given the factors epsg
    of its iterations *)
Theorem C86_proximal_gradient : forall (E : IPS) (proxf proxg : Op E) x0 epsg tau beta eta niterback accel k m xk tr, (1 <= k)%nat -> (1 <= m)%nat -> per_iteration epsg (k + m) ->
  accel = None \/ accel = Some "None"%string \/ eta <> 1 ->
  ProximalGradient proxf proxg x0 epsg (Some tau) false beta eta k niterback accel None = Ok (xk, tr) ->
  ProximalGradient proxf proxg x0 epsg (Some tau) false beta eta (k + m) niterback accel None =
    (r <- ProximalGradient proxf proxg xk (list_left k epsg) (Some tau) false beta eta m niterback accel None ;; Ok (fst r, tr ++ snd r)).
Proof. exact C86_proximal_gradient_l. Qed.
Print Assumptions C86_proximal_gradient.

(** a run of HQS of k + m iterations is the run of k iterations followed by a run of m
    iterations started at the x and z it returned, the second run being given the step sizes
    of its iterations *)
Theorem C86_hqs : forall (E : IPS) (proxf proxg : Op E) x0 z0 taus gfirst k m xk zk tr, (1 <= k)%nat -> (1 <= m)%nat -> per_iteration taus (k + m) ->
  HQS proxf proxg x0 taus k z0 gfirst = Ok (xk, zk, tr) ->
  HQS proxf proxg x0 taus (k + m) z0 gfirst = (r <- HQS proxf proxg (Some xk) (list_left k taus) m (Some zk) gfirst ;; Ok (fst (fst r), snd (fst r), tr ++ snd r)).
Proof. exact C86_hqs_l. Qed.
Print Assumptions C86_hqs.

(** a run of DouglasRachfordSplitting of k + m iterations is the run of k iterations followed by
    a run of m iterations started at the auxiliary vector y it returned (not at x), for
    either order *)
Theorem C86_douglas_rachford : forall (E : IPS) (proxf proxg : Op E) x0 tau eta gfirst k m xk yk tr, (1 <= m)%nat ->
  DouglasRachford proxf proxg x0 tau eta k gfirst = Ok (xk, yk, tr) ->
  DouglasRachford proxf proxg x0 tau eta (k + m) gfirst = (r <- DouglasRachford proxf proxg yk tau eta m gfirst ;; Ok (fst (fst r), snd (fst r), tr ++ snd r)).
Proof. exact C86_douglas_rachford_l. Qed.
Print Assumptions C86_douglas_rachford.

(** a run of PrimalDual of k + m iterations is the run of k iterations followed by a run of m
    iterations started at the x and y it returned, given the steps of its iterations: with
    gfirst=False for every theta, with gfirst=True for theta = 0 *)
Theorem C86_primal_dual : forall (E F : IPS) (proxf : Op E) (proxg : Op F) A alias x0 tau mu y0 z theta gfirst k m xk yk tr, gfirst = false \/ theta = 0 ->
  PrimalDual proxf proxg A alias x0 tau mu y0 z theta k gfirst = Ok (xk, yk, tr) ->
  PrimalDual proxf proxg A alias x0 tau mu y0 z theta (k + m) gfirst =
    (r <- PrimalDual proxf proxg A alias xk (steps_left k tau) (steps_left k mu) (Some yk) z theta m gfirst ;; Ok (fst (fst r), snd (fst r), tr ++ snd r)).
Proof. exact C86_primal_dual_l. Qed.
Print Assumptions C86_primal_dual.

(** with both factors gamma given (no backtracking), a run of PALM of k + m iterations is the
    run of k iterations followed by a run of m iterations started at the x and y it
    returned, with the same bilinear object, which then holds x and y *)
Theorem C86_palm : forall (E F : IPS) (H : Bilin E F) hx hy proxf proxg x0 y0 gf gg beta niterback k m xk yk tr,
  PALM H hx hy proxf proxg x0 y0 (Some gf) (Some gg) beta k niterback = Ok (xk, yk, tr) -> (1 <= k)%nat ->
  PALM H hx hy proxf proxg x0 y0 (Some gf) (Some gg) beta (k + m) niterback =
    (r <- PALM H xk yk proxf proxg xk yk (Some gf) (Some gg) beta m niterback ;; Ok (fst (fst r), snd (fst r), tr ++ snd r)).
Proof. exact C86_palm_l. Qed.
Print Assumptions C86_palm.

(** with a tolerance tol <= 1, a run of ProximalPoint that made N iterations (tr: the vectors
    handed to the callback) and was interrupted after iteration k + 1 < N - 1: the run
    started at the last vector the callback got, with the remaining iterations, returns the
    same x and hands the same remaining vectors to the callback *)
Theorem C86_tolerance : forall (E : IPS) (o : Op E) x0 tau n tol x tr k xk, tol <= 1 -> ProximalPoint o x0 tau n (Some tol) = Ok (x, tr) ->
  nth_error tr k = Some xk -> (k + 2 < List.length tr)%nat -> ProximalPoint o xk tau (n - S k) (Some tol) = Ok (x, skipn (S k) tr).
Proof. exact C86_tolerance_l. Qed.
Print Assumptions C86_tolerance.

(** PPXA cannot be resumed from what it returns (the per-operator vectors y are lost): on two
    operators, 2 iterations return 1/2, 1 iteration returns 1/4, and 1 iteration from 1/4
    returns 7/16 *)
Theorem C86_ppxa_refuted : exists tr tr' tr'', PPXA [shifted1; zero1] (Common (0:R_IPS)) (1/2) 1 None 2 Rabs (Some 0) = Ok (1/2, tr) /\ PPXA [shifted1; zero1] (Common (0:R_IPS)) (1/2) 1 None 1 Rabs (Some 0) = Ok (1/4, tr') /\
  PPXA [shifted1; zero1] (Common (1/4:R_IPS)) (1/2) 1 None 1 Rabs (Some 0) = Ok (7/16, tr'').
Proof. exact C86_ppxa_refuted_l. Qed.
Print Assumptions C86_ppxa_refuted.

(** nor can ConsensusADMM (the multipliers y restart at zero): 2 iterations return 1/2, 1
    iteration 1/4, and 1 iteration from there 7/16 *)
Theorem C86_consensus_refuted : exists tr tr' tr'', ConsensusADMM [shifted1; zero1] (0:R_IPS) 1 2 Rabs (Some 0) = Ok (1/2, tr) /\ ConsensusADMM [shifted1; zero1] (0:R_IPS) 1 1 Rabs (Some 0) = Ok (1/4, tr') /\
  ConsensusADMM [shifted1; zero1] (1/4:R_IPS) 1 1 Rabs (Some 0) = Ok (7/16, tr'').
Proof. exact C86_consensus_refuted_l. Qed.
Print Assumptions C86_consensus_refuted.

(** nor can ADMM from the x and z it returns (the multiplier u restarts at zero): 2 iterations
    return (1/2, 3/8), 1 iteration (1/2, 1/4), and 1 iteration from there (5/8, 5/16) *)
Theorem C86_admm_refuted : exists tr tr' tr'', ADMM shifted1 half1 (Some (0:R_IPS)) 1 2 None false = Ok (1/2, 3/8, tr) /\ ADMM shifted1 half1 (Some (0:R_IPS)) 1 1 None false = Ok (1/2, 1/4, tr') /\
  ADMM shifted1 half1 (Some (1/2:R_IPS)) 1 1 (Some (1/4)) false = Ok (5/8, 5/16, tr'').
Proof. exact C86_admm_refuted_l. Qed.
Print Assumptions C86_admm_refuted.

(** nor can LinearizedADMM: 2 iterations return (1/2, 3/8), 1 iteration (1/2, 1/4), and 1
    iteration from there (3/4, 3/8) *)
Theorem C86_linearized_admm_refuted : exists tr tr' tr'', LinearizedADMM shifted1 half1 (id_linop R_IPS) (Some (0:R_IPS)) 1 1 2 None = Ok (1/2, 3/8, tr) /\ LinearizedADMM shifted1 half1 (id_linop R_IPS) (Some (0:R_IPS)) 1 1 1 None = Ok (1/2, 1/4, tr') /\
  LinearizedADMM shifted1 half1 (id_linop R_IPS) (Some (1/2:R_IPS)) 1 1 1 (Some (1/4)) = Ok (3/4, 3/8, tr'').
Proof. exact C86_linearized_admm_refuted_l. Qed.
Print Assumptions C86_linearized_admm_refuted.

(** with gfirst=True and theta = 1 PrimalDual cannot be resumed from the x and y it returns (the
    extrapolated point restarts at x) *)
Theorem C86_primal_dual_refuted : exists tr tr' tr'', PrimalDual shifted1 half1 (id_linop R_IPS) None (0:R_IPS) (Scalar (1/2)) (Scalar (1/2)) None None 1 2 true = Ok (13/27, 2/9, tr) /\ 
  PrimalDual shifted1 half1 (id_linop R_IPS) None (0:R_IPS) (Scalar (1/2)) (Scalar (1/2)) None None 1 1 true = Ok (1/3, 0, tr') /\
  PrimalDual shifted1 half1 (id_linop R_IPS) None (1/3:R_IPS) (Scalar (1/2)) (Scalar (1/2)) (Some 0) None 1 1 true = Ok (14/27, 1/9, tr'').
Proof. exact C86_primal_dual_refuted_l. Qed.
Print Assumptions C86_primal_dual_refuted.

(** nor can TwIST (the last but one iterate is lost): 2 iterations return 2, 1 iteration 2, and
    1 iteration from there 0 *)
Theorem C86_twist_refuted : exists tr tr' tr'', TwIST zero1 (id_linop R_IPS) (1:R_IPS) (0:R_IPS) (Some 2) (Some 1) None 1 1 2 = Ok (2, tr) /\ TwIST zero1 (id_linop R_IPS) (1:R_IPS) (0:R_IPS) (Some 2) (Some 1) None 1 1 1 = Ok (2, tr') /\
  TwIST zero1 (id_linop R_IPS) (1:R_IPS) (2:R_IPS) (Some 2) (Some 1) None 1 1 1 = Ok (0, tr'').
Proof. exact C86_twist_refuted_l. Qed.
Print Assumptions C86_twist_refuted.

(** nor can the accelerated ProximalGradient (momentum and iteration counter are lost): 3
    iterations return 3/32, 1 iteration 1/2, and 2 iterations from there 1/8 *)
Theorem C86_acceleration_refuted : exists tr tr' tr'', ProximalGradient (quad1 1) zero1 (1:R_IPS) [1] (Some (1/2)) false 1 1 3 1 (Some "vandenberghe"%string) None = Ok (3/32, tr) /\ 
  ProximalGradient (quad1 1) zero1 (1:R_IPS) [1] (Some (1/2)) false 1 1 1 1 (Some "vandenberghe"%string) None = Ok (1/2, tr') /\
  ProximalGradient (quad1 1) zero1 (1/2:R_IPS) [1] (Some (1/2)) false 1 1 2 1 (Some "vandenberghe"%string) None = Ok (1/8, tr'').
Proof. exact C86_acceleration_refuted_l. Qed.
Print Assumptions C86_acceleration_refuted.

(** nor can GeneralizedProximalGradient with two operators (the auxiliary vectors z restart at
    x): 2 iterations return 2/3, 1 iteration 1/3, and 1 iteration from there 5/9 *)
Theorem C86_generalized_refuted : exists tr tr' tr'', GeneralizedProximalGradient [] [shifted1; zero1] (0:R_IPS) (Some 1) [1] None 1 2 None = Ok (2/3, tr) /\ GeneralizedProximalGradient [] [shifted1; zero1] (0:R_IPS) (Some 1) [1] None 1 1 None = Ok (1/3, tr') /\
   GeneralizedProximalGradient [] [shifted1; zero1] (1/3:R_IPS) (Some 1) [1] None 1 1 None = Ok (5/9, tr'').
Proof. exact C86_generalized_refuted_l. Qed.
Print Assumptions C86_generalized_refuted.

(** nor can ProximalGradient with backtracking from a step that is found (the reduced step is
    not returned): 2 iterations return 9/16, 1 iteration 3/4, and 1 iteration from there 0 *)
Theorem C86_backtracking_refuted : exists tr tr' tr'', ProximalGradient bent1 zero1 (2:R_IPS) [1] None true (1/2) 1 2 10 None None = Ok (9/16, tr) /\ 
  ProximalGradient bent1 zero1 (2:R_IPS) [1] None true (1/2) 1 1 10 None None = Ok (3/4, tr') /\
  ProximalGradient bent1 zero1 (3/4:R_IPS) [1] None true (1/2) 1 1 10 None None = Ok (0, tr'').
Proof. exact C86_backtracking_refuted_l. Qed.
Print Assumptions C86_backtracking_refuted.

(** DouglasRachfordSplitting on (x - 1)^2/2 and x^2/2 from 1 resumed after one iteration from
    the y = 1/2 it returned, not from its x = 1; and ProximalPoint with a tolerance
    interrupted after two of four iterations *)
Example C86_example : (exists tr tr' tr'', DouglasRachford shifted1 half1 (1:R_IPS) 1 1 1 false = Ok (1, 1/2, tr) /\ DouglasRachford shifted1 half1 (1/2:R_IPS) 1 1 1 false = Ok (3/4, 1/4, tr') /\
    DouglasRachford shifted1 half1 (1:R_IPS) 1 1 2 false = Ok (3/4, 1/4, tr'')) /\
  ProximalPoint half1 (1:R_IPS) 1 4 (Some 0) = Ok (1/16, [1/2; 1/4; 1/8; 1/16]) /\ ProximalPoint half1 (1/4:R_IPS) 1 2 (Some 0) = Ok (1/16, [1/8; 1/16]).
Proof. exact C86_example_l. Qed.
