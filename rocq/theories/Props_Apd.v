(** Property theorems for Apd: statements only; every proof is [exact] a lemma of P_Apd.v.
    Generated from the tagged lemmas of that file. *)
From Coq Require Import String Psatz.
From Verif Require Import Base Space Spec Cplx ConvexFacts Smooth VSum M_ProxOp SpecOps P_ProxOp M_Norms P_Norms M_Loop LoopFacts SeqFacts M_PG M_Split M_PD SplitMath P_PD P_PD3 S_Split2 S_PD2 P_PD2 S_Seq Compact Fejer IterMath IterMath2 ApdMath DykMath S_Qual S_Exist HahnBanach P_Qual ExistMath P_Exist.
From Verif Require Import P_Apd.
Open Scope result_scope.
Open Scope R_scope.


(** f, g convex, gs the conjugate of g, 0 < alpha < 1, 0 < eta < 1, delta > 0, any s, tau, mu >
    0 with tau mu |A a|^2 <= kappa |a|^2 for some kappa < 1, z None or A^T z well-shaped and
    rmatvec fresh, finite dimension, and the problem has a saddle point. There are sequences
    of vectors and of steps, the same for all niter and tol, such that each run returns the
    first of them up to the k-th, with k = niter unless a residual fell to tol, for the
    first time; the vectors converge to a minimiser of f + <z,.> + g(A .), the steps tau, mu
    to positive limits and the dual residual to 0. In particular with a negative tol (no
    early stop) the returned x converges to a solution as niter grows *)
Theorem C58_converges : forall (E F : IPS) (A : linop E F) proxf proxg f g gs alias x0 tau mu kappa alpha eta s delta z rz, bw E -> bw F ->
  impl_prox proxf f -> impl_proxdual proxg gs -> convex f -> convex g -> is_conj g gs -> (forall u, exists p, is_prox g 1 u p) ->
  alias = None \/ z = None -> (forall v, z = Some v -> rz v <> None) ->
  0 < tau -> 0 < mu -> 0 <= kappa < 1 -> (forall a, tau * mu * norm2 (lapp A a) <= kappa * norm2 a) -> 0 < alpha < 1 -> 0 < eta < 1 -> 0 < delta ->
  (exists xo yo, saddle A f gs (zvec z) xo yo) ->
  exists xs ts ms als ps ds xl tl ml, xs 0%nat = x0 /\
    (forall niter tol, exists k, (k <= niter)%nat /\
       AdaptivePrimalDual proxf proxg A alias x0 tau mu alpha eta s delta z rz niter tol = Ok (xs k, (map ts (seq 0 (S k)), map ms (seq 0 (S k)), map als (seq 0 (S k))), map xs (seq 1 k)) /\
       (k = niter \/ (1 <= k)%nat /\ (ps k <= tol \/ ds k <= tol)) /\ (forall j, (1 <= j < k)%nat -> tol < ps j /\ tol < ds j)) /\
    (forall k, (1 <= k)%nat -> 0 <= ps k /\ 0 <= ds k) /\
    is_min (eadd (elin f (zvec z)) (epre g (lapp A))) xl /\ vcv xs xl /\ Un_cv ts tl /\ Un_cv ms ml /\ 0 < tl /\ 0 < ml /\ Un_cv ds 0.
Proof. exact C58_converges_l. Qed.
Print Assumptions C58_converges.

(** the same for AdaptivePrimalDual without early stop, when a minimiser exists and Slater's
    condition holds (no saddle point assumed) *)
Theorem C81_adaptive : forall (E F : IPS) (A : linop E F) proxf proxg f g gs alias x0 tau mu kappa alpha eta s delta z rz tol, bw E -> bw F -> hb F ->
  impl_prox proxf f -> impl_proxdual proxg gs -> convex f -> convex g -> is_conj g gs -> (forall u, exists p, is_prox g 1 u p) ->
  alias = None \/ z = None -> (forall v, z = Some v -> rz v <> None) ->
  0 < tau -> 0 < mu -> 0 <= kappa < 1 -> (forall a, tau * mu * norm2 (lapp A a) <= kappa * norm2 a) -> 0 < alpha < 1 -> 0 < eta < 1 -> 0 < delta -> tol < 0 ->
  qualified f g A -> (exists m, is_min (eadd (elin f (zvec z)) (epre g (lapp A))) m) ->
  exists xs xl, (forall n, exists h tr, AdaptivePrimalDual proxf proxg A alias x0 tau mu alpha eta s delta z rz n tol = Ok (xs n, h, tr)) /\
    is_min (eadd (elin f (zvec z)) (epre g (lapp A))) xl /\ vcv xs xl.
Proof. exact C81_adaptive_l. Qed.
Print Assumptions C81_adaptive.

(** the same for AdaptivePrimalDual without early stop (tol < 0, adaptivity 0 < alpha < 1, 0 <
    eta < 1): f, g closed and the sets {f + <z,.> + g(A .) <= c} bounded (no minimiser
    assumed) *)
Theorem C85_adaptive : forall (E F : IPS) (A : linop E F) proxf proxg f g gs alias x0 tau mu kappa alpha eta s delta z rz tol, bw E -> bw F -> hb F -> complete E -> described E ->
  impl_prox proxf f -> impl_proxdual proxg gs -> convex f -> convex g -> closed f -> closed g -> is_conj g gs -> (forall u, exists p, is_prox g 1 u p) ->
  alias = None \/ z = None -> (forall v, z = Some v -> rz v <> None) ->
  0 < tau -> 0 < mu -> 0 <= kappa < 1 -> (forall a, tau * mu * norm2 (lapp A a) <= kappa * norm2 a) -> 0 < alpha < 1 -> 0 < eta < 1 -> 0 < delta -> tol < 0 ->
  qualified f g A -> level_bounded (eadd (elin f (zvec z)) (epre g (lapp A))) ->
  exists xs xl, (forall n, exists h tr, AdaptivePrimalDual proxf proxg A alias x0 tau mu alpha eta s delta z rz n tol = Ok (xs n, h, tr)) /\
    is_min (eadd (elin f (zvec z)) (epre g (lapp A))) xl /\ vcv xs xl.
Proof. exact C85_adaptive_l. Qed.
Print Assumptions C85_adaptive.

(** on the problem of C58_stops_early_refuted (f = (x-1)^2/2, g = x^2/2, A = identity, x0 = 1/4,
    tau = 1/4, mu = 3, where the default tol stops after one iteration at 2/5), tol = -1 and
    the default alpha, eta, s, delta give vectors that converge to the minimiser 1/2 *)
Example C58_converges_example : exists xs, (forall n, exists h tr, AdaptivePrimalDual shifted1 half1 (id_linop R_IPS) None (1/4 : R_IPS) (1/4) 3 (1/2) (95/100) 1 (3/2) None (fun v => Some v) n (-1) = Ok (xs n, h, tr)) /\
  vcv xs (1/2 : R_IPS).
Proof. exact C58_converges_example_l. Qed.
