(** Property theorems for Expr2: statements only; every proof is [exact] a lemma of P_Expr2.v.
    Generated from the tagged lemmas of that file. *)
From Coq Require Import String Psatz.
From Verif Require Import Base Space Spec Cplx ConvexFacts Smooth VSum M_ProxOp SpecOps P_ProxOp M_Norms P_Norms M_Loop LoopFacts LoopFacts2 SeqFacts M_PG M_Split M_PD M_Multi SplitMath P_PG P_PG2 P_PG3 P_Split P_Split2 P_Split3 P_PD P_PD2 P_Multi P_Multi2 P_Multi3 S_Seq Compact Fejer P_Iter P_Iter2 P_Iter3 HahnBanach P_Qual M_Expr P_Expr.
From Verif Require Import P_Expr2.
Open Scope result_scope.
Open Scope R_scope.


(** DouglasRachfordSplitting and ADMM on the objects of any two admissible expressions whose
    functions satisfy Slater's condition and whose sum has a minimiser, tau > 0, 0 < eta <
    2, any start, either order, finite dimension: the returned vectors converge to a
    minimiser of the sum of the two functions *)
Theorem C82_splitting : forall fuel (E : IPS) (e1 e2 : expr E) x0 tau eta (gfirst : bool), bw E -> hb E -> admissible e1 -> admissible e2 -> 0 < tau -> 0 < eta < 2 ->
  qualified2 (denote e1) (denote e2) -> (exists m, is_min (eadd (denote e1) (denote e2)) m) ->
  exists o1 o2, build fuel e1 = Ok o1 /\ build fuel e2 = Ok o2 /\
  (exists xs ys l, (forall n, exists tr, DouglasRachford o1 o2 x0 tau eta (S n) gfirst = Ok (xs n, ys n, tr)) /\ is_min (eadd (denote e1) (denote e2)) l /\ vcv xs l) /\
  (exists xs zs l, (forall n, exists tr, ADMM o1 o2 (Some x0) tau n None gfirst = Ok (xs n, zs n, tr)) /\ is_min (eadd (denote e1) (denote e2)) l /\ vcv xs l /\ vcv zs l).
Proof. exact C82_splitting_l. Qed.
Print Assumptions C82_splitting.

(** LinearizedADMM and PrimalDual (theta = 1, constant steps) on the objects of any two
    admissible expressions and any linear operator A with tau mu |A a|^2 <= kappa |a|^2
    (resp. mu |A a|^2 <= kappa tau |a|^2) for some kappa <= 1, Slater's condition, a
    minimiser of f + g(A .) exists, finite dimension: the returned x converges to a
    minimiser *)
Theorem C82_composite : forall fuel (E F : IPS) (e1 : expr E) (e2 : expr F) (A : linop E F) x0 tau mu kappa gfirst, bw E -> bw F -> hb F -> admissible e1 -> admissible e2 -> 0 < tau -> 0 < mu -> 0 <= kappa <= 1 ->
  qualified (denote e1) (denote e2) A -> (exists m, is_min (eadd (denote e1) (epre (denote e2) (lapp A))) m) ->
  exists o1 o2, build fuel e1 = Ok o1 /\ build fuel e2 = Ok o2 /\
  ((forall a, mu * norm2 (lapp A a) <= kappa * tau * norm2 a) -> exists xs zs l, (forall n, exists tr, LinearizedADMM o1 o2 A (Some x0) tau mu n None = Ok (xs n, zs n, tr)) /\
     is_min (eadd (denote e1) (epre (denote e2) (lapp A))) l /\ vcv xs l /\ vcv zs (lapp A l)) /\
  ((forall a, tau * mu * norm2 (lapp A a) <= kappa * norm2 a) -> exists xs ys l yl, (forall n, exists tr, PrimalDual o1 o2 A None x0 (Scalar tau) (Scalar mu) None None 1 n gfirst = Ok (xs n, ys n, tr)) /\
     is_min (eadd (denote e1) (epre (denote e2) (lapp A))) l /\ vcv xs l /\ vcv ys yl).
Proof. exact C82_composite_l. Qed.
Print Assumptions C82_composite.

(** ProximalGradient (no backtracking, no acceleration, 0 < eta < 2 - tau L / 2) on the objects
    of any admissible expression with an L-Lipschitz gradient and any admissible expression:
    the returned vectors converge to a minimiser of f + eps g as soon as one exists, in
    finite dimension *)
Theorem C82_proximal_gradient : forall fuel (E : IPS) (e1 e2 : expr E) L eps x0 tau beta eta niterback accel, bw E -> admissible e1 -> numeric e1 -> smooth e1 L -> 0 < L -> admissible e2 -> 0 < eps -> 0 < tau ->
  0 < eta < 2 - tau * L / 2 -> unaccelerated accel eta -> (exists m, is_min (eadd (denote e1) (escal eps (denote e2))) m) ->
  exists o1 o2 xs l, build fuel e1 = Ok o1 /\ build fuel e2 = Ok o2 /\ xs 0%nat = x0 /\
    (forall n, ProximalGradient o1 o2 x0 [eps] (Some tau) false beta eta (S n) niterback accel None = Ok (xs (S n), map xs (seq 1 (S n)))) /\
    is_min (eadd (denote e1) (escal eps (denote e2))) l /\ vcv xs l.
Proof. exact C82_proximal_gradient_l. Qed.
Print Assumptions C82_proximal_gradient.

(** PPXA and ConsensusADMM on the objects of any m >= 1 admissible expressions with a common
    point interior to all domains except one and a minimiser of the sum, finite dimension:
    the iterates converge to a minimiser of the sum of the functions *)
Theorem C82_ppxa : forall fuel (E : IPS) m (e : nat -> expr E) x0 tau eta, bw E -> hb E -> (0 < m)%nat -> (forall i, (i < m)%nat -> admissible (e i)) -> 0 < tau -> 0 < eta < 2 ->
  qualified_sum m (fun i => denote (e i)) -> (exists xo, is_min (esum m (fun i => denote (e i))) xo) ->
  exists os, List.length os = m /\ (forall i o, nth_error os i = Some o -> build fuel (e i) = Ok o) /\
  (exists xs xl, (forall niter amax t, exists k, PPXA os (Common x0) tau eta None niter amax (Some t) = Ok (xs k, map xs (seq 1 k)) /\ stops_when (fun j => amax (xs j [-] xs (j - 1)%nat) < t) niter k) /\
     is_min (esum m (fun i => denote (e i))) xl /\ vcv xs xl) /\
  (exists xs xl, (forall niter amax t, exists k, ConsensusADMM os x0 tau niter amax (Some t) = Ok (xs k, map xs (seq 1 k)) /\ stops_when (fun j => amax (xs j [-] xs (j - 1)%nat) < t) niter k) /\
     is_min (esum m (fun i => denote (e i))) xl /\ vcv xs xl).
Proof. exact C82_ppxa_l. Qed.
Print Assumptions C82_ppxa.

(** on the real line, 2 * (Euclidean(1).H.precomposition(3, 1) + 5): admissible, its function is
    2 (5 x + indicator of |3x+1| <= 1), and prox(1, 1) of the object returns -2/3, the
    projection of 1 - 10 on [-2/3, 0] *)
Example C82_example : let e := XMul R_IPS 2 (XAdd R_IPS (XPre R_IPS (XH R_IPS (XEuclidean R_IPS 1)) 3 1) 5) in
  admissible e /\ bw R_IPS /\ hb R_IPS /\ (forall fuel, exists o, build fuel e = Ok o /\ o_prox o 1 1 = Ok (- 2 / 3)) /\
  (let q := XMul R_IPS 2 (XPre R_IPS (XQuadratic R_IPS (fun _ y => y) (fun _ y _ => y) None (Some (4 : R_IPS)) 1 true true (fun _ _ => None)) 3 1) in admissible q /\ numeric q /\ smooth q (2 * (3 ^ 2 * 1))) /\
  membership (XPre R_IPS (XHalfSpace R_IPS 1 1) 3 1).
Proof. exact C82_example_l. Qed.
