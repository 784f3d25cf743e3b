(** Property theorems for Exist2: statements only; every proof is [exact] a lemma of P_Exist2.v.
    Generated from the tagged lemmas of that file. *)
From Coq Require Import String Psatz Classical.
From Verif Require Import Base Space Spec Cplx ConvexFacts Smooth VSum M_ProxOp SpecOps P_ProxOp M_Norms P_Norms M_L1 M_L2 P_L1 P_L2 P_L21 M_Loop LoopFacts LoopFacts2 SeqFacts M_PG M_Split M_PD M_Multi SplitMath P_PG P_PG2 P_PG3 P_Split P_Split2 P_Split3 P_PD P_PD2 P_Multi P_Multi2 P_Multi3 S_Seq Compact Fejer P_Iter P_Iter2 P_Iter3 HahnBanach P_Qual M_Expr P_Expr P_Expr2 ExistMath P_Exist.
From Verif Require Import S_Exist2.
From Verif Require Import P_Exist2.
Open Scope result_scope.
Open Scope R_scope.


(** every admissible operator expression stands for a convex closed function that is finite
    somewhere and above an affine function; curved expressions are strongly convex with the
    given modulus *)
Theorem C85_expressions : forall (E : IPS) (e : expr E), admissible e -> closed_others e ->
  convex (denote e) /\ closed (denote e) /\ (exists x, edom (denote e) x) /\ minorised (denote e) /\ forall s, curved e s -> strongly_convex s (denote e).
Proof. exact C85_expressions_l. Qed.
Print Assumptions C85_expressions.

(** any admissible expressions, Slater's condition and bounded level sets (no minimiser
    assumed), finite dimension: DouglasRachfordSplitting and ADMM on f + g; LinearizedADMM
    and PrimalDual on f + g(A .); PPXA and ConsensusADMM on f_1 + ... + f_m: the returned
    vectors converge to a minimiser *)
Theorem C85_expr_solvers :
  (forall fuel (E : IPS) (e1 e2 : expr E) x0 tau eta (gfirst : bool), bw E -> hb E -> complete E -> described E -> admissible e1 -> admissible e2 -> closed_others e1 -> closed_others e2 -> 0 < tau -> 0 < eta < 2 ->
    qualified2 (denote e1) (denote e2) -> level_bounded (eadd (denote e1) (denote e2)) ->
    exists o1 o2, build fuel e1 = Ok o1 /\ build fuel e2 = Ok o2 /\
    (exists xs ys l, (forall n, exists tr, DouglasRachford o1 o2 x0 tau eta (S n) gfirst = Ok (xs n, ys n, tr)) /\ is_min (eadd (denote e1) (denote e2)) l /\ vcv xs l) /\
    (exists xs zs l, (forall n, exists tr, ADMM o1 o2 (Some x0) tau n None gfirst = Ok (xs n, zs n, tr)) /\ is_min (eadd (denote e1) (denote e2)) l /\ vcv xs l /\ vcv zs l)) /\
  (forall fuel (E F : IPS) (e1 : expr E) (e2 : expr F) (A : linop E F) C x0 tau mu kappa gfirst, bw E -> bw F -> hb F -> complete E -> described E -> admissible e1 -> admissible e2 -> closed_others e1 -> closed_others e2 ->
    (forall v, norm (A v) <= C * norm v) -> 0 < tau -> 0 < mu -> 0 <= kappa <= 1 -> qualified (denote e1) (denote e2) A -> level_bounded (eadd (denote e1) (epre (denote e2) (lapp A))) ->
    exists o1 o2, build fuel e1 = Ok o1 /\ build fuel e2 = Ok o2 /\
    ((forall a, mu * norm2 (lapp A a) <= kappa * tau * norm2 a) -> exists xs zs l, (forall n, exists tr, LinearizedADMM o1 o2 A (Some x0) tau mu n None = Ok (xs n, zs n, tr)) /\
       is_min (eadd (denote e1) (epre (denote e2) (lapp A))) l /\ vcv xs l /\ vcv zs (lapp A l)) /\
    ((forall a, tau * mu * norm2 (lapp A a) <= kappa * norm2 a) -> exists xs ys l yl, (forall n, exists tr, PrimalDual o1 o2 A None x0 (Scalar tau) (Scalar mu) None None 1 n gfirst = Ok (xs n, ys n, tr)) /\
       is_min (eadd (denote e1) (epre (denote e2) (lapp A))) l /\ vcv xs l /\ vcv ys yl)) /\
  (forall fuel (E : IPS) m (e : nat -> expr E) x0 tau eta, bw E -> hb E -> complete E -> described E -> (0 < m)%nat -> (forall i, (i < m)%nat -> admissible (e i) /\ closed_others (e i)) -> 0 < tau -> 0 < eta < 2 ->
    qualified_sum m (fun i => denote (e i)) -> level_bounded (esum m (fun i => denote (e i))) ->
    exists os, List.length os = m /\ (forall i o, nth_error os i = Some o -> build fuel (e i) = Ok o) /\
    (exists xs xl, (forall niter amax t, exists k, PPXA os (Common x0) tau eta None niter amax (Some t) = Ok (xs k, map xs (seq 1 k)) /\ stops_when (fun j => amax (xs j [-] xs (j - 1)%nat) < t) niter k) /\
       is_min (esum m (fun i => denote (e i))) xl /\ vcv xs xl) /\
    (exists xs xl, (forall niter amax t, exists k, ConsensusADMM os x0 tau niter amax (Some t) = Ok (xs k, map xs (seq 1 k)) /\ stops_when (fun j => amax (xs j [-] xs (j - 1)%nat) < t) niter k) /\
       is_min (esum m (fun i => denote (e i))) xl /\ vcv xs xl)).
Proof. exact C85_expr_solvers_l. Qed.
Print Assumptions C85_expr_solvers.
