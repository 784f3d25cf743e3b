(** * The solvers applied to operator expressions *)
From Coq Require Import String Psatz.
From Verif Require Import Base Space Spec Cplx ConvexFacts Smooth VSum M_ProxOp SpecOps P_ProxOp M_Norms P_Norms M_Loop LoopFacts LoopFacts2 SeqFacts M_PG M_Split M_PD M_Multi SplitMath P_PG P_PG2 P_PG3 P_Split P_Split2 P_Split3 P_PD P_PD2 P_Multi P_Multi2 P_Multi3 S_Seq Compact Fejer P_Iter P_Iter2 P_Iter3 HahnBanach P_Qual M_Expr P_Expr.
Open Scope result_scope.
Open Scope R_scope.

(*! C82_splitting : DouglasRachfordSplitting and ADMM on the objects of any two admissible expressions whose functions satisfy Slater's
   condition and whose sum has a minimiser, tau > 0, 0 < eta < 2, any start, either order, finite dimension: the returned vectors
   converge to a minimiser of the sum of the two functions *)
Lemma C82_splitting_l : forall fuel (E : IPS) (e1 e2 : expr E) x0 tau eta (gfirst : bool), bw E -> hb E -> admissible e1 -> admissible e2 -> 0 < tau -> 0 < eta < 2 ->
  qualified2 (denote e1) (denote e2) -> (exists m, is_min (eadd (denote e1) (denote e2)) m) ->
  exists o1 o2, build fuel e1 = Ok o1 /\ build fuel e2 = Ok o2 /\
  (exists xs ys l, (forall n, exists tr, DouglasRachford o1 o2 x0 tau eta (S n) gfirst = Ok (xs n, ys n, tr)) /\ is_min (eadd (denote e1) (denote e2)) l /\ vcv xs l) /\
  (exists xs zs l, (forall n, exists tr, ADMM o1 o2 (Some x0) tau n None gfirst = Ok (xs n, zs n, tr)) /\ is_min (eadd (denote e1) (denote e2)) l /\ vcv xs l /\ vcv zs l).
Proof.
  intros fuel E e1 e2 x0 tau eta gfirst HB HE A1 A2 Ht He Hq Hm. destruct (expr_good fuel E e1 A1) as (o1 & B1 & C1 & I1 & _). destruct (expr_good fuel E e2 A2) as (o2 & B2 & C2 & I2 & _).
  exists o1, o2. split; [exact B1|]. split; [exact B2|]. split.
  - destruct (C81_douglas_rachford_l E o1 o2 (denote e1) (denote e2) x0 tau eta gfirst HB HE I1 I2 C1 C2 Ht He Hq Hm) as (xs & ys & l & u & H1 & _ & H2 & H3 & _). exists xs, ys, l. auto.
  - destruct (C81_admm_l E o1 o2 (denote e1) (denote e2) (Some x0) None x0 x0 tau gfirst HB HE I1 I2 C1 C2 Ht ltac:(reflexivity) Hq Hm) as (xs & zs & l & H). exists xs, zs, l. exact H.
Qed.

(*! C82_composite : LinearizedADMM and PrimalDual (theta = 1, constant steps) on the objects of any two admissible expressions and any linear
   operator A with tau mu |A a|^2 <= kappa |a|^2 (resp. mu |A a|^2 <= kappa tau |a|^2) for some kappa <= 1, Slater's condition, a minimiser of
   f + g(A .) exists, finite dimension: the returned x converges to a minimiser *)
Lemma C82_composite_l : forall fuel (E F : IPS) (e1 : expr E) (e2 : expr F) (A : linop E F) x0 tau mu kappa gfirst, bw E -> bw F -> hb F -> admissible e1 -> admissible e2 -> 0 < tau -> 0 < mu -> 0 <= kappa <= 1 ->
  qualified (denote e1) (denote e2) A -> (exists m, is_min (eadd (denote e1) (epre (denote e2) (lapp A))) m) ->
  exists o1 o2, build fuel e1 = Ok o1 /\ build fuel e2 = Ok o2 /\
  ((forall a, mu * norm2 (lapp A a) <= kappa * tau * norm2 a) -> exists xs zs l, (forall n, exists tr, LinearizedADMM o1 o2 A (Some x0) tau mu n None = Ok (xs n, zs n, tr)) /\
     is_min (eadd (denote e1) (epre (denote e2) (lapp A))) l /\ vcv xs l /\ vcv zs (lapp A l)) /\
  ((forall a, tau * mu * norm2 (lapp A a) <= kappa * norm2 a) -> exists xs ys l yl, (forall n, exists tr, PrimalDual o1 o2 A None x0 (Scalar tau) (Scalar mu) None None 1 n gfirst = Ok (xs n, ys n, tr)) /\
     is_min (eadd (denote e1) (epre (denote e2) (lapp A))) l /\ vcv xs l /\ vcv ys yl).
Proof.
  intros fuel E F e1 e2 A x0 tau mu kappa gfirst BE BF HF A1 A2 Ht Hmu Hk Hq Hm. destruct (expr_good fuel E e1 A1) as (o1 & B1 & C1 & I1 & _). destruct (expr_good fuel F e2 A2) as (o2 & B2 & C2 & I2 & D2).
  exists o1, o2. split; [exact B1|]. split; [exact B2|]. split; intro HA.
  - apply (C81_linearized_admm_l E F o1 o2 (denote e1) (denote e2) A tau mu kappa (Some x0) None x0 (lapp A x0)); auto.
  - assert (Z : forall x, is_min (eadd (elin (denote e1) (zvec None)) (epre (denote e2) (lapp A))) x <-> is_min (eadd (denote e1) (epre (denote e2) (lapp A))) x).
    { intro x. split; intros [Dx M]; (split; [exact Dx|]); intros y Hy; specialize (M y Hy); cbn [eval eadd elin zvec] in *; rewrite ?inner_zero_l in *; lra. }
    destruct (C81_primal_dual_l E F A o1 o2 (denote e1) (denote e2) (conj (denote e2)) None x0 tau mu kappa None None gfirst BE BF HF I1 D2 C1 C2 (conj_ok _ (prox_ne _ _ I2))) as (xs & ys & xl & yl & H1 & H2 & H3 & H4); auto.
    + intro u. destruct (I2 u 1 ltac:(lra)) as (p & _ & Hp). exists p. exact Hp.
    + destruct Hm as [m Hm]. exists m. apply Z. exact Hm.
    + exists xs, ys, xl, yl. split; [exact H1|]. split; [apply Z; exact H2|]. split; [exact H3|exact H4].
Qed.

(*! C82_proximal_gradient : ProximalGradient (no backtracking, no acceleration, 0 < eta < 2 - tau L / 2) on the objects of any admissible
   expression with an L-Lipschitz gradient and any admissible expression: the returned vectors converge to a minimiser of
   f + eps g as soon as one exists, in finite dimension *)
Lemma C82_proximal_gradient_l : forall fuel (E : IPS) (e1 e2 : expr E) L eps x0 tau beta eta niterback accel, bw E -> admissible e1 -> numeric e1 -> smooth e1 L -> 0 < L -> admissible e2 -> 0 < eps -> 0 < tau ->
  0 < eta < 2 - tau * L / 2 -> unaccelerated accel eta -> (exists m, is_min (eadd (denote e1) (escal eps (denote e2))) m) ->
  exists o1 o2 xs l, build fuel e1 = Ok o1 /\ build fuel e2 = Ok o2 /\ xs 0%nat = x0 /\
    (forall n, ProximalGradient o1 o2 x0 [eps] (Some tau) false beta eta (S n) niterback accel None = Ok (xs (S n), map xs (seq 1 (S n)))) /\
    is_min (eadd (denote e1) (escal eps (denote e2))) l /\ vcv xs l.
Proof.
  intros fuel E e1 e2 L eps x0 tau beta eta niterback accel HB A1 N1 S1 HL A2 He Ht Heta Hacc Hm.
  destruct (expr_good fuel E e1 A1) as (o1 & B1 & C1 & I1 & _). destruct (expr_good fuel E e2 A2) as (o2 & B2 & C2 & I2 & _).
  destruct (expr_smooth fuel E e1 L HL A1 S1 o1 B1) as (dh & D & Sm & G). pose proof (expr_call fuel E e1 A1 N1 o1 B1) as Hcall.
  assert (Z : forall x, is_min (eadd (etot (eval (denote e1))) (escal eps (denote e2))) x <-> is_min (eadd (denote e1) (escal eps (denote e2))) x).
  { intro x. split; intros [Dx M]; (split; [split; [first [exact I|apply D]|apply Dx]|]); intros y [Y1 Y2]; (apply M; split; [first [exact I|apply D]|exact Y2]). }
  destruct (C75_proximal_gradient_l E o1 o2 (eval (denote e1)) dh L (denote e2) eps x0 tau beta eta niterback accel HB) as (xs & l & H1 & H2 & H3 & H4); auto.
  - split; [intros x _; apply Hcall, D|]. split; [exact G|]. split; [|split; [exact HL|exact Sm]]. apply (Sep.convex_ext (denote e1)); [intro y; split; [intros _; exact I|intros _; apply D]|reflexivity|exact C1].
  - destruct Hm as [m Hm]. exists m. apply Z. exact Hm.
  - exists o1, o2, xs, l. split; [exact B1|]. split; [exact B2|]. split; [exact H1|]. split; [exact H2|]. split; [apply Z; exact H3|exact H4].
Qed.

(*! C82_ppxa : PPXA and ConsensusADMM on the objects of any m >= 1 admissible expressions with a common point interior to all domains except
   one and a minimiser of the sum, finite dimension: the iterates converge to a minimiser of the sum of the functions *)
Lemma C82_ppxa_l : forall fuel (E : IPS) m (e : nat -> expr E) x0 tau eta, bw E -> hb E -> (0 < m)%nat -> (forall i, (i < m)%nat -> admissible (e i)) -> 0 < tau -> 0 < eta < 2 ->
  qualified_sum m (fun i => denote (e i)) -> (exists xo, is_min (esum m (fun i => denote (e i))) xo) ->
  exists os, List.length os = m /\ (forall i o, nth_error os i = Some o -> build fuel (e i) = Ok o) /\
  (exists xs xl, (forall niter amax t, exists k, PPXA os (Common x0) tau eta None niter amax (Some t) = Ok (xs k, map xs (seq 1 k)) /\ stops_when (fun j => amax (xs j [-] xs (j - 1)%nat) < t) niter k) /\
     is_min (esum m (fun i => denote (e i))) xl /\ vcv xs xl) /\
  (exists xs xl, (forall niter amax t, exists k, ConsensusADMM os x0 tau niter amax (Some t) = Ok (xs k, map xs (seq 1 k)) /\ stops_when (fun j => amax (xs j [-] xs (j - 1)%nat) < t) niter k) /\
     is_min (esum m (fun i => denote (e i))) xl /\ vcv xs xl).
Proof.
  intros fuel E m e x0 tau eta HB HE Hm Ha Ht He Hq Hmin.
  assert (Hos : exists os, List.length os = m /\ forall i o, nth_error os i = Some o -> build fuel (e i) = Ok o).
  { clear Hq Hmin Hm. induction m as [|m IH]; [exists []; split; [reflexivity|intros [|i] o H; discriminate]|].
    destruct IH as (os & L & H); [intros i Hi; apply Ha; lia|]. destruct (expr_good fuel E (e m) (Ha m ltac:(lia))) as (o & Ho & _). exists (os ++ [o]). split; [rewrite app_length; cbn [List.length]; lia|].
    intros i o' Hn. destruct (Nat.lt_ge_cases i (List.length os)) as [Hi|Hi].
    - rewrite nth_error_app1 in Hn by exact Hi. apply H. exact Hn.
    - rewrite nth_error_app2 in Hn by exact Hi. destruct (i - List.length os)%nat as [|j] eqn:Ej; [|destruct j; discriminate]. injection Hn as <-. replace i with m by lia. exact Ho. }
  destruct Hos as (os & L & H). exists os. split; [exact L|]. split; [exact H|].
  assert (G : forall i o, nth_error os i = Some o -> good o (denote (e i))).
  { intros i o Hn. assert (Hi : (i < m)%nat) by (rewrite <- L; apply nth_error_Some; congruence). destruct (expr_good fuel E (e i) (Ha i Hi)) as (o' & Ho' & Hg). rewrite (H i o Hn) in Ho'. injection Ho' as ->. exact Hg. }
  assert (Io : impl_all os (fun i => denote (e i))) by (intros i o Hn; apply (G i o Hn)).
  assert (Cf : forall i, (i < List.length os)%nat -> convex (denote (e i))). { intros i Hi. destruct (expr_good fuel E (e i) (Ha i ltac:(lia))) as (o' & _ & Hc & _). exact Hc. }
  subst m. split.
  - apply (C81_ppxa_l E os (fun i => denote (e i)) (Common x0) tau eta None HB HE Io Cf Hm Ht He); [exact I|exact I|exact Hq|exact Hmin].
  - apply (C81_consensus_admm_l E os (fun i => denote (e i)) x0 tau HB HE Io Cf Hm Ht Hq Hmin).
Qed.

(*!ex C82_example : on the real line, 2 * (Euclidean(1).H.precomposition(3, 1) + 5): admissible, its function is 2 (5 x + indicator of |3x+1| <= 1),
   and prox(1, 1) of the object returns -2/3, the projection of 1 - 10 on [-2/3, 0] *)
Lemma C82_example_l : let e := XMul R_IPS 2 (XAdd R_IPS (XPre R_IPS (XH R_IPS (XEuclidean R_IPS 1)) 3 1) 5) in
  admissible e /\ bw R_IPS /\ hb R_IPS /\ (forall fuel, exists o, build fuel e = Ok o /\ o_prox o 1 1 = Ok (- 2 / 3)) /\
  (let q := XMul R_IPS 2 (XPre R_IPS (XQuadratic R_IPS (fun _ y => y) (fun _ y _ => y) None (Some (4 : R_IPS)) 1 true true (fun _ _ => None)) 3 1) in admissible q /\ numeric q /\ smooth q (2 * (3 ^ 2 * 1))) /\
  membership (XPre R_IPS (XHalfSpace R_IPS 1 1) 3 1).
Proof.
  intro e. split; [cbn; repeat split; lra|]. split; [exact bw_R|]. split; [exact hb_R|]. split; [|split; [|exact I]].
  - intro fuel. eexists. split; [reflexivity|]. cbn [o_prox obj d_prox post_body sum_body pre_body adjoint_body euclid_body b_prox b_proxdual op_H d_proxdual o_proxdual].
    rewrite check_tau_pos by lra. rewrite check_tau_pos by lra. rewrite check_tau_pos by lra. rewrite check_tau_pos by lra. rewrite check_tau_pos by lra.
    assert (V : ((3 [*] ((1 : R_IPS) [-] (2 * 1) [*] (5 : R_IPS)) [+] (1 : R_IPS)) : R_IPS) = -26) by (unfold vsub; cbn; ring). rewrite V.
    assert (N : norm ((-26) : R_IPS) = 26). { unfold norm. change (sqrt (-26 * -26) = 26). replace (-26 * -26) with (26 * 26) by ring. apply sqrt_square. lra. }
    rewrite N, Rmax_left by lra. unfold pydiv. destruct (Reqb_spec 26 0) as [[Hx ->]|[_ ->]]; [lra|]. cbn [bind]. f_equal. unfold vsub. cbn. field.
  - cbn. split; [split; [lra|split; [lra|split; [intros; discriminate|]]]|split; [exact I|]].
    + intros tau y Ht. split; [|intros _]; ring.
    + exists (3 ^ 2 * 1). split; [ring|]. exists 1. split; [ring|lra].
Qed.
