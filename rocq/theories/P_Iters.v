(** * Runs with a tolerance end: bounds on the number of iterations (M_Multi.v, M_Breg.v, M_PD.v) *)
From Coq Require Import String Psatz.
From Verif Require Import Base Space Spec VSum ConvexFacts Smooth M_ProxOp SpecOps P_ProxOp M_Norms P_Norms M_Loop LoopFacts LoopFacts2 SeqFacts M_PG M_Split M_Multi M_Breg M_PD SplitMath P_PG2 P_PG3 P_Split P_Split2 P_Multi P_Multi2 S_Seq Compact Fejer S_Breg P_Breg IterMath P_Iter P_Iter3 S_Split2 S_PD2 S_Qual S_Exist P_PD P_PD2 P_Apd P_Incons P_Limit.
Open Scope result_scope.
Open Scope R_scope.

Lemma same_result {A : Type} (Res : nat -> A) (out : nat -> A) (Q : nat -> Prop) (B : nat) :
  (forall n, exists k, Res n = out k /\ stops_when Q n k /\ (k <= B)%nat) -> forall n, (S B <= n)%nat -> Res n = Res (S B).
Proof.
  intros H n Hn. destruct (H n) as (k & -> & (H1 & H2 & H3) & Hb). destruct (H (S B)) as (k' & -> & (H1' & H2' & H3') & Hb').
  f_equal. destruct H3 as [H3|[K1 K2]]; [lia|]. destruct H3' as [H3'|[K1' K2']]; [lia|].
  destruct (Nat.lt_trichotomy k k') as [L|[L|L]]; auto; exfalso; [apply (H2' k)|apply (H2 k')]; auto.
Qed.

(** every unfinished iteration costs c t^2 *)
Lemma stop_count {E : IPS} (xs : nat -> E) (D : nat -> R) (amax : E -> R) t c n k : 0 <= c -> 0 < t -> (forall d, amax d <= norm d) ->
  (forall j, 0 <= D j) -> (forall j, (j < k)%nat -> D (S j) + c * norm2 (xs (S j) [-] xs j) <= D j) ->
  stops_when (fun j => amax (xs j [-] xs (j - 1)%nat) < t) n k -> INR (k - 1) * (c * (t * t)) <= D 0%nat.
Proof.
  intros Hc Ht Ha HD Hd (H1 & H2 & _).
  assert (G : forall j, (j < k)%nat -> D j + INR j * (c * (t * t)) <= D 0%nat).
  { induction j as [|j IH]; intro Hj; [simpl; lra|]. specialize (IH ltac:(lia)). specialize (Hd j ltac:(lia)). rewrite S_INR.
    specialize (H2 (S j) ltac:(lia)). replace (S j - 1)%nat with j in H2 by lia. apply Rnot_lt_le in H2. specialize (Ha (xs (S j) [-] xs j)).
    assert (t * t <= norm2 (xs (S j) [-] xs j)) by (rewrite <- norm_sq; nra).
    assert (c * (t * t) <= c * norm2 (xs (S j) [-] xs j)) by (apply Rmult_le_compat_l; auto). lra. }
  destruct k as [|k]; [simpl; specialize (HD 0%nat); lra|]. replace (S k - 1)%nat with k by lia. specialize (G k ltac:(lia)). specialize (HD k). lra.
Qed.

Lemma count_bound (c b : R) : 0 < c -> exists B : nat, forall k, INR (k - 1) * c <= b -> (k <= B)%nat.
Proof.
  intros Hc. assert (HN : exists N : nat, b / c < INR N). { destruct (archimed (Rmax (b / c) 0)) as [H _]. exists (Z.to_nat (up (Rmax (b / c) 0))). pose proof (Rmax_l (b / c) 0). pose proof (Rmax_r (b / c) 0). rewrite INR_IZR_INZ, Z2Nat.id; [lra|]. apply le_IZR. lra. }
  destruct HN as [N HN]. exists (S N). intros k Hk. destruct (Nat.le_gt_cases k (S N)) as [L|L]; auto. exfalso.
  assert (INR N <= INR (k - 1)) by (apply le_INR; lia). assert (b / c * c = b) by (field; lra). nra.
Qed.

Lemma ppxa_D0 {E : IPS} (m : nat) (w : nat -> R) (v : nat -> E) (x0 xo : E) tau : (forall i, (i < m)%nat -> 0 < w i) -> RS m w = 1 -> VS m v = vzero ->
  RS m (fun i => w i * norm2 (x0 [-] (xo [+] (tau / w i) [*] v i))) = norm2 (x0 [-] xo) + tau * tau * RS m (fun i => norm2 (v i) / w i).
Proof.
  intros Hw Sw Hv.
  rewrite (RS_ext m _ (fun i => (w i * norm2 (x0 [-] xo) + - (2 * tau) * << x0 [-] xo, v i >>) + tau * tau * (norm2 (v i) / w i))).
  - rewrite !RS_add, !RS_scal, <- inner_VS_r, Hv, inner_zero_r. rewrite (RS_ext m (fun i => w i * norm2 (x0 [-] xo)) (fun i => norm2 (x0 [-] xo) * w i)) by (intros; ring). rewrite RS_scal, Sw. ring.
  - intros i Hi. specialize (Hw i Hi). replace (x0 [-] (xo [+] (tau / w i) [*] v i)) with ((x0 [-] xo) [-] (tau / w i) [*] v i) by vring.
    rewrite norm2_sub, norm2_scal, inner_scal_r. field. lra.
Qed.

(*! C107_ppxa : PPXA with a common start x0, convex functions, exact prox, positive weights summing to one, tau > 0, 0 < eta < 2, a tolerance tol > 0 and a
   solution xo with multipliers v_i (subgradients at xo summing to 0): a run of k iterations has
   (k-1) tol^2 <= eta/(2-eta) (|x0-xo|^2 + tau^2 sum_i |v_i|^2 / w_i), whatever niter; and from some N on the result does not depend on niter *)
Lemma C107_ppxa_l : forall (E : IPS) (os : list (Op E)) (f : nat -> efun E) x0 tau eta weights amax t xo v,
  let m := List.length os in let w := nthr (ppxa_weights weights m) in
  impl_all os f -> (forall i, (i < m)%nat -> convex (f i)) -> (0 < m)%nat -> 0 < tau -> 0 < eta < 2 -> good_weights weights m ->
  0 < t -> (forall d, amax d <= norm d) -> sum_kkt m f xo v ->
  (forall niter, exists x tr, PPXA os (Common x0) tau eta weights niter amax (Some t) = Ok (x, tr) /\ (List.length tr <= niter)%nat /\
     INR (List.length tr - 1) * (t * t) <= eta / (2 - eta) * (norm2 (x0 [-] xo) + tau * tau * RS m (fun i => norm2 (v i) / w i))) /\
  exists N, forall niter, (N <= niter)%nat -> PPXA os (Common x0) tau eta weights niter amax (Some t) = PPXA os (Common x0) tau eta weights N amax (Some t).
Proof.
  intros E os f x0 tau eta weights amax t xo v m w Hf Hc Hm Ht He Hg Htol Ha Hk.
  destruct (weights_facts weights m Hm Hg) as [Lw [Pw Sw]]. fold w in Pw, Sw.
  set (b := norm2 (x0 [-] xo) + tau * tau * RS m (fun i => norm2 (v i) / w i)).
  assert (He2 : 0 < (2 - eta) / eta) by (apply Rdiv_lt_0_compat; lra).
  assert (G : forall niter, exists xs k, PPXA os (Common x0) tau eta weights niter amax (Some t) = Ok (xs k, map xs (seq 1 k)) /\ (k <= niter)%nat /\ INR (k - 1) * (t * t) <= eta / (2 - eta) * b).
  { intro n. destruct (C53_ppxa_l E os f (Common x0) tau eta weights n amax t Hf Hc Hm Ht He Hg I) as (xs & ys & ps & k & E1 & Y0 & _ & _ & Hst & _ & HD).
    destruct (HD xo v Hk) as [_ HD2]. exists xs, k. split; [exact E1|]. split; [apply Hst|].
    set (D := fun j => RS m (fun i => w i * norm2 (ys j i [-] (xo [+] (tau / w i) [*] v i)))).
    assert (D0 : forall j, 0 <= D j) by (intro j; apply RS_nonneg; intros i Hi; apply Rmult_le_pos; [left; apply Pw; auto|apply norm2_nonneg]).
    pose proof (stop_count xs D amax t ((2 - eta) / eta) n k (Rlt_le _ _ He2) Htol Ha D0 HD2 Hst) as H. unfold D in H. cbv beta in H.
    rewrite (RS_ext _ _ (fun i => w i * norm2 (x0 [-] (xo [+] (tau / w i) [*] v i)))) in H by (intros i Hi; rewrite Y0 by auto; cbn [ppxa_ys0]; rewrite nthv_repeat by auto; reflexivity).
    rewrite (ppxa_D0 m w v x0 xo tau Pw Sw (proj2 Hk)) in H. fold b in H. apply (Rmult_le_compat_l (eta / (2 - eta))) in H; [|left; apply Rdiv_lt_0_compat; lra].
    replace (eta / (2 - eta) * (INR (k - 1) * ((2 - eta) / eta * (t * t)))) with (INR (k - 1) * (t * t)) in H by (field; lra). exact H. }
  split.
  - intro n. destruct (G n) as (xs & k & E1 & Hkn & Hb). exists (xs k), (map xs (seq 1 k)). split; [exact E1|]. rewrite map_length, seq_length. auto.
  - destruct (count_bound (t * t) (eta / (2 - eta) * b) ltac:(nra)) as [B HB].
    destruct (ppxa_seq E os f (Common x0) tau eta weights Hf Hc Hm Ht He Hg I) as (xs & ys & _ & _ & Hr).
    exists (S B). apply (same_result (fun n => PPXA os (Common x0) tau eta weights n amax (Some t)) (fun k => Ok (xs k, map xs (seq 1 k))) (fun j => amax (xs j [-] xs (j - 1)%nat) < t)).
    intro n. destruct (Hr n amax t) as (k & E1 & Hst). exists k. split; [exact E1|]. split; [exact Hst|].
    destruct (G n) as (xs' & k' & E2 & _ & Hb). rewrite E2 in E1. assert (L : k' = k) by (injection E1 as _ L; apply (f_equal (@List.length E)) in L; rewrite !map_length, !seq_length in L; exact L).
    subst k'. apply HB. exact Hb.
Qed.

(*! C107_consensus : ConsensusADMM with convex functions, exact prox, tau > 0, a tolerance tol > 0 and a solution xo with multipliers v_i: a run of k iterations has
   (k-1) tol^2 <= |x0-xo|^2 + tau^2/m sum_i |v_i|^2, whatever niter; and from some N on the result does not depend on niter *)
Lemma C107_consensus_l : forall (E : IPS) (os : list (Op E)) (f : nat -> efun E) x0 tau amax t xo v, let m := List.length os in
  impl_all os f -> (forall i, (i < m)%nat -> convex (f i)) -> (0 < m)%nat -> 0 < tau ->
  0 < t -> (forall d, amax d <= norm d) -> sum_kkt m f xo v ->
  (forall niter, exists x tr, ConsensusADMM os x0 tau niter amax (Some t) = Ok (x, tr) /\ (List.length tr <= niter)%nat /\
     INR (List.length tr - 1) * (t * t) <= norm2 (x0 [-] xo) + tau * tau / INR m * RS m (fun i => norm2 (v i))) /\
  exists N, forall niter, (N <= niter)%nat -> ConsensusADMM os x0 tau niter amax (Some t) = ConsensusADMM os x0 tau N amax (Some t).
Proof.
  intros E os f x0 tau amax t xo v m Hf Hc Hm Ht Htol Ha Hk. assert (HIm : 0 < INR m) by (apply lt_0_INR; auto).
  set (b := norm2 (x0 [-] xo) + tau * tau / INR m * RS m (fun i => norm2 (v i))).
  assert (G : forall niter, exists xs k, ConsensusADMM os x0 tau niter amax (Some t) = Ok (xs k, map xs (seq 1 k)) /\ (k <= niter)%nat /\ INR (k - 1) * (t * t) <= b).
  { intro n. destruct (C54_consensus_admm_l E os f x0 tau n amax t Hf Hc Hm Ht) as (xs & ys & us & k & E1 & X0 & Y0 & _ & Hst & _ & _ & HD).
    specialize (HD xo v Hk). exists xs, k. split; [exact E1|]. split; [apply Hst|]. cbv zeta in HD. fold m in HD, Y0.
    set (D := fun j => INR m * norm2 (xs j [-] xo) + RS m (fun i => norm2 (ys j i [+] tau [*] v i))).
    assert (HD2 : forall j, (j < k)%nat -> D (S j) + INR m * norm2 (xs (S j) [-] xs j) <= D j).
    { intros j Hj. specialize (HD j Hj). assert (0 <= RS m (fun i => norm2 (us j i [-] xs (S j)))) by (apply RS_nonneg; intros; apply norm2_nonneg). unfold D. lra. }
    assert (D0 : forall j, 0 <= D j) by (intro j; apply Rplus_le_le_0_compat; [apply Rmult_le_pos; [lra|apply norm2_nonneg]|apply RS_nonneg; intros; apply norm2_nonneg]).
    pose proof (stop_count xs D amax t (INR m) n k (Rlt_le _ _ HIm) Htol Ha D0 HD2 Hst) as H. unfold D in H. cbv beta in H.
    rewrite X0 in H. rewrite (RS_ext m _ (fun i => tau * tau * norm2 (v i))) in H by (intros i Hi; rewrite Y0 by auto; replace (vzero [+] tau [*] v i) with (tau [*] v i) by vring; apply norm2_scal).
    rewrite RS_scal in H. apply (Rmult_le_compat_l (/ INR m)) in H; [|left; apply Rinv_0_lt_compat; auto].
    replace (/ INR m * (INR (k - 1) * (INR m * (t * t)))) with (INR (k - 1) * (t * t)) in H by (field; lra). unfold b. eapply Rle_trans; [exact H|]. right. field. lra. }
  split.
  - intro n. destruct (G n) as (xs & k & E1 & Hkn & Hb). exists (xs k), (map xs (seq 1 k)). split; [exact E1|]. rewrite map_length, seq_length. auto.
  - destruct (count_bound (t * t) b ltac:(nra)) as [B HB].
    destruct (cadmm_seq E os f x0 tau Hf Hc Hm Ht) as (xs & ys & _ & _ & _ & Hr).
    exists (S B). apply (same_result (fun n => ConsensusADMM os x0 tau n amax (Some t)) (fun k => Ok (xs k, map xs (seq 1 k))) (fun j => amax (xs j [-] xs (j - 1)%nat) < t)).
    intro n. destruct (Hr n amax t) as (k & E1 & Hst). exists k. split; [exact E1|]. split; [exact Hst|].
    destruct (G n) as (xs' & k' & E2 & _ & Hb). rewrite E2 in E1. assert (L : k' = k) by (injection E1 as _ L; apply (f_equal (@List.length E)) in L; rewrite !map_length, !seq_length in L; exact L).
    subst k'. apply HB. exact Hb.
Qed.

(*! C107_bregman : Bregman with an exact inner solver, f convex and differentiable, g bounded below by b, and a point u in the domain of g(A .) with f(u) < tolf: a run of
   k outer iterations has (k-1) (tolf - f(u)) <= alpha (g(A u) - b), whatever niterouter and tolx; every run shorter than niterouter ends with
   |x_k - x_(k-1)| < tolx or f(x_k) < tolf *)
Lemma C107_bregman_l : forall (E F : IPS) (fuel : nat) (proxf : Op E) (proxg : Op F) f df g (A : E -> F) solver alpha x0 warm tolx tolf b u,
  0 < alpha -> impl_prox proxf (etot f) -> impl_call proxf (etot f) -> (forall x, o_grad proxf x = Ok (Some (df x)) /\ is_grad f x (df x)) ->
  convex (etot f) -> impl_prox proxg g -> impl_call proxg g -> convex (epre g A) -> exact_solver f g A alpha solver ->
  (forall y, edom g y -> b <= eval g y) -> edom g (A u) -> f u < tolf ->
  forall n, exists xs k, Bregman (S fuel) proxf proxg x0 solver (PFloat alpha) n warm tolx tolf = Ok (xs k, map xs (seq 1 k)) /\ xs 0%nat = x0 /\ (k <= n)%nat /\
    INR (k - 1) * (tolf - f u) <= alpha * (eval g (A u) - b) /\
    (k = n \/ (1 <= k)%nat /\ (norm (xs k [-] xs (k - 1)%nat) < tolx \/ f (xs k) < tolf)).
Proof.
  intros E F fuel proxf proxg f df g A solver alpha x0 warm tolx tolf b u Ha Pf Cf Gf Vf Pg Cg Vg Hx Hb Hu Hfu n.
  destruct (C59_bregman_l E F fuel proxf proxg f df g A solver alpha x0 n warm tolx tolf Ha Pf Cf Gf Vf Pg Cg Vg Hx) as (xs & qs & k & E1 & X0 & _ & (S1 & S2 & S3) & Hq & _ & HB).
  exists xs, k. split; [exact E1|]. split; [exact X0|]. split; [exact S1|]. split; [|exact S3].
  pose proof (Hb _ Hu) as Hbu.
  destruct k as [|[|k]]; [simpl; nra|simpl; nra|]. replace (S (S k) - 1)%nat with (S k) by lia.
  specialize (S2 (S k) ltac:(lia)). assert (Hf : tolf <= f (xs (S k))) by (apply Rnot_lt_le; intro; apply S2; auto).
  specialize (HB (S k) u ltac:(lia) Hu). assert (Hd : edom g (A (xs 1%nat))) by (destruct (Hq 1%nat ltac:(lia)) as [H _]; exact H). specialize (Hb _ Hd).
  assert (INR (S k) * (tolf - f u) <= INR (S k) * (f (xs (S k)) - f u)) by (apply Rmult_le_compat_l; [apply pos_INR|lra]).
  assert (alpha * eval g (A (xs 1%nat)) >= alpha * b) by (apply Rle_ge, Rmult_le_compat_l; lra). lra.
Qed.

(*! C107_adaptive : AdaptivePrimalDual under the hypotheses of C58_converges and with tol > 0 ends: from some maxiter N on, the result does not depend on maxiter *)
Lemma C107_adaptive_l : forall (E F : IPS) (A : linop E F) proxf proxg f g gs alias x0 tau mu kappa alpha eta s delta z rz tol, bw E -> bw F ->
  impl_prox proxf f -> impl_proxdual proxg gs -> convex f -> convex g -> is_conj g gs -> (forall u, exists p, is_prox g 1 u p) ->
  alias = None \/ z = None -> (forall v, z = Some v -> rz v <> None) ->
  0 < tau -> 0 < mu -> 0 <= kappa < 1 -> (forall a, tau * mu * norm2 (lapp A a) <= kappa * norm2 a) -> 0 < alpha < 1 -> 0 < eta < 1 -> 0 < delta ->
  (exists xo yo, saddle A f gs (zvec z) xo yo) -> 0 < tol ->
  exists N, forall niter, (N <= niter)%nat ->
    AdaptivePrimalDual proxf proxg A alias x0 tau mu alpha eta s delta z rz niter tol = AdaptivePrimalDual proxf proxg A alias x0 tau mu alpha eta s delta z rz N tol.
Proof.
  intros E F A proxf proxg f g gs alias x0 tau mu kappa alpha eta s delta z rz tol HE HF Hf Hg Cf Cg Hc Hpg Hali Hrz Ht Hm Hk HA Ha He Hd Hs Htol.
  destruct (C58_converges_l E F A proxf proxg f g gs alias x0 tau mu kappa alpha eta s delta z rz HE HF Hf Hg Cf Cg Hc Hpg Hali Hrz Ht Hm Hk HA Ha He Hd Hs)
    as (xs & ts & ms & als & ps & ds & xl & tl & ml & X0 & Hr & Hpos & _ & _ & _ & _ & _ & _ & Hcv).
  destruct (Hcv tol Htol) as [B HB]. exists (S (S B)).
  apply (same_result (fun n => AdaptivePrimalDual proxf proxg A alias x0 tau mu alpha eta s delta z rz n tol)
     (fun k => Ok (xs k, (map ts (seq 0 (S k)), map ms (seq 0 (S k)), map als (seq 0 (S k))), map xs (seq 1 k))) (fun j => ps j <= tol \/ ds j <= tol) (S B)).
  intro n. destruct (Hr n tol) as (k & K1 & E1 & K2 & K3). exists k. split; [exact E1|]. split.
  - split; [exact K1|]. split; [|exact K2]. intros j Hj. destruct (K3 j Hj). lra.
  - destruct (Nat.le_gt_cases k (S B)) as [L|L]; auto. exfalso. destruct (K3 (S B) ltac:(lia)) as [_ H]. specialize (HB (S B) ltac:(lia)). unfold R_dist in HB.
    rewrite Rminus_0_r in HB. pose proof (Rle_abs (ds (S B))). lra.
Qed.

(*! C107_never_refuted : without a solution the tolerance may never be met: for the single function x |-> <c, x> with c not 0 and a measure of the change that is at least tol on a step,
   PPXA and ConsensusADMM make all niter iterations, for every niter *)
Lemma C107_never_refuted_l : forall (E : IPS) (o : Op E) (c x0 : E) tau eta amax t, impl_prox o (etot (fun x => << c, x >>)) -> 0 < tau -> 0 < eta < 2 ->
  t <= amax ((- (eta * tau)) [*] c) -> t <= amax ((- tau) [*] c) ->
  forall niter, (exists x tr, PPXA [o] (Common x0) tau eta None niter amax (Some t) = Ok (x, tr) /\ List.length tr = niter) /\
    (exists x tr, ConsensusADMM [o] x0 tau niter amax (Some t) = Ok (x, tr) /\ List.length tr = niter).
Proof.
  intros E o c x0 tau eta amax t Ho Ht He Ha1 Ha2 n.
  assert (Hc : convex (etot (fun x => << c, x >>))) by (intros x y l _ _ Hl; split; [exact I|]; cbn; rewrite inner_add_r, !inner_scal_r; lra).
  assert (Hp : forall v p s, 0 < s -> is_prox (etot (fun x => << c, x >>)) s v p -> p = v [-] s [*] c).
  { intros v p s Hs H. pose proof (prox_subgrad _ s v p Hc Hs H) as [_ G].
    specialize (G (p [+] ((/ s) [*] (v [-] p) [-] c)) I). cbn in G. cbn [eval etot] in G. set (d := (/ s) [*] (v [-] p) [-] c) in *.
    replace (p [+] d [-] p) with d in G by vring. replace ((/ s) [*] (v [-] p)) with (d [+] c) in G by (unfold d; vring).
    rewrite inner_add_r, inner_add_l in G. assert (D : d = vzero) by (apply norm2_eq0; pose proof (norm2_nonneg d); unfold norm2 in *; lra).
    assert (Q : v = p [+] s [*] (d [+] c)) by (unfold d; vfield; lra). rewrite Q, D. vring. }
  assert (Hi : impl_all [o] (fun _ => etot (fun x => << c, x >>))) by (intros [|[|i]] o' E'; cbn in E'; inversion E'; subst; exact Ho).
  split.
  - destruct (C53_ppxa_l E [o] (fun _ => etot (fun x => << c, x >>)) (Common x0) tau eta None n amax t Hi (fun _ _ => Hc) ltac:(cbn; lia) Ht He I I) as (xs & ys & ps & k & E1 & Y0 & X0 & Hd & Hst & _).
    exists (xs k), (map xs (seq 1 k)). split; [exact E1|]. rewrite map_length, seq_length.
    change (List.length [o]) with 1%nat in *. 
    assert (W : nthr (ppxa_weights None 1) 0 = 1) by (cbn; field).
    assert (Hxy : forall j, (j <= k)%nat -> xs j = ys j 0%nat).
    { induction j as [|j IH]; intro Hj; [rewrite X0; cbn [VS]; rewrite W; vring|]. destruct (Hd j ltac:(lia)) as [H1 H2]. destruct (H1 0%nat ltac:(lia)) as [_ H4]. rewrite H2, H4, IH by lia. cbn [VS]. rewrite W. vring. }
    destruct Hst as (S1 & S2 & [S3|[S3 S4]]); [auto|]. exfalso. destruct k as [|k]; [lia|]. replace (S k - 1)%nat with k in S4 by lia.
    destruct (Hd k ltac:(lia)) as [H1 H2]. destruct (H1 0%nat ltac:(lia)) as [H3 _]. rewrite W in H3. apply Hp in H3; [|lra].
    cbn [VS] in H2. rewrite W in H2. rewrite (Hxy k) in H2, S4 by lia. rewrite H3 in H2.
    assert (Q : xs (S k) [-] ys k 0%nat = (- (eta * tau)) [*] c) by (rewrite H2; vfield). rewrite Q in S4. lra.
  - destruct (C54_consensus_admm_l E [o] (fun _ => etot (fun x => << c, x >>)) x0 tau n amax t Hi (fun _ _ => Hc) ltac:(cbn; lia) Ht) as (xs & ys & us & k & E1 & X0 & Y0 & Hd & Hst & Hz & _).
    exists (xs k), (map xs (seq 1 k)). split; [exact E1|]. rewrite map_length, seq_length.
    change (List.length [o]) with 1%nat in *. destruct Hst as (S1 & S2 & [S3|[S3 S4]]); [auto|]. exfalso. destruct k as [|k]; [lia|]. replace (S k - 1)%nat with k in S4 by lia.
    destruct (Hd k ltac:(lia)) as (H1 & H2 & _). specialize (H1 0%nat ltac:(lia)). apply Hp in H1; auto. specialize (Hz k ltac:(lia)). cbn [VS] in Hz, H2.
    assert (Q : xs (S k) [-] xs k = (- tau) [*] c). { assert (Z : ys k 0%nat = vzero) by (rewrite <- Hz; vring). rewrite H2, H1, Z. cbn [INR]. vfield. } rewrite Q in S4. lra.
Qed.

(*!ex C107_example : f1 = (x-1)^2/2, f2 = x^2/2 on the line, start 1/2 (the solution, multipliers -1/2 and 1/2), tau = 1, tol = 1/10: PPXA (eta = 1, default weights) makes
   at most 101 iterations and ConsensusADMM at most 26, whatever niter *)
Lemma C107_example_l : impl_all [shifted1; quad1 1] (sh_quad 1) /\ (forall i, (i < 2)%nat -> convex (sh_quad 1 i)) /\
  sum_kkt 2 (sh_quad 1) (1/2 : R_IPS) (fun i => match i with O => - (1/2) | _ => 1/2 end) /\
  forall niter, (exists x tr, PPXA [shifted1; quad1 1] (Common (1/2 : R_IPS)) 1 1 None niter Rabs (Some (1/10)) = Ok (x, tr) /\ (List.length tr <= 101)%nat) /\
    (exists x tr, ConsensusADMM [shifted1; quad1 1] (1/2 : R_IPS) 1 niter Rabs (Some (1/10)) = Ok (x, tr) /\ (List.length tr <= 26)%nat).
Proof.
  assert (Hi : impl_all [shifted1; quad1 1] (sh_quad 1)) by (apply sh_quad_impl; lra).
  assert (Hc : forall i, (i < 2)%nat -> convex (sh_quad 1 i)) by (apply sh_quad_convex; lra).
  assert (Hk : sum_kkt 2 (sh_quad 1) (1/2 : R_IPS) (fun i => match i with O => - (1/2) | _ => 1/2 end)).
  { pose proof (sh_quad_kkt 1 ltac:(lra)) as H. replace (/ (1 + 1)) with (1/2) in H by field. replace (1 / (1 + 1)) with (1/2) in H by field. exact H. }
  assert (Ha : forall d : R_IPS, Rabs d <= norm d) by (intro d; rewrite normR; lra).
  split; [exact Hi|]. split; [exact Hc|]. split; [exact Hk|]. intro n. split.
  - destruct (C107_ppxa_l R_IPS [shifted1; quad1 1] (sh_quad 1) (1/2) 1 1 None Rabs (1/10) (1/2) _ Hi Hc ltac:(cbn; lia) ltac:(lra) ltac:(lra) I ltac:(lra) Ha Hk) as [H _].
    destruct (H n) as (x & tr & E1 & _ & Hb). exists x, tr. split; [exact E1|]. remember (INR (List.length tr - 1)) as q eqn:Eq.
    change (List.length [shifted1; quad1 1]) with 2%nat in Hb. cbn [RS] in Hb. unfold ppxa_weights, nthr in Hb. cbn in Hb. unfold norm2 in Hb. cbn in Hb.
    match type of Hb with _ <= ?r => replace r with 1 in Hb by field end.
    destruct (Nat.le_gt_cases (List.length tr) 101) as [L|L]; auto. exfalso. assert (INR 101 <= q) by (rewrite Eq; apply le_INR; lia).
    replace (INR 101) with 101 in * by (simpl; lra). clear - Hb H0. lra.
  - destruct (C107_consensus_l R_IPS [shifted1; quad1 1] (sh_quad 1) (1/2) 1 Rabs (1/10) (1/2) _ Hi Hc ltac:(cbn; lia) ltac:(lra) ltac:(lra) Ha Hk) as [H _].
    destruct (H n) as (x & tr & E1 & _ & Hb). exists x, tr. split; [exact E1|]. remember (INR (List.length tr - 1)) as q eqn:Eq.
    change (List.length [shifted1; quad1 1]) with 2%nat in Hb. cbn [RS] in Hb. cbn in Hb. unfold norm2 in Hb. cbn in Hb.
    match type of Hb with _ <= ?r => replace r with (1/4) in Hb by field end.
    destruct (Nat.le_gt_cases (List.length tr) 26) as [L|L]; auto. exfalso. assert (INR 26 <= q) by (rewrite Eq; apply le_INR; lia).
    replace (INR 26) with 26 in * by (simpl; lra). clear - Hb H0. lra.
Qed.
