(** * Linear convergence of the solvers on strongly convex problems *)
From Coq Require Import String Psatz.
From Verif Require Import Base Space Spec Cplx ConvexFacts Smooth VSum M_ProxOp SpecOps P_ProxOp M_Norms P_Norms M_Loop LoopFacts SeqFacts M_PG M_Split M_PD SplitMath P_PG P_PG2 P_PG3 P_Split2 S_Seq Compact Fejer IterMath S_PD P_PD P_PD2 P_Iter P_Iter2 S_Exist InexactMath InexactMath2 P_Inexact RateMath.
From Verif Require Export S_Rates.
Open Scope result_scope.
Open Scope R_scope.

Lemma zero_err {E : IPS} (a : E) : norm (a [-] a) <= 0.
Proof. rewrite vsub_diag, norm_zero. lra. Qed.
Lemma inv1_bound a : 0 < a -> 0 < / (1 + a) < 1.
Proof. intro H. split; [apply Rinv_0_lt_compat; lra|]. rewrite <- Rinv_1. apply Rinv_lt_contravar; lra. Qed.
Lemma inv1_nn a : 0 <= a -> 0 < / (1 + a) <= 1.
Proof. intro H. split; [apply Rinv_0_lt_compat; lra|]. rewrite <- Rinv_1. apply Rinv_le_contravar; lra. Qed.
Lemma tau_bound tau L : 0 < L -> tau < 2 / L -> tau * L < 2.
Proof. intros HL H. apply (Rmult_lt_compat_r L) in H; [|lra]. replace (2 / L * L) with 2 in H by (field; lra). exact H. Qed.

(*! C90_factors : the contraction factors are below 1: 1/(1+ts); max(|1-ts|, |1-tL|) for 0 < t < 2/L; max((1-ts)/(1+ts), (tL-1)/(tL+1)) for every
   t > 0. The best steps are t = 2/(s+L), giving (L-s)/(L+s), and t = 1/sqrt(sL), giving (sqrt L - sqrt s)/(sqrt L + sqrt s): no other t is
   better *)
Lemma C90_factors_l : forall s L, 0 < s < L ->
  (forall t, 0 < t -> 0 < / (1 + t * s) < 1 /\ 0 <= refl_rate s L t < 1 /\ (t < 2 / L -> 0 <= grad_rate s L t < 1)) /\
  grad_rate s L (2 / (s + L)) = (L - s) / (L + s) /\ (forall t, (L - s) / (L + s) <= grad_rate s L t) /\
  refl_rate s L (/ sqrt (s * L)) = (sqrt L - sqrt s) / (sqrt L + sqrt s) /\ (forall t, 0 < t -> (sqrt L - sqrt s) / (sqrt L + sqrt s) <= refl_rate s L t).
Proof.
  intros s L H. destruct C89_moduli_l as (_ & _ & _ & M & _). split.
  { intros t Ht. destruct (M s L t H Ht) as (_ & H2 & H3). split; [apply inv1_bound; apply Rmult_lt_0_compat; lra|]. split; [exact H2|exact H3]. }
  assert (Ss : 0 < sqrt s) by (apply sqrt_lt_R0; lra). assert (SL : 0 < sqrt L) by (apply sqrt_lt_R0; lra). assert (Qs : sqrt s * sqrt s = s) by (apply sqrt_sqrt; lra). assert (QL : sqrt L * sqrt L = L) by (apply sqrt_sqrt; lra).
  split; [|split; [|split]].
  - unfold grad_rate. replace (1 - 2 / (s + L) * s) with ((L - s) / (L + s)) by (field; lra). replace (1 - 2 / (s + L) * L) with (- ((L - s) / (L + s))) by (field; lra). rewrite Rabs_Ropp, Rmax_left by lra. apply Rabs_right. apply Rle_ge, Rlt_le, Rdiv_lt_0_compat; lra.
  - intro t. unfold grad_rate. destruct (Rle_lt_dec (t * (s + L)) 2) as [Ht|Ht].
    + eapply Rle_trans; [|apply Rmax_l]. eapply Rle_trans; [|apply RRle_abs]. apply (Rmult_le_reg_r (L + s)); [lra|]. replace ((L - s) / (L + s) * (L + s)) with (L - s) by (field; lra).
      assert (t * (s + L) * s <= 2 * s) by (apply Rmult_le_compat_r; lra). lra.
    + eapply Rle_trans; [|apply Rmax_r]. rewrite <- Rabs_Ropp. eapply Rle_trans; [|apply RRle_abs]. apply (Rmult_le_reg_r (L + s)); [lra|]. replace ((L - s) / (L + s) * (L + s)) with (L - s) by (field; lra).
      assert (2 * L <= t * (s + L) * L) by (apply Rmult_le_compat_r; lra). lra.
  - unfold refl_rate. rewrite sqrt_mult by lra.
    assert (E1 : / (sqrt s * sqrt L) * s = sqrt s / sqrt L) by (rewrite <- Qs at 2; field; lra). assert (E2 : / (sqrt s * sqrt L) * L = sqrt L / sqrt s) by (rewrite <- QL at 2; field; lra). rewrite E1, E2.
    replace ((1 - sqrt s / sqrt L) / (1 + sqrt s / sqrt L)) with ((sqrt L - sqrt s) / (sqrt L + sqrt s)) by (field; lra). replace ((sqrt L / sqrt s - 1) / (1 + sqrt L / sqrt s)) with ((sqrt L - sqrt s) / (sqrt L + sqrt s)) by (field; lra). apply Rmax_left. lra.
  - intros t Ht. unfold refl_rate. assert (Hts : 0 < t * s) by (apply Rmult_lt_0_compat; lra). assert (HtL : 0 < t * L) by (apply Rmult_lt_0_compat; lra).
    destruct (Rle_lt_dec (t * (sqrt s * sqrt L)) 1) as [H1|H1].
    + eapply Rle_trans; [|apply Rmax_l]. apply (Rmult_le_reg_r ((sqrt L + sqrt s) * (1 + t * s))); [apply Rmult_lt_0_compat; lra|].
      replace ((sqrt L - sqrt s) / (sqrt L + sqrt s) * ((sqrt L + sqrt s) * (1 + t * s))) with ((sqrt L - sqrt s) * (1 + t * s)) by (field; lra).
      replace ((1 - t * s) / (1 + t * s) * ((sqrt L + sqrt s) * (1 + t * s))) with ((sqrt L + sqrt s) * (1 - t * s)) by (field; lra).
      assert (G : t * s * sqrt L <= sqrt s). { replace (t * s * sqrt L) with (t * (sqrt s * sqrt L) * sqrt s) by (rewrite <- Qs at 3; ring). rewrite <- (Rmult_1_l (sqrt s)) at 3. apply Rmult_le_compat_r; lra. } lra.
    + eapply Rle_trans; [|apply Rmax_r]. apply (Rmult_le_reg_r ((sqrt L + sqrt s) * (1 + t * L))); [apply Rmult_lt_0_compat; lra|].
      replace ((sqrt L - sqrt s) / (sqrt L + sqrt s) * ((sqrt L + sqrt s) * (1 + t * L))) with ((sqrt L - sqrt s) * (1 + t * L)) by (field; lra).
      replace ((t * L - 1) / (1 + t * L) * ((sqrt L + sqrt s) * (1 + t * L))) with ((sqrt L + sqrt s) * (t * L - 1)) by (field; lra).
      assert (G : sqrt L <= t * L * sqrt s). { replace (t * L * sqrt s) with (t * (sqrt s * sqrt L) * sqrt L) by (rewrite <- QL at 3; ring). rewrite <- (Rmult_1_l (sqrt L)) at 1. apply Rmult_le_compat_r; lra. } lra.
Qed.

(*! C90_proximal_point : f - s/2|.|^2 convex, s > 0, m the minimiser: after n iterations of ProximalPoint |x - m| <= |x0 - m| / (1 + tau s)^n *)
Lemma C90_proximal_point_l : forall (E : IPS) (o : Op E) f x0 tau s m, impl_prox o f -> strongly_convex s f -> 0 < s -> 0 < tau -> is_min f m ->
  forall n, exists x tr, ProximalPoint o x0 tau n None = Ok (x, tr) /\ norm (x [-] m) <= (/ (1 + tau * s)) ^ n * norm (x0 [-] m).
Proof.
  intros E o f x0 tau s m Ho Hf Hs Ht Hm n. destruct (pp_runs o f x0 tau 0 (impl_approx o f tau Ho Ht)) as (xs & X0 & HX & SX). exists (xs n), (map xs (seq 1 n)). split; [apply HX|].
  assert (Hq : 0 < / (1 + tau * s) < 1) by (apply inv1_bound, Rmult_lt_0_compat; lra).
  pose proof (pp_cmp 0 0 f tau (/ (1 + tau * s)) (fun _ => m) xs (prox_lip_strong f s tau Hf ltac:(lra) Ht) ltac:(lra)) as H. rewrite <- X0.
  specialize (H ltac:(intro j; exists m; split; [apply min_prox_fix; auto|apply zero_err]) SX n). cbv beta in H. lra.
Qed.

(*! C90_proximal_gradient : f with L-Lipschitz gradient, f - sf/2|.|^2 and g - sg/2|.|^2 convex (sf, sg >= 0), fixed step, no acceleration, relaxation
   eta >= 0, m a minimiser of f + eps g: after n iterations |x - m| <= Q^n |x0 - m| with Q = |1-eta| + eta max(|1-tau sf|, |1-tau L|) / (1 + eps tau sg),
   which is below 1 when tau < 2/L, 0 < eta <= 1 and sf > 0 or sg > 0 *)
Lemma C90_proximal_gradient_l : forall (E : IPS) (proxf proxg : Op E) f df L sf g sg eps x0 tau beta eta niterback accel m, smooth_op proxf f df L -> impl_prox proxg g -> 0 <= sf < L -> strongly_convex sf (etot f) ->
  0 <= sg -> strongly_convex sg g -> 0 < eps -> 0 < tau -> 0 <= eta -> unaccelerated accel eta -> is_min (eadd (etot f) (escal eps g)) m ->
  let Q := Rabs (1 - eta) + eta * (/ (1 + eps * tau * sg) * grad_rate sf L tau) in
  (forall n, exists x tr, ProximalGradient proxf proxg x0 [eps] (Some tau) false beta eta (S n) niterback accel None = Ok (x, tr) /\ norm (x [-] m) <= Q ^ S n * norm (x0 [-] m)) /\
  (tau < 2 / L -> 0 < eta <= 1 -> 0 < sf \/ 0 < sg -> 0 <= Q < 1).
Proof.
  intros E proxf proxg f df L sf g sg eps x0 tau beta eta niterback accel m (_ & Hgr & Hcv & HL & Hsm) Hg Hsf Sf Hsg Sg He Ht Hn Ha Hm Q.
  assert (Het : 0 < eps * tau) by (apply Rmult_lt_0_compat; lra). assert (Hqg : 0 < / (1 + eps * tau * sg) <= 1) by (apply inv1_nn, Rmult_le_pos; lra).
  assert (Hqf : 0 <= grad_rate sf L tau) by (apply Rle_trans with (1 := Rabs_pos (1 - tau * sf)); apply Rmax_l). split.
  - assert (Hga : approx_grad 0 proxf df). { intro x. exists (df x). split; [apply Hgr|apply zero_err]. }
    destruct (pg_runs proxf proxg df g eps x0 tau beta eta niterback accel 0 0 (/ (1 + eps * tau * sg)) Hga (impl_approx _ _ _ Hg Het) (prox_lip_strong g sg (eps * tau) Sg Hsg Het) ltac:(lra) Ht Hn Ha) as (xs & X0 & HX & SX).
    intro n. exists (xs (S n)), (map xs (seq 1 (S n))). split; [apply HX|].
    replace (eta * (0 + / (1 + eps * tau * sg) * (tau * 0))) with 0 in SX by ring.
    assert (Hfix : is_prox g (eps * tau) (m [-] tau [*] df m) m).
    { pose proof (min_sum_subgrad_inv f df L (escal eps g) m ltac:(lra) (L_smooth_convex f df L Hcv Hsm) (convex_scal eps g ltac:(lra) (strong_convex g sg Hsg Sg)) Hm) as Hs.
      apply subgrad_prox; [exact Het|]. replace (/ (eps * tau) [*] (m [-] tau [*] df m [-] m)) with (/ eps [*] vopp (df m)) by (vfield; lra).
      destruct Hs as [Hs1 Hs2]. split; [exact Hs1|]. intros y Hy. specialize (Hs2 y Hy). cbn [eval escal] in Hs2. rewrite inner_scal_l. apply (Rmult_le_reg_l eps); [lra|]. rewrite Rmult_plus_distr_l, <- Rmult_assoc, Rinv_r, Rmult_1_l by lra. exact Hs2. }
    pose proof (pg_cmp 0 0 df g (eps * tau) tau eta (grad_rate sf L tau) (/ (1 + eps * tau * sg)) (fun _ => m) xs (step_lip_strong f df sf L tau Hsf Sf Hsm Ht) (prox_lip_strong g sg _ Sg Hsg Het) Hqf ltac:(lra) Hn) as H.
    cbv zeta in H. fold Q in H. rewrite <- X0. specialize (H ltac:(intro j; exists m; split; [exact Hfix|replace (m [+] eta [*] (m [-] m)) with m by vring; apply zero_err]) SX (S n)). cbv beta in H. lra.
  - intros HtL Hn1 Hor. pose proof (tau_bound tau L HL HtL) as HtL2. assert (HtL3 : 0 < tau * L) by (apply Rmult_lt_0_compat; lra). unfold Q. rewrite (Rabs_right (1 - eta)) by lra.
    assert (Hts : 0 <= tau * sf) by (apply Rmult_le_pos; lra). assert (Hts2 : tau * sf < tau * L) by (apply Rmult_lt_compat_l; lra).
    assert (Hf1 : grad_rate sf L tau <= 1) by (apply Rmax_lub; apply Rabs_le; lra).
    assert (Hpos : 0 <= / (1 + eps * tau * sg) * grad_rate sf L tau) by (apply Rmult_le_pos; lra).
    assert (Hlt : / (1 + eps * tau * sg) * grad_rate sf L tau < 1).
    { destruct Hor as [Hor|Hor].
      - assert (0 < tau * sf) by (apply Rmult_lt_0_compat; lra). assert (grad_rate sf L tau < 1) by (apply Rmax_lub_lt; apply Rabs_def1; lra). apply Rle_lt_trans with (1 * grad_rate sf L tau); [apply Rmult_le_compat_r; lra|lra].
      - pose proof (inv1_bound (eps * tau * sg) ltac:(apply Rmult_lt_0_compat; lra)) as Hb. apply Rle_lt_trans with (/ (1 + eps * tau * sg) * 1); [apply Rmult_le_compat_l; lra|lra]. }
    assert (0 <= eta * (/ (1 + eps * tau * sg) * grad_rate sf L tau)) by (apply Rmult_le_pos; lra). assert (eta * (/ (1 + eps * tau * sg) * grad_rate sf L tau) < eta * 1) by (apply Rmult_lt_compat_l; lra). lra.
Qed.

Lemma regular_convex {E : IPS} s L (f : efun E) : 0 <= s -> regular s L f -> convex f.
Proof. intros Hs (h & dh & -> & Hst & _). apply strong_convex with s; auto. Qed.
Lemma regular_refl {E : IPS} s L (f : efun E) t : 0 <= s < L -> 0 < t -> regular s L f -> refl_lip (refl_rate s L t) f t.
Proof. intros Hs Ht (h & dh & -> & Hst & Hsm). apply refl_lip_strong with dh; auto. Qed.
Lemma regular_pair {E : IPS} s L (f g : efun E) t : 0 < s < L -> 0 < t -> convex f -> convex g -> regular s L f \/ regular s L g ->
  exists d1 d2, refl_lip d1 f t /\ refl_lip d2 g t /\ 0 <= d1 /\ 0 <= d2 /\ d1 * d2 = refl_rate s L t.
Proof.
  intros Hs Ht Hf Hg Hr. destruct (C90_factors_l s L Hs) as [H _]. destruct (H t Ht) as (_ & Hq & _). destruct Hr as [Hr|Hr].
  - exists (refl_rate s L t), 1. split; [apply regular_refl; auto; lra|]. split; [apply refl_lip_convex; auto|]. split; [lra|]. split; [lra|ring].
  - exists 1, (refl_rate s L t). split; [apply refl_lip_convex; auto|]. split; [apply regular_refl; auto; lra|]. split; [lra|]. split; [lra|ring].
Qed.
Lemma fix_seq {E : IPS} (f g : efun E) tau eta m u : 0 < tau -> kkt f g m u -> dr_seq 0 0 f g tau eta (fun _ => m) (fun _ => m [+] tau [*] u).
Proof.
  intros Ht Hk j. exists m. pose proof (kkt_dr_fix g f tau m (vopp u) Ht (kkt_swap _ _ _ _ Hk)) as [H1 H2]. replace (m [-] tau [*] vopp u) with (m [+] tau [*] u) in H1, H2 by vring.
  split; [exists m; split; [exact H1|apply zero_err]|]. split; [exists m; split; [exact H2|apply zero_err]|]. vring.
Qed.

(*! C90_douglas_rachford : f and g convex, one of them regular (s/2-strongly convex with L-Lipschitz gradient, 0 < s < L), eta >= 0, m with u in df(m) and
   -u in dg(m), either order: after n+1 iterations of DouglasRachfordSplitting the returned x is within q^n |x0 - y*| of m and the returned y within
   q^(n+1) |x0 - y*| of y*, where y* = m - tau u (gfirst) or m + tau u and q = |1-eta/2| + eta/2 max((1-tau s)/(1+tau s), (tau L-1)/(tau L+1)); q < 1
   for 0 < eta <= 2, and m minimises f + g *)
Lemma C90_douglas_rachford_l : forall (E : IPS) (proxf proxg : Op E) f g s L x0 tau eta (gfirst : bool) m u, impl_prox proxf f -> impl_prox proxg g -> convex f -> convex g -> 0 < s < L -> regular s L f \/ regular s L g ->
  0 < tau -> 0 <= eta -> kkt f g m u ->
  let q := Rabs (1 - eta / 2) + eta / 2 * refl_rate s L tau in let ys := if gfirst then m [-] tau [*] u else m [+] tau [*] u in
  is_min (eadd f g) m /\ (0 < eta <= 2 -> 0 <= q < 1) /\
  forall n, exists x y tr, DouglasRachford proxf proxg x0 tau eta (S n) gfirst = Ok (x, y, tr) /\ norm (x [-] m) <= q ^ n * norm (x0 [-] ys) /\ norm (y [-] ys) <= q ^ S n * norm (x0 [-] ys).
Proof.
  intros E proxf proxg f g s L x0 tau eta gfirst m u Hf Hg Cf Cg Hs Hr Ht He Hk q ys. split; [apply kkt_min with u; exact Hk|]. split.
  { intro H. destruct (C90_factors_l s L Hs) as [HF _]. destruct (HF tau Ht) as (_ & Hq & _). unfold q. rewrite Rabs_right by lra. assert (0 <= eta / 2 * refl_rate s L tau) by (apply Rmult_le_pos; lra). assert (eta / 2 * refl_rate s L tau < eta / 2 * 1) by (apply Rmult_lt_compat_l; lra). lra. }
  destruct (dr_runs proxf proxg f g x0 tau eta gfirst 0 0 (impl_approx _ _ _ Hf Ht) (impl_approx _ _ _ Hg Ht)) as (xs & yy & X0 & HX & SX).
  assert (Xf : forall x, exists p, is_prox f tau x p) by (intro v; destruct (Hf v tau Ht) as (p & _ & H); eauto). assert (Xg : forall x, exists p, is_prox g tau x p) by (intro v; destruct (Hg v tau Ht) as (p & _ & H); eauto).
  destruct (regular_pair s L f g tau Hs Ht Cf Cg Hr) as (d1 & d2 & L1 & L2 & H1 & H2 & H12).
  assert (G : forall n, norm (yy n [-] ys) <= q ^ n * norm (x0 [-] ys) /\ norm (xs n [-] m) <= norm (yy n [-] ys)).
  { rewrite <- X0. unfold q, ys. rewrite <- H12. intro n. destruct gfirst.
    - pose proof (fix_seq g f tau eta m (vopp u) Ht (kkt_swap _ _ _ _ Hk)) as SF. replace (m [+] tau [*] vopp u) with (m [-] tau [*] u) in SF by vring.
      pose proof (dr_cmp 0 0 0 0 g f tau eta d2 d1 _ _ _ _ (prox_lip_convex g tau Cg Ht) (prox_lip_convex f tau Cf Ht) L2 L1 H2 H1 He Xf SF SX n) as H. cbv zeta beta in H. rewrite (Rmult_comm d2 d1) in H. destruct H as [Ha Hb]. split; lra.
    - pose proof (dr_cmp 0 0 0 0 f g tau eta d1 d2 _ _ _ _ (prox_lip_convex f tau Cf Ht) (prox_lip_convex g tau Cg Ht) L1 L2 H1 H2 He Xg (fix_seq f g tau eta m u Ht Hk) SX n) as H. cbv zeta beta in H. destruct H as [Ha Hb]. split; lra. }
  intro n. destruct (HX n) as [tr R]. exists (xs n), (yy (S n)), tr. split; [exact R|]. split; [destruct (G n) as [Ga Gb]; lra|apply G].
Qed.

(*! C90_admm : the same problem solved by ADMM, either order: both returned vectors are within q^n D of m after n+2 iterations (the one computed last already
   after n+1), where q = 1/2 + 1/2 max((1-tau s)/(1+tau s), (tau L-1)/(tau L+1)) < 1 and D = |start - v*| + tau |u|, the start being the vector the first
   step uses and v* = m - tau u (gfirst) or m + tau u *)
Lemma C90_admm_l : forall (E : IPS) (proxf proxg : Op E) f g s L x0 z0 x z tau (gfirst : bool) m u, impl_prox proxf f -> impl_prox proxg g -> convex f -> convex g -> 0 < s < L -> regular s L f \/ regular s L g ->
  0 < tau -> kkt f g m u -> x0z0_init x0 z0 = Ok (x, z) ->
  let q := 1 / 2 + 1 / 2 * refl_rate s L tau in let D := norm (if gfirst then x [-] (m [-] tau [*] u) else z [-] (m [+] tau [*] u)) + tau * norm u in
  is_min (eadd f g) m /\ 0 <= q < 1 /\
  (forall n, exists a b tr, ADMM proxf proxg x0 tau (S n) z0 gfirst = Ok (a, b, tr) /\ norm ((if gfirst then a else b) [-] m) <= q ^ n * D) /\
  (forall n, exists a b tr, ADMM proxf proxg x0 tau (S (S n)) z0 gfirst = Ok (a, b, tr) /\ norm (a [-] m) <= q ^ n * D /\ norm (b [-] m) <= q ^ n * D).
Proof.
  intros E proxf proxg f g s L x0 z0 x z tau gfirst m u Hf Hg Cf Cg Hs Hr Ht Hk Hi q D. split; [apply kkt_min with u; exact Hk|].
  assert (Hq : 0 <= q < 1). { destruct (C90_factors_l s L Hs) as [HF _]. destruct (HF tau Ht) as (_ & Hq & _). unfold q. lra. }
  split; [exact Hq|].
  destruct (admm_runs proxf proxg f g x0 z0 x z tau gfirst 0 0 (impl_approx _ _ _ Hf Ht) (impl_approx _ _ _ Hg Ht) Hi) as (xs & zs & ss & X0 & Z0 & HX & SX).
  assert (Xf : forall x, exists p, is_prox f tau x p) by (intro v; destruct (Hf v tau Ht) as (p & _ & H); eauto). assert (Xg : forall x, exists p, is_prox g tau x p) by (intro v; destruct (Hg v tau Ht) as (p & _ & H); eauto).
  destruct (regular_pair s L f g tau Hs Ht Cf Cg Hr) as (d1 & d2 & L1 & L2 & H1 & H2 & H12).
  (* f1 applied first, f2 second *)
  assert (G : forall f1 f2 a1 a2 (ps qs : nat -> E) (p0 w : E), convex f1 -> convex f2 -> refl_lip a1 f1 tau -> refl_lip a2 f2 tau -> 0 <= a1 -> 0 <= a2 -> a1 * a2 = refl_rate s L tau -> (forall x, exists p, is_prox f1 tau x p) ->
     kkt f2 f1 m w -> dr_seq 0 0 f2 f1 tau 1 (fun k => qs (S k)) ss -> (exists p, is_prox f1 tau p0 p /\ norm (ss 0%nat [-] p) <= 0) -> (forall k, exists p, is_prox f1 tau (2 [*] qs (S k) [-] ss k) p /\ norm (ps (S (S k)) [-] p) <= 0) ->
     forall n, let d := norm (p0 [-] (m [-] tau [*] w)) + tau * norm w in norm (qs (S n) [-] m) <= q ^ n * d /\ norm (ps (S (S n)) [-] m) <= q ^ n * d).
  { clear - Ht Hq. intros f1 f2 a1 a2 ps qs p0 w C1 C2 L1 L2 H1 H2 H12 Xf Hk S1 (a & Ha & Hae) T n. cbv zeta.
    pose proof (dr_cmp 0 0 0 0 f2 f1 tau 1 a2 a1 _ _ _ _ (prox_lip_convex f2 tau C2 Ht) (prox_lip_convex f1 tau C1 Ht) L2 L1 H2 H1 ltac:(lra) Xf (fix_seq f2 f1 tau 1 m w Ht Hk) S1) as H. cbv zeta beta in H.
    replace (Rabs (1 - 1 / 2) + 1 / 2 * (a2 * a1)) with q in H by (unfold q; rewrite Rabs_right, (Rmult_comm a2 a1), H12 by lra; field). destruct (H n) as [Hn Hm].
    destruct (kkt_dr_fix f2 f1 tau m w Ht Hk) as [K1 K2].
    assert (H0 : norm (ss 0%nat [-] (m [+] tau [*] w)) <= norm (p0 [-] (m [-] tau [*] w)) + tau * norm w).
    { pose proof (prox_nonexp f1 tau _ _ _ _ C1 Ht Ha K1) as Hp. pose proof (tri3 (ss 0%nat) m (m [+] tau [*] w)) as T1. pose proof (tri3 (ss 0%nat) a m) as T2.
      replace (m [-] (m [+] tau [*] w)) with ((- tau) [*] w) in T1 by vring. rewrite norm_scal, Rabs_Ropp, Rabs_right in T1 by lra. lra. }
    assert (Hqn : 0 <= q ^ n) by (apply pow_le; lra). pose proof (Rmult_le_compat_l _ _ _ Hqn H0) as H3.
    assert (Hsn : norm (ss n [-] (m [+] tau [*] w)) <= q ^ n * (norm (p0 [-] (m [-] tau [*] w)) + tau * norm w)) by lra.
    split; [lra|]. destruct (T n) as (b & Hb & Hbe). pose proof (prox_nonexp f1 tau _ _ _ _ C1 Ht Hb K1) as Hn2. pose proof (tri3 (ps (S (S n))) b m) as T3.
    destruct (S1 n) as (_ & (c & Hc & Hce) & _). destruct (fix_seq f2 f1 tau 1 m w Ht Hk n) as (_ & (c' & Hc' & Hce') & _). pose proof (refl_lip_convex f2 tau C2 Ht _ _ _ _ Hc Hc') as Hr. rewrite Rmult_1_l in Hr.
    assert (Z : forall (a b : E), norm (a [-] b) <= 0 -> a = b). { intros v1 v2 Hz. apply norm2_sub_eq0. rewrite <- norm_sq. pose proof (norm_nonneg (v1 [-] v2)). replace (norm (v1 [-] v2)) with 0 by lra. ring. }
    apply Z in Hce. apply Z in Hce'. rewrite <- Hce, <- Hce' in Hr. replace (2 [*] m [-] (m [+] tau [*] w)) with (m [-] tau [*] w) in Hr by vring. lra. }
  assert (GG : forall n, norm ((if gfirst then xs (S n) else zs (S n)) [-] m) <= q ^ n * D /\ norm ((if gfirst then zs (S (S n)) else xs (S (S n))) [-] m) <= q ^ n * D).
  { intro n. unfold D. destruct gfirst; destruct SX as (A1 & A2 & A3).
    - apply (G g f d2 d1 zs xs x u); auto. rewrite Rmult_comm; exact H12.
    - pose proof (G f g d1 d2 xs zs z (vopp u) Cf Cg L1 L2 H1 H2 H12 Xf (kkt_swap _ _ _ _ Hk) A1 A2 A3 n) as H. cbv zeta in H. replace (m [-] tau [*] vopp u) with (m [+] tau [*] u) in H by vring. replace (norm (vopp u)) with (norm u) in H by (unfold norm; f_equal; unfold norm2; inner_lin_all; ring). exact H. }
  assert (HD : 0 <= D) by (unfold D; apply Rplus_le_le_0_compat; [apply norm_nonneg|apply Rmult_le_pos; [lra|apply norm_nonneg]]).
  split; intro n.
  - destruct (HX (S n)) as [tr R]. exists (xs (S n)), (zs (S n)), tr. split; [exact R|]. destruct (GG n) as [GA _]. destruct gfirst; exact GA.
  - destruct (HX (S (S n))) as [tr R]. exists (xs (S (S n))), (zs (S (S n))), tr. split; [exact R|]. destruct (GG n) as [_ GB]. destruct (GG (S n)) as [GA _].
    assert (HP : q ^ S n * D <= q ^ n * D). { apply Rmult_le_compat_r; [exact HD|]. cbn [pow]. rewrite <- (Rmult_1_l (q ^ n)) at 2. apply Rmult_le_compat_r; [apply pow_le|]; lra. }
    destruct gfirst; split; lra.
Qed.

(*! C90_hqs : f - sf/2|.|^2 and g - sg/2|.|^2 convex, (xo, zo) minimising f(x) + g(z) + |x-z|^2/(2 tau): with q = 1/((1+tau sf)(1+tau sg)) (below 1 when sf or sg
   is positive) the vector that HQS computes last in each iteration is within q^n |start - limit| of its limit after n iterations, and the other one, after
   n+1 iterations, within the same distance of its own limit *)
Lemma C90_hqs_l : forall (E : IPS) (proxf proxg : Op E) f g sf sg x0 z0 x z tau (gfirst : bool) xo zo, impl_prox proxf f -> impl_prox proxg g -> 0 <= sf -> 0 <= sg -> strongly_convex sf f -> strongly_convex sg g ->
  0 < tau -> x0z0_init x0 z0 = Ok (x, z) -> hqs_min f g tau xo zo ->
  let q := / (1 + tau * sf) * / (1 + tau * sg) in let D := norm (if gfirst then x [-] xo else z [-] zo) in
  (0 < sf \/ 0 < sg -> 0 < q < 1) /\
  (forall n, exists a b tr, HQS proxf proxg x0 [tau] n z0 gfirst = Ok (a, b, tr) /\ norm (if gfirst then a [-] xo else b [-] zo) <= q ^ n * D) /\
  (forall n, exists a b tr, HQS proxf proxg x0 [tau] (S n) z0 gfirst = Ok (a, b, tr) /\ norm (if gfirst then b [-] zo else a [-] xo) <= q ^ n * D).
Proof.
  intros E proxf proxg f g sf sg x0 z0 x z tau gfirst xo zo Hf Hg Hsf Hsg Sf Sg Ht Hi Hm q D.
  assert (Hqf : 0 < / (1 + tau * sf) <= 1) by (apply inv1_nn, Rmult_le_pos; lra). assert (Hqg : 0 < / (1 + tau * sg) <= 1) by (apply inv1_nn, Rmult_le_pos; lra). split.
  { intro Hor. unfold q. split; [apply Rmult_lt_0_compat; lra|]. destruct Hor as [Hor|Hor].
    - pose proof (inv1_bound (tau * sf) ltac:(apply Rmult_lt_0_compat; lra)) as H. apply Rle_lt_trans with (/ (1 + tau * sf) * 1); [apply Rmult_le_compat_l; lra|lra].
    - pose proof (inv1_bound (tau * sg) ltac:(apply Rmult_lt_0_compat; lra)) as H. apply Rle_lt_trans with (1 * / (1 + tau * sg)); [apply Rmult_le_compat_r; lra|lra]. }
  apply hqs_min_fix in Hm; [|apply strong_convex with sf; auto|apply strong_convex with sg; auto|exact Ht]. destruct Hm as [Fz Fx].
  destruct (hqs_runs proxf proxg f g x0 z0 x z tau gfirst 0 0 (impl_approx _ _ _ Hf Ht) (impl_approx _ _ _ Hg Ht) Hi) as (xs & zs & X0 & Z0 & HX & SX).
  assert (Lf : prox_lip (/ (1 + tau * sf)) f tau) by (apply prox_lip_strong; auto). assert (Lg : prox_lip (/ (1 + tau * sg)) g tau) by (apply prox_lip_strong; auto).
  assert (G : forall n, norm (if gfirst then xs n [-] xo else zs n [-] zo) <= q ^ n * D /\ norm (if gfirst then zs (S n) [-] zo else xs (S n) [-] xo) <= norm (if gfirst then xs n [-] xo else zs n [-] zo)).
  { intro n. unfold q, D. rewrite <- X0, <- Z0. destruct gfirst.
    - assert (SF : hqs_seq 0 0 g f tau (fun _ => zo) (fun _ => xo)) by (intro j; split; [exists zo|exists xo]; (split; [assumption|apply zero_err])).
      pose proof (hqs_cmp 0 0 0 0 g f tau _ _ _ _ _ _ Lg Lf ltac:(lra) ltac:(lra) SF SX n) as H. cbv zeta beta in H. rewrite (Rmult_comm (/ (1 + tau * sg))) in H. destruct H as [Ha Hb]. rewrite !Rplus_0_r, Rmult_0_r, Rplus_0_r, Rmult_0_l, Rplus_0_r in Ha. rewrite !Rplus_0_r in Hb. split; [exact Ha|].
      eapply Rle_trans; [exact Hb|]. rewrite <- (Rmult_1_l (norm (xs n [-] xo))) at 2. apply Rmult_le_compat_r; [apply norm_nonneg|lra].
    - assert (SF : hqs_seq 0 0 f g tau (fun _ => xo) (fun _ => zo)) by (intro j; split; [exists xo|exists zo]; (split; [assumption|apply zero_err])).
      pose proof (hqs_cmp 0 0 0 0 f g tau _ _ _ _ _ _ Lf Lg ltac:(lra) ltac:(lra) SF SX n) as H. cbv zeta beta in H. destruct H as [Ha Hb]. rewrite !Rplus_0_r, Rmult_0_r, Rplus_0_r, Rmult_0_l, Rplus_0_r in Ha. rewrite !Rplus_0_r in Hb. split; [exact Ha|].
      eapply Rle_trans; [exact Hb|]. rewrite <- (Rmult_1_l (norm (zs n [-] zo))) at 2. apply Rmult_le_compat_r; [apply norm_nonneg|lra]. }
  split; intro n.
  - destruct (HX n) as [tr R]. exists (xs n), (zs n), tr. split; [exact R|apply G].
  - destruct (HX (S n)) as [tr R]. exists (xs (S n)), (zs (S n)), tr. split; [exact R|]. destruct (G n). lra.
Qed.

Lemma pd_start {E F : IPS} (A : linop E F) gs tau mu kappa (x0 xo : E) (y0 yo y1 y1' : F) : 0 < tau -> 0 < mu -> 0 <= kappa < 1 -> (forall a, tau * mu * norm2 (lapp A a) <= kappa * norm2 a) -> convex gs ->
  is_prox gs mu (y0 [+] mu [*] lapp A x0) y1 -> is_prox gs mu (yo [+] mu [*] lapp A xo) y1' -> wnorm tau mu (x0 [-] xo) (y1 [-] y1') <= 3 * wnorm tau mu (x0 [-] xo) (y0 [-] yo).
Proof.
  intros Ht Hm Hk HA Cg P1 P2. set (W := wnorm tau mu (x0 [-] xo) (y0 [-] yo)). assert (St : 0 < sqrt tau) by (apply sqrt_lt_R0; exact Ht). assert (Sm : 0 < sqrt mu) by (apply sqrt_lt_R0; exact Hm). pose proof (sqrtk kappa Hk) as K.
  pose proof (Rinv_0_lt_compat _ St) as It. pose proof (Rinv_0_lt_compat _ Sm) as Im. eapply Rle_trans; [apply wnorm_le; assumption|].
  assert (H1 : norm (x0 [-] xo) / sqrt tau <= W). { pose proof (wnorm_fst tau mu Ht Hm (x0 [-] xo) (y0 [-] yo)) as Hw. fold W in Hw. apply (Rmult_le_reg_l (sqrt tau)); [exact St|]. replace (sqrt tau * (norm (x0 [-] xo) / sqrt tau)) with (norm (x0 [-] xo)) by (field; lra). exact Hw. }
  assert (H2 : norm (y0 [-] yo) / sqrt mu <= W). { pose proof (wnorm_snd tau mu Ht Hm (x0 [-] xo) (y0 [-] yo)) as Hw. fold W in Hw. apply (Rmult_le_reg_l (sqrt mu)); [exact Sm|]. replace (sqrt mu * (norm (y0 [-] yo) / sqrt mu)) with (norm (y0 [-] yo)) by (field; lra). exact Hw. }
  pose proof (prox_nonexp gs mu _ _ _ _ Cg Hm P1 P2) as H3.
  replace (y0 [+] mu [*] lapp A x0 [-] (yo [+] mu [*] lapp A xo)) with ((y0 [-] yo) [+] mu [*] lapp A (x0 [-] xo)) in H3 by (rewrite lapp_sub; vring).
  pose proof (norm_triangle (y0 [-] yo) (mu [*] lapp A (x0 [-] xo))) as H4. rewrite norm_scal, (Rabs_right mu) in H4 by lra.
  pose proof (lapp_norm A tau mu kappa Ht Hm Hk HA (x0 [-] xo)) as H5.
  assert (H6 : norm (y1 [-] y1') / sqrt mu <= norm (y0 [-] yo) / sqrt mu + norm (lapp A (x0 [-] xo)) * sqrt mu).
  { apply Rle_trans with ((norm (y0 [-] yo) + mu * norm (lapp A (x0 [-] xo))) * / sqrt mu); [apply Rmult_le_compat_r; lra|].
    replace (mu * norm (lapp A (x0 [-] xo))) with (sqrt mu * sqrt mu * norm (lapp A (x0 [-] xo))) by (rewrite sqrt_sqrt by lra; reflexivity). right. field. lra. }
  assert (H7 : sqrt kappa / sqrt tau * norm (x0 [-] xo) <= norm (x0 [-] xo) / sqrt tau).
  { replace (sqrt kappa / sqrt tau * norm (x0 [-] xo)) with (sqrt kappa * (norm (x0 [-] xo) / sqrt tau)) by (field; lra). rewrite <- (Rmult_1_l (norm (x0 [-] xo) / sqrt tau)) at 2. apply Rmult_le_compat_r; [|lra]. apply Rmult_le_pos; [apply norm_nonneg|lra]. }
  lra.
Qed.

(*! C90_primal_dual : f - sf/2|.|^2 and g* - sg/2|.|^2 convex, theta = 1, tau mu |A|^2 <= kappa < 1, (xo, yo) a saddle point, either order: PrimalDual returns after
   n iterations an x within sqrt(tau) q^n D of xo and after n+1 iterations a y within sqrt(mu) q^n D of yo, where q = 1/(1 + min(sf tau, sg mu)/(1 + sqrt kappa))
   (below 1 when sf, sg > 0) and D = 3 sqrt((1 + sqrt kappa)/(1 - sqrt kappa)) sqrt(|x0-xo|^2/tau + |y0-yo|^2/mu) *)
Lemma C90_primal_dual_l : forall (E F : IPS) (A : linop E F) proxf proxg f gs sf sg alias x0 tau mu kappa y0 z (gfirst : bool) xo yo, impl_prox proxf f -> impl_proxdual proxg gs ->
  0 <= sf -> 0 <= sg -> strongly_convex sf f -> strongly_convex sg gs -> 0 < tau -> 0 < mu -> 0 <= kappa < 1 -> (forall a, tau * mu * norm2 (lapp A a) <= kappa * norm2 a) -> alias = None \/ z = None ->
  saddle A f gs (zvec z) xo yo ->
  let q := / (1 + Rmin (sf * tau) (sg * mu) / (1 + sqrt kappa)) in let D := 3 * sqrt ((1 + sqrt kappa) / (1 - sqrt kappa)) * wnorm tau mu (x0 [-] xo) (y0vec y0 [-] yo) in
  (0 < sf -> 0 < sg -> 0 < q < 1) /\
  (forall n, exists x y tr, PrimalDual proxf proxg A alias x0 (Scalar tau) (Scalar mu) y0 z 1 n gfirst = Ok (x, y, tr) /\ norm (x [-] xo) <= sqrt tau * (q ^ n * D)) /\
  (forall n, exists x y tr, PrimalDual proxf proxg A alias x0 (Scalar tau) (Scalar mu) y0 z 1 (S n) gfirst = Ok (x, y, tr) /\ norm (y [-] yo) <= sqrt mu * (q ^ n * D)).
Proof.
  intros E F A proxf proxg f gs sf sg alias x0 tau mu kappa y0 z gfirst xo yo Hf Hg Hsf Hsg Sf Sg Ht Hm Hk HA Hal [Sad1 Sad2] q D.
  pose proof (sqrtk kappa Hk) as K. assert (Hgain : 0 <= Rmin (sf * tau) (sg * mu) / (1 + sqrt kappa)) by (apply (pd_gain_nonneg tau mu kappa); auto).
  assert (Hq : 0 < q <= 1) by (apply inv1_nn; exact Hgain). split.
  { intros H1 H2. apply inv1_bound. apply Rdiv_lt_0_compat; [|lra]. apply Rmin_glb_lt; apply Rmult_lt_0_compat; lra. }
  destruct (pd_runs A proxf proxg f gs alias x0 tau mu y0 z gfirst 0 0 (impl_approx _ _ _ Hf Ht) (impl_approx_dual _ _ _ Hg Hm) Hal) as (xs & ys & X0 & Y0 & HX & SX).
  pose proof (strong_convex gs sg Hsg Sg) as Cg. assert (St : 0 < sqrt tau) by (apply sqrt_lt_R0; exact Ht). assert (Sm : 0 < sqrt mu) by (apply sqrt_lt_R0; exact Hm).
  assert (Fx : is_prox f tau (xo [-] tau [*] (ladj A yo [+] zvec z)) xo). { apply subgrad_prox; [exact Ht|]. replace (/ tau [*] (xo [-] tau [*] (ladj A yo [+] zvec z) [-] xo)) with (vopp (ladj A yo [+] zvec z)) by (vfield; lra). exact Sad1. }
  assert (Fy : is_prox gs mu (yo [+] mu [*] lapp A xo) yo). { apply subgrad_prox; [exact Hm|]. replace (/ mu [*] (yo [+] mu [*] lapp A xo [-] yo)) with (lapp A xo) by (vfield; lra). exact Sad2. }
  assert (SF : pd_seq A tau mu f gs (zvec z) 0 0 (fun _ => xo) (fun _ => yo)).
  { intro j. split; [exists xo|exists yo]; (split; [|apply zero_err]); [exact Fx|]. replace (xo [+] 1 [*] (xo [-] xo)) with xo by vring. exact Fy. }
  set (C := sqrt ((1 + sqrt kappa) / (1 - sqrt kappa))) in *. set (W := wnorm tau mu (x0 [-] xo) (y0vec y0 [-] yo)) in *. assert (HC : 0 <= C) by apply sqrt_pos. assert (HW : 0 <= W) by apply sqrt_pos. assert (HCW : 0 <= C * W) by (apply Rmult_le_pos; auto).
  assert (HD : D = C * (3 * W)) by (unfold D; ring).
  assert (Hqn : forall n, 0 <= q ^ n) by (intro n; apply pow_le; lra).
  assert (Hdec : forall n, q ^ S n * D <= q ^ n * D). { intro n. apply Rmult_le_compat_r; [rewrite HD; lra|]. cbn [pow]. rewrite <- (Rmult_1_l (q ^ n)) at 2. apply Rmult_le_compat_r; [apply Hqn|lra]. }
  assert (Z : forall (G : IPS) (a b : G), norm (a [-] b) <= 0 -> a = b). { intros G v1 v2 Hz. apply norm2_sub_eq0. rewrite <- norm_sq. pose proof (norm_nonneg (v1 [-] v2)). replace (norm (v1 [-] v2)) with 0 by lra. ring. }
  assert (G : forall n, norm (xs n [-] xo) <= sqrt tau * (q ^ n * D) /\ norm (ys (S n) [-] yo) <= sqrt mu * (q ^ n * D)).
  { destruct gfirst.
    - destruct SX as (A1 & (p & Hp & Hpe)). apply Z in Hpe. rewrite <- Hpe in Hp. pose proof (pd_start A gs tau mu kappa x0 xo _ _ _ _ Ht Hm Hk HA Cg Hp Fy) as H0. fold W in H0.
      intro n. pose proof (pd_rate A tau mu kappa Ht Hm Hk HA f gs (zvec z) sf sg Sf Sg Hsf Hsg _ _ _ _ SF A1 n) as H. cbv beta in H. fold C in H. change (/ (1 + pd_gain tau mu kappa sf sg)) with q in H. rewrite X0 in H.
      assert (HH : wnorm tau mu (xs n [-] xo) (ys (S n) [-] yo) <= q ^ n * D). { eapply Rle_trans; [exact H|]. rewrite HD. replace (q ^ n * (C * (3 * W))) with (C * (q ^ n * (3 * W))) by ring. apply Rmult_le_compat_l; [exact HC|]. apply Rmult_le_compat_l; [apply Hqn|exact H0]. }
      split; [eapply Rle_trans; [apply (wnorm_fst tau mu Ht Hm _ (ys (S n) [-] yo))|]|eapply Rle_trans; [apply (wnorm_snd tau mu Ht Hm (xs n [-] xo))|]]; apply Rmult_le_compat_l; lra.
    - assert (HH : forall n, wnorm tau mu (xs n [-] xo) (ys n [-] yo) <= q ^ n * D).
      { intro n. pose proof (pd_rate A tau mu kappa Ht Hm Hk HA f gs (zvec z) sf sg Sf Sg Hsf Hsg _ _ _ _ SF SX n) as H. cbv beta in H. fold C in H. change (/ (1 + pd_gain tau mu kappa sf sg)) with q in H. rewrite X0, Y0 in H. fold W in H.
        eapply Rle_trans; [exact H|]. rewrite HD. replace (q ^ n * (C * (3 * W))) with (C * (q ^ n * (3 * W))) by ring. apply Rmult_le_compat_l; [exact HC|]. apply Rmult_le_compat_l; [apply Hqn|lra]. }
      intro n. split.
      + eapply Rle_trans; [apply (wnorm_fst tau mu Ht Hm _ (ys n [-] yo))|]. apply Rmult_le_compat_l; [lra|apply HH].
      + eapply Rle_trans; [apply (wnorm_snd tau mu Ht Hm (xs (S n) [-] xo))|]. apply Rmult_le_compat_l; [lra|]. eapply Rle_trans; [apply HH|apply Hdec]. }
  split; intro n.
  - destruct (HX n) as [tr R]. exists (xs n), (ys n), tr. split; [exact R|apply G].
  - destruct (HX (S n)) as [tr R]. exists (xs (S n)), (ys (S n)), tr. split; [exact R|apply G].
Qed.

(*! C90_sharp : the factors cannot be improved: on the square c/2 x^2 of the real line ProximalPoint returns exactly x0/(1 + tau c)^n, and ProximalGradient with
   g = 0 returns exactly (1 - tau c)^n x0 (take c = s or c = L) *)
Lemma C90_sharp_l : forall c tau (x0 : R) n, 0 < c -> 0 < tau ->
  (exists tr, ProximalPoint (quad1 c) (x0 : R_IPS) tau n None = Ok ((/ (1 + tau * c)) ^ n * x0, tr)) /\
  (exists tr, ProximalGradient (quad1 c) zero1 (x0 : R_IPS) [1] (Some tau) false 1 1 (S n) 1 None None = Ok ((1 - tau * c) ^ S n * x0, tr)).
Proof.
  intros c tau x0 n Hc Ht. split.
  - assert (G : forall m i (x : R) tr, exists tr' k, for_loop (pp_body (quad1 c) tau None) m i (PP (x : R_IPS) None tr) = Ok (PP ((/ (1 + tau * c)) ^ m * x : R_IPS) None tr', k)).
    { induction m as [|m IH]; intros i x tr.
      - exists tr, i. cbn [for_loop pow]. rewrite Rmult_1_l. reflexivity.
      - cbn [for_loop]. unfold pp_body at 1. cbn [o_prox quad1 pp_x pp_pf pp_tr bind fst snd]. destruct (IH (S i) (x / (1 + tau * c)) (tr ++ [x / (1 + tau * c)])) as (tr' & k & Hk). exists tr', k. etransitivity; [exact Hk|].
        assert (EQ : (/ (1 + tau * c)) ^ m * (x / (1 + tau * c)) = (/ (1 + tau * c)) ^ S m * x) by (cbn [pow]; unfold Rdiv; ring). rewrite EQ. reflexivity. }
    unfold ProximalPoint. destruct (G n 0%nat x0 []) as (tr' & k & Hk). rewrite Hk. cbn [bind fst pp_x pp_tr]. exists tr'. reflexivity.
  - pose proof (quad1_smooth c Hc) as (_ & Hgr & _ & _ & _).
    assert (Hga : approx_grad 0 (quad1 c) (fun x : R_IPS => c * x)). { intro x. exists (c * x). split; [apply Hgr|apply zero_err]. }
    assert (Cz : convex (etot (E:=R_IPS) (fun _ => 0))) by (intros x y t _ _ _; split; [exact I|cbn; lra]).
    assert (Ht1 : 0 < 1 * tau) by lra.
    destruct (pg_runs (quad1 c) zero1 (fun x : R_IPS => c * x) (etot (E:=R_IPS) (fun _ => 0)) 1 x0 tau 1 1 1 None 0 0 1 Hga (impl_approx _ _ _ zero1_prox Ht1) (prox_lip_convex _ _ Cz Ht1) ltac:(lra) Ht ltac:(lra) (or_introl eq_refl)) as (xs & X0 & HX & SX).
    exists (map xs (seq 1 (S n))). rewrite HX.
    assert (G : forall k, xs k = (1 - tau * c) ^ k * x0).
    { induction k as [|k IH]; [rewrite X0; cbn [pow]; symmetry; apply Rmult_1_l|]. destruct (SX k) as (p & Hp & He). replace (1 * (0 + 1 * (tau * 0))) with 0 in He by ring.
      assert (Hp' : p = vsub (E:=R_IPS) (xs k) (vscal (i:=R_IPS) tau (c * xs k))).
      { destruct (zero1_prox (vsub (E:=R_IPS) (xs k) (vscal (i:=R_IPS) tau (c * xs k))) (1 * tau) Ht1) as (p' & Ep & Hp'). cbn in Ep. injection Ep as <-. exact (prox_unique _ _ _ _ _ Cz Ht1 Hp Hp'). }
      assert (He2 : xs (S k) = vadd (i:=R_IPS) (xs k) (vscal (i:=R_IPS) 1 (vsub (E:=R_IPS) p (xs k)))). { apply norm2_sub_eq0. rewrite <- norm_sq. pose proof (norm_nonneg (E:=R_IPS) (vsub (E:=R_IPS) (xs (S k)) (vadd (i:=R_IPS) (xs k) (vscal (i:=R_IPS) 1 (vsub (E:=R_IPS) p (xs k)))))) as N. assert (Hz : norm (vsub (E:=R_IPS) (xs (S k)) (vadd (i:=R_IPS) (xs k) (vscal (i:=R_IPS) 1 (vsub (E:=R_IPS) p (xs k))))) = 0) by lra. rewrite Hz. ring. }
      rewrite He2, Hp', IH. cbn. ring. }
    rewrite G. reflexivity.
Qed.

(*!ex C90_example : x^2/2 on the real line with its own conjugate meets all the hypotheses with s = 1/2, L = 1 (f = g = f* = x^2/2, A = identity, tau = mu = 1/2, kappa = 1/4, solution 0) *)
Lemma C90_example_l : let f := etot (E:=R_IPS) (fun x : R_IPS => 1 / 2 * (x * x)) in
  impl_prox half1 f /\ impl_proxdual half1 f /\ smooth_op (quad1 1) (fun x : R_IPS => 1 / 2 * (x * x)) (fun x : R_IPS => 1 * x) 1 /\ strongly_convex (1 / 2) f /\ regular (1 / 2) 1 f /\ is_min f (0 : R_IPS) /\
  is_min (eadd f (escal 1 f)) (0 : R_IPS) /\ kkt f f (0 : R_IPS) (0 : R_IPS) /\ hqs_min f f 1 (0 : R_IPS) (0 : R_IPS) /\ saddle (id_linop R_IPS) f f (zvec None) (0 : R_IPS) (0 : R_IPS) /\
  (forall a : R_IPS, 1 / 2 * (1 / 2) * norm2 (lapp (id_linop R_IPS) a) <= 1 / 4 * norm2 a) /\ refl_rate (1 / 2) 1 1 = 1 / 3 /\ x0z0_init (Some (1 : R_IPS)) None = Ok (1, 1).
Proof.
  intro f. destruct (C89_example_l 0 (Rle_refl 0)) as (_ & _ & Hst & Hls & _ & _ & _ & _ & Hmin & Hk & Hsad & HA & _).
  split; [apply half1_prox|]. split; [apply half1_proxdual|]. split; [apply quad1_smooth; lra|]. split; [exact Hst|]. split; [exists (fun x : R_IPS => 1 / 2 * (x * x)), (fun x : R_IPS => x); auto|]. split; [exact Hmin|]. split.
  { split; [split; exact I|]. intros y _. cbn. pose proof (Rle_0_sqr y). unfold Rsqr in *. nra. }
  split; [exact Hk|]. split.
  { split; [exact I|]. split; [exact I|]. intros w v _ _. pose proof (norm2_nonneg (vsub (E:=R_IPS) w v)) as Hn. replace (norm2 (vsub (E:=R_IPS) (0 : R_IPS) (0 : R_IPS))) with 0 by (unfold norm2; cbn; ring). cbn [eval f etot]. pose proof (Rle_0_sqr w). pose proof (Rle_0_sqr v). unfold Rsqr in *. lra. }
  split; [exact Hsad|]. split; [exact HA|]. split; [|reflexivity].
  unfold refl_rate. rewrite Rmax_left; lra.
Qed.
