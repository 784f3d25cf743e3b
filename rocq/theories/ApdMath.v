(** * Convergence of the primal-dual recursion with varying steps *)
From Coq Require Import Psatz.
From Verif Require Import Base Space Spec ConvexFacts Smooth VSum M_ProxOp SpecOps SplitMath P_PD Compact Fejer IterMath IterMath2.
Open Scope R_scope.

(** Fejer monotonicity in metrics that change *)
Lemma fejer_cvVk {E : IPS} (u : nat -> E) (Sol : E -> Prop) (V : nat -> E -> R) c : bw E -> 0 < c -> (forall k d, c * norm2 d <= V k d) ->
  (forall w phi, vcv w vzero -> Un_cv (fun k => V (phi k) (w k)) 0) -> (exists s, Sol s) -> (forall s k, Sol s -> V (S k) (u (S k) [-] s) <= V k (u k [-] s)) ->
  (forall l phi, strict_inc phi -> vcv (fun k => u (phi k)) l -> Sol l) -> exists l, Sol l /\ vcv u l.
Proof.
  intros HB Hc HV HVc [s Hs] Hf Hcl.
  assert (HVp : forall k d, 0 <= V k d) by (intros k d; specialize (HV k d); pose proof (norm2_nonneg d); nra).
  destruct (HB u (sqrt (V 0%nat (u 0%nat [-] s) / c) + norm s)) as (l & phi & Hi & Hl).
  { intro k. assert (H1 : norm (u k [-] s) <= sqrt (V 0%nat (u 0%nat [-] s) / c)).
    { apply sqrt_le_1_alt. pose proof (dec_le (fun k => V k (u k [-] s)) (fun j => Hf s j Hs) k) as H. cbn beta in H. specialize (HV k (u k [-] s)).
      apply (Rmult_le_reg_l c); [exact Hc|]. replace (c * (V 0%nat (u 0%nat [-] s) / c)) with (V 0%nat (u 0%nat [-] s)) by (field; lra). lra. }
    pose proof (norm_triangle (u k [-] s) s) as H2. replace (u k [-] s [+] s) with (u k) in H2 by vring. lra. }
  exists l. assert (Sl : Sol l) by (eapply Hcl; eauto). split; [exact Sl|].
  assert (HVl : Un_cv (fun k => V k (u k [-] l)) 0).
  { apply (dec_sub _ phi); [intro k; apply Hf; exact Sl|intro; apply HVp|exact Hi|]. apply (HVc (fun k => u (phi k) [-] l)).
    replace (vzero : E) with (l [-] l) by vring. apply vcv_minus; [exact Hl|apply vcv_const]. }
  apply vcv_iff2. apply (Un_cv_squeeze _ (fun k => / c * V k (u k [-] l))).
  - intro k. split; [apply norm2_nonneg|]. specialize (HV k (u k [-] l)). apply (Rmult_le_reg_l c); [exact Hc|]. rewrite <- Rmult_assoc, Rinv_r, Rmult_1_l by lra. exact HV.
  - replace 0 with (/ c * 0) by ring. apply (CV_mult (fun _ => / c)); [apply Un_cv_const|exact HVl].
Qed.

Section Metric.
Context {E F : IPS} (A : linop E F) (tau mu s : R).
Hypothesis Ht : 0 < tau.
Hypothesis Hm : 0 < mu.
Hypothesis Hs : 0 <= s < 1.
Hypothesis HA : forall a, tau * mu * norm2 (lapp A a) <= s * s * norm2 a.

Lemma pd_dist_nonneg (a : E) (b : F) : 0 <= pd_dist tau mu a b.
Proof.
  unfold pd_dist. apply Rplus_le_le_0_compat; apply Rmult_le_pos; try apply norm2_nonneg; left; apply Rinv_0_lt_compat; lra.
Qed.
Lemma metric_low a b : (1 - s) * pd_dist tau mu a b <= pd_metric A tau mu a b.
Proof.
  unfold pd_metric. assert (HY : << lapp A a, b >> <= s * pd_dist tau mu a b); [|lra].
  unfold pd_dist. destruct (Req_dec s 0) as [Hs0|Hs0].
  - assert (Htm : 0 < tau * mu) by (apply Rmult_lt_0_compat; assumption).
    assert (Ha0 : norm2 (lapp A a) = 0). { specialize (HA a). rewrite Hs0 in HA. pose proof (norm2_nonneg (lapp A a)). nra. }
    apply norm2_eq0 in Ha0. rewrite Ha0, inner_zero_l, Hs0. lra.
  - assert (Hsp : 0 < s) by lra. pose proof (norm2_nonneg (mu [*] lapp A a [-] s [*] b)) as H. rewrite norm2_sub, !norm2_scal, inner_scal_l, inner_scal_r in H.
    apply (Rmult_le_reg_l (2 * mu * s)); [apply Rmult_lt_0_compat; lra|].
    replace (2 * mu * s * (s * (/ (2 * tau) * norm2 a + / (2 * mu) * norm2 b))) with (s * s * (mu / tau * norm2 a) + s * s * norm2 b) by (field; lra).
    assert (H2 : mu * mu * norm2 (lapp A a) <= s * s * (mu / tau * norm2 a)).
    { specialize (HA a). apply (Rmult_le_compat_l (mu / tau)) in HA; [|left; apply Rdiv_lt_0_compat; lra]. replace (mu / tau * (tau * mu * norm2 (lapp A a))) with (mu * mu * norm2 (lapp A a)) in HA by (field; lra). lra. }
    lra.
Qed.
Lemma metric_up a b : pd_metric A tau mu a b <= 2 * pd_dist tau mu a b.
Proof.
  unfold pd_metric. assert (HA1 : forall a, tau * mu * norm2 (lapp A a) <= norm2 a) by (intro v; specialize (HA v); pose proof (norm2_nonneg v); assert (s * s <= 1) by nra; assert (s * s * norm2 v <= 1 * norm2 v) by (apply Rmult_le_compat_r; lra); lra).
  pose proof (pd_young' A tau mu Ht Hm HA1 a b). lra.
Qed.
End Metric.

Section PD.
Context {E F : IPS} (A : linop E F) (f : efun E) (gs : efun F) (z : E).
Lemma pd_cv_var (tau mu al : nat -> R) P K kappa (xs : nat -> E) (ys : nat -> F) : bw E -> bw F -> convex f -> convex gs -> 0 <= kappa < 1 -> 0 <= K ->
  (forall k, 0 < tau k /\ 0 < mu k /\ tau k * mu k = P) -> (forall k, 0 <= al k /\ al (S k) <= al k) ->
  (forall k, tau (S k) <= (1 + K * (al k - al (S k))) * tau k /\ tau k <= (1 + K * (al k - al (S k))) * tau (S k)) ->
  (forall a, P * norm2 (lapp A a) <= kappa * norm2 a) ->
  (forall x, exists p, is_prox f 1 x p) -> (forall y, exists p, is_prox gs 1 y p) ->
  (forall j, is_prox f (tau j) (xs j [-] tau j [*] (ladj A (ys j) [+] z)) (xs (S j)) /\ is_prox gs (mu j) (ys j [+] mu j [*] lapp A (xs (S j) [+] 1 [*] (xs (S j) [-] xs j))) (ys (S j))) ->
  (exists xo yo, saddle A f gs z xo yo) -> exists xl yl, saddle A f gs z xl yl /\ vcv xs xl /\ vcv ys yl.
Proof.
  intros HE HF Cf Cg Hk HK Hst Hal Hvar HAP Ef Eg Hr (xo & yo & Ho).
  assert (HP : 0 < P) by (destruct (Hst 0%nat) as (H1 & H2 & <-); apply Rmult_lt_0_compat; assumption).
  set (s := sqrt kappa). assert (Hs : 0 <= s < 1). { split; [apply sqrt_pos|]. unfold s. rewrite <- sqrt_1. apply sqrt_lt_1; lra. }
  assert (Hss : s * s = kappa) by (apply sqrt_sqrt; lra).
  assert (HA : forall k a, tau k * mu k * norm2 (lapp A a) <= s * s * norm2 a) by (intros k a; destruct (Hst k) as (_ & _ & ->); rewrite Hss; apply HAP).
  set (C := kappa / P). assert (HC : 0 <= C) by (unfold C, Rdiv; apply Rmult_le_pos; [lra|left; apply Rinv_0_lt_compat; exact HP]).
  assert (HAC : forall a, norm2 (lapp A a) <= C * norm2 a).
  { intro a. unfold C. apply (Rmult_le_reg_l P); [exact HP|]. replace (P * (kappa / P * norm2 a)) with (kappa * norm2 a) by (field; lra). apply HAP. }
  assert (Hmuvar : forall k, mu (S k) <= (1 + K * (al k - al (S k))) * mu k /\ mu k <= (1 + K * (al k - al (S k))) * mu (S k)).
  { intro k. destruct (Hst k) as (T1 & M1 & E1). destruct (Hst (S k)) as (T2 & M2 & E2). destruct (Hvar k) as [V1 V2]. set (q := 1 + K * (al k - al (S k))) in *.
    split; [apply (Rmult_le_reg_l (tau k * tau (S k)))|apply (Rmult_le_reg_l (tau k * tau (S k)))]; try (apply Rmult_lt_0_compat; assumption).
    - replace (tau k * tau (S k) * mu (S k)) with (P * tau k) by (rewrite <- E2; ring). replace (tau k * tau (S k) * (q * mu k)) with (P * (q * tau (S k))) by (rewrite <- E1; ring). apply Rmult_le_compat_l; lra.
    - replace (tau k * tau (S k) * mu k) with (P * tau (S k)) by (rewrite <- E1; ring). replace (tau k * tau (S k) * (q * mu (S k))) with (P * (q * tau k)) by (rewrite <- E2; ring). apply Rmult_le_compat_l; lra. }
  assert (Hexp : forall K', 0 <= K' -> forall k, (1 + K' * (al k - al (S k))) * exp (K' * al (S k)) <= exp (K' * al k)).
  { intros K' HK' k. replace (K' * al k) with (K' * (al k - al (S k)) + K' * al (S k)) by ring. rewrite exp_plus. apply Rmult_le_compat_r; [left; apply exp_pos|apply exp_ineq1_le]. }
  assert (Hal0 : forall k, al k <= al 0%nat) by (induction k; [lra|]; destruct (Hal k); lra).
  assert (Hbd : forall r : nat -> R, (forall k, 0 < r k) -> (forall k, r (S k) <= (1 + K * (al k - al (S k))) * r k) -> forall k, r k <= r 0%nat * exp (K * al 0%nat)).
  { intros r Hr0 Hr1 k. assert (H : r k * exp (K * al k) <= r 0%nat * exp (K * al 0%nat)).
    { induction k as [|k IH]; [lra|]. eapply Rle_trans; [|exact IH]. eapply Rle_trans; [apply Rmult_le_compat_r; [left; apply exp_pos|apply Hr1]|].
      specialize (Hexp K HK k). specialize (Hr0 k). replace ((1 + K * (al k - al (S k))) * r k * exp (K * al (S k))) with (r k * ((1 + K * (al k - al (S k))) * exp (K * al (S k)))) by ring. apply Rmult_le_compat_l; lra. }
    assert (1 <= exp (K * al k)). { pose proof (exp_ineq1_le (K * al k)). destruct (Hal k). assert (0 <= K * al k) by (apply Rmult_le_pos; lra). lra. }
    specialize (Hr0 k). nra. }
  set (T := tau 0%nat * exp (K * al 0%nat)). set (M := mu 0%nat * exp (K * al 0%nat)).
  assert (HT : forall k, tau k <= T) by (apply Hbd; [apply Hst|apply Hvar]). assert (HM : forall k, mu k <= M) by (apply Hbd; [apply Hst|apply Hmuvar]).
  assert (HTp : 0 < T) by (destruct (Hst 0%nat) as (? & _); specialize (HT 0%nat); lra). assert (HMp : 0 < M) by (destruct (Hst 0%nat) as (_ & ? & _); specialize (HM 0%nat); lra).
  assert (Hit : forall k, / T <= / tau k <= M / P).
  { intro k. destruct (Hst k) as (T1 & M1 & E1). split; [apply Rinv_le_contravar; auto|]. apply (Rmult_le_reg_l (tau k * P)); [apply Rmult_lt_0_compat; assumption|].
    replace (tau k * P * / tau k) with P by (field; lra). replace (tau k * P * (M / P)) with (tau k * M) by (field; lra). rewrite <- E1. apply Rmult_le_compat_l; [lra|apply HM]. }
  assert (Him : forall k, / M <= / mu k <= T / P).
  { intro k. destruct (Hst k) as (T1 & M1 & E1). split; [apply Rinv_le_contravar; auto|]. apply (Rmult_le_reg_l (mu k * P)); [apply Rmult_lt_0_compat; assumption|].
    replace (mu k * P * / mu k) with P by (field; lra). replace (mu k * P * (T / P)) with (mu k * T) by (field; lra). rewrite <- E1, Rmult_comm. apply Rmult_le_compat_l; [lra|apply HT]. }
  set (K' := K / (1 - s)). assert (HK' : 0 <= K') by (unfold K', Rdiv; apply Rmult_le_pos; [exact HK|left; apply Rinv_0_lt_compat; lra]).
  set (D := fun k (d : Prod_IPS E F) => pd_dist (tau k) (mu k) (fst d) (snd d)).
  set (G := fun k (d : Prod_IPS E F) => pd_metric A (tau k) (mu k) (fst d) (snd d)).
  assert (HD0 : forall k d, 0 <= D k d) by (intros k d; apply pd_dist_nonneg; apply Hst).
  assert (HGl : forall k d, (1 - s) * D k d <= G k d) by (intros k d; apply metric_low; try apply Hst; auto).
  assert (HGu : forall k d, G k d <= 2 * D k d) by (intros k d; apply (metric_up A (tau k) (mu k) s); try apply Hst; auto).
  assert (HDl : forall k d, Rmin (/ (2 * T)) (/ (2 * M)) * norm2 d <= D k d).
  { intros k [a b]. unfold D, pd_dist. cbn [fst snd]. change (norm2 ((a, b) : Prod_IPS E F)) with (norm2 a + norm2 b).
    pose proof (Rmin_l (/ (2 * T)) (/ (2 * M))). pose proof (Rmin_r (/ (2 * T)) (/ (2 * M))). pose proof (norm2_nonneg a). pose proof (norm2_nonneg b).
    destruct (Hit k) as [I1 _]. destruct (Him k) as [I2 _]. destruct (Hst k) as (T1 & M1 & _). rewrite !Rinv_mult in *. 
    rewrite Rmult_plus_distr_l. apply Rplus_le_compat; apply Rmult_le_compat_r; lra. }
  assert (HDu : forall k d, D k d <= (M / P + T / P) * norm2 d).
  { intros k [a b]. unfold D, pd_dist. cbn [fst snd]. change (norm2 ((a, b) : Prod_IPS E F)) with (norm2 a + norm2 b).
    destruct (Hit k) as [_ I1]. destruct (Him k) as [_ I2]. destruct (Hst k) as (T1 & M1 & _). rewrite !Rinv_mult. pose proof (norm2_nonneg a). pose proof (norm2_nonneg b).
    assert (0 < / tau k) by (apply Rinv_0_lt_compat; lra). assert (0 < / mu k) by (apply Rinv_0_lt_compat; lra).
    assert (/ 2 * / tau k * norm2 a <= (M / P + T / P) * norm2 a) by (apply Rmult_le_compat_r; lra). assert (/ 2 * / mu k * norm2 b <= (M / P + T / P) * norm2 b) by (apply Rmult_le_compat_r; lra). lra. }
  assert (HDs : forall k d, D (S k) d <= (1 + K * (al k - al (S k))) * D k d).
  { intros k [a b]. unfold D, pd_dist. cbn [fst snd]. destruct (Hst k) as (T1 & M1 & _). destruct (Hst (S k)) as (T2 & M2 & _). destruct (Hvar k) as [_ V2]. destruct (Hmuvar k) as [_ V4]. set (q := 1 + K * (al k - al (S k))) in *.
    assert (I1 : / (2 * tau (S k)) <= q * / (2 * tau k)).
    { apply (Rmult_le_reg_l (2 * tau k * tau (S k))); [apply Rmult_lt_0_compat; lra|]. replace (2 * tau k * tau (S k) * / (2 * tau (S k))) with (tau k) by (field; lra). replace (2 * tau k * tau (S k) * (q * / (2 * tau k))) with (q * tau (S k)) by (field; lra). exact V2. }
    assert (I2 : / (2 * mu (S k)) <= q * / (2 * mu k)).
    { apply (Rmult_le_reg_l (2 * mu k * mu (S k))); [apply Rmult_lt_0_compat; lra|]. replace (2 * mu k * mu (S k) * / (2 * mu (S k))) with (mu k) by (field; lra). replace (2 * mu k * mu (S k) * (q * / (2 * mu k))) with (q * mu (S k)) by (field; lra). exact V4. }
    pose proof (norm2_nonneg a). pose proof (norm2_nonneg b). rewrite Rmult_plus_distr_l, <- !Rmult_assoc. apply Rplus_le_compat; apply Rmult_le_compat_r; lra. }
  assert (Hdal : forall k, 0 <= K * (al k - al (S k))) by (intro k; destruct (Hal k); apply Rmult_le_pos; lra).
  assert (HGs : forall k d, G (S k) d <= (1 + K' * (al k - al (S k))) * G k d).
  { intros k d. assert (Hg : forall j, G j d = D j d - << lapp A (fst d), snd d >>) by reflexivity.
    assert (H : G (S k) d <= G k d + K * (al k - al (S k)) * D k d) by (rewrite !Hg; specialize (HDs k d); lra).
    assert (H2 : D k d <= / (1 - s) * G k d). { apply (Rmult_le_reg_l (1 - s)); [lra|]. rewrite <- Rmult_assoc, Rinv_r, Rmult_1_l by lra. apply HGl. }
    apply (Rmult_le_compat_l (K * (al k - al (S k)))) in H2; [|apply Hdal]. unfold K', Rdiv. replace ((1 + K * / (1 - s) * (al k - al (S k))) * G k d) with (G k d + K * (al k - al (S k)) * (/ (1 - s) * G k d)) by ring. lra. }
  set (V := fun k d => exp (K' * al k) * G k d).
  assert (He1 : forall k, 1 <= exp (K' * al k)). { intro k. pose proof (exp_ineq1_le (K' * al k)). destruct (Hal k). assert (0 <= K' * al k) by (apply Rmult_le_pos; lra). lra. }
  assert (He0 : forall k, exp (K' * al k) <= exp (K' * al 0%nat)).
  { intro k. specialize (Hal0 k). assert (Hle : K' * al k <= K' * al 0%nat) by (apply Rmult_le_compat_l; lra). destruct Hle as [Hle| ->]; [left; apply exp_increasing; exact Hle|lra]. }
  assert (HG0 : forall k d, 0 <= G k d). { intros k d. specialize (HGl k d). specialize (HD0 k d). assert (0 <= (1 - s) * D k d) by (apply Rmult_le_pos; lra). lra. }
  set (c := (1 - s) * Rmin (/ (2 * T)) (/ (2 * M))).
  assert (Hmin : 0 < Rmin (/ (2 * T)) (/ (2 * M))) by (apply Rmin_glb_lt; apply Rinv_0_lt_compat; lra).
  assert (Hc : 0 < c) by (apply Rmult_lt_0_compat; lra).
  assert (HGc : forall k d, c * norm2 d <= G k d). { intros k d. specialize (HGl k d). specialize (HDl k d). unfold c. apply (Rmult_le_compat_l (1 - s)) in HDl; lra. }
  assert (HGV : forall k d, G k d <= V k d). { intros k d. unfold V. specialize (HG0 k d). specialize (He1 k). nra. }
  assert (HV : forall k d, c * norm2 d <= V k d) by (intros k d; specialize (HGc k d); specialize (HGV k d); lra).
  set (B := exp (K' * al 0%nat) * (2 * (M / P + T / P))).
  assert (HVu : forall k d, V k d <= B * norm2 d).
  { intros k d. unfold V, B. rewrite (Rmult_assoc (exp _)). apply Rmult_le_compat; [left; apply exp_pos|apply HG0|apply He0|]. specialize (HGu k d). specialize (HDu k d). lra. }
  assert (HVc : forall w phi, vcv w vzero -> Un_cv (fun k => V (phi k) (w k)) 0).
  { intros w phi Hw. apply vcv_iff2 in Hw. apply (Un_cv_squeeze _ (fun k => B * norm2 (w k [-] vzero))).
    - intro k. replace (w k [-] vzero) with (w k) by vring. split; [specialize (HV (phi k) (w k)); pose proof (norm2_nonneg (w k)); nra|apply HVu].
    - replace 0 with (B * 0) by ring. apply (CV_mult (fun _ => B)); [apply Un_cv_const|exact Hw]. }
  set (w := fun k => (xs k, ys k) : Prod_IPS E F). set (Sol := fun s : Prod_IPS E F => saddle A f gs z (fst s) (snd s)).
  assert (Hd : forall s k, Sol s -> G k (w (S k) [-] s) + G k (w (S k) [-] w k) <= G k (w k [-] s)).
  { intros [a b] k Hsol. destruct (Hr k) as [R1 R2]. destruct (Hst k) as (T1 & M1 & _). destruct (saddle_point _ _ _ _ _ _ Hsol) as [D1 [D2 _]]. cbn [fst snd] in D1, D2.
    pose proof (pd_step_f A f gs z (tau k) (mu k) T1 M1 (xs k) (ys k) (xs (S k)) (ys (S k)) a b Cf Cg R1 R2 D1 D2) as H.
    pose proof (saddle_gap _ _ _ _ _ _ (xs (S k)) (ys (S k)) Hsol (proj1 R1) (proj1 R2)) as Gp. cbn [fst snd] in Gp.
    unfold G, w.
    change (pd_metric A (tau k) (mu k) (xs (S k) [-] a) (ys (S k) [-] b) + pd_metric A (tau k) (mu k) (xs (S k) [-] xs k) (ys (S k) [-] ys k) <= pd_metric A (tau k) (mu k) (xs k [-] a) (ys k [-] b)). lra. }
  assert (HdV : forall s k, Sol s -> V (S k) (w (S k) [-] s) + c * norm2 (w (S k) [-] w k) <= V k (w k [-] s)).
  { intros s0 k Hs0. specialize (Hd s0 k Hs0). set (d1 := w (S k) [-] s0) in *. set (d2 := w (S k) [-] w k) in *. set (d0 := w k [-] s0) in *.
    assert (H1 : V (S k) d1 <= exp (K' * al k) * G k d1).
    { unfold V. specialize (HGs k d1). specialize (Hexp K' HK' k). apply Rle_trans with (exp (K' * al (S k)) * ((1 + K' * (al k - al (S k))) * G k d1)); [apply Rmult_le_compat_l; [left; apply exp_pos|exact HGs]|].
      rewrite <- Rmult_assoc, (Rmult_comm (exp (K' * al (S k)))). apply Rmult_le_compat_r; [apply HG0|exact Hexp]. }
    assert (H2 : c * norm2 d2 <= exp (K' * al k) * G k d2) by (eapply Rle_trans; [apply HGc|apply HGV]).
    unfold V at 2. apply (Rmult_le_compat_l (exp (K' * al k))) in Hd; [|left; apply exp_pos]. lra. }
  assert (HVp : forall k d, 0 <= V k d) by (intros k d; specialize (HV k d); pose proof (norm2_nonneg d); nra).
  set (so := (xo, yo) : Prod_IPS E F). assert (So : Sol so) by exact Ho.
  assert (Hv : Un_cv (fun k => norm2 (w (S k) [-] w k)) 0).
  { apply (drop_vanish (fun k => V k (w k [-] so)) _ c Hc); [intro; apply HVp|intro; apply norm2_nonneg|]. intro k. apply (HdV so k So). }
  destruct (fejer_cvVk w Sol V c (bw_prod _ _ HE HF) Hc HV HVc (ex_intro _ so So)) as ([a b] & Hs1 & Hw).
  - intros s0 k Hs0. specialize (HdV s0 k Hs0). pose proof (norm2_nonneg (w (S k) [-] w k)). nra.
  - intros [a b] phi Hp Hl. assert (Hl' : vcv (fun k => w (S (phi k))) ((a, b) : Prod_IPS E F)) by (apply (vcv_close (fun k => w (phi k))); [exact Hl|apply (Un_cv_sub (fun k => norm2 (w (S k) [-] w k)) 0 phi Hp Hv)]).
    apply prod_vcv in Hl as [La Lb]. apply prod_vcv in Hl' as [La' Lb']. unfold w in La, Lb, La', Lb'. cbn [fst snd] in La, Lb, La', Lb'.
    assert (Hquot : forall (X : IPS) (r : nat -> R) (u v : nat -> X) l B0, 0 <= B0 -> (forall k, 0 <= r k <= B0) -> vcv u l -> vcv v l -> vcv (fun k => r k [*] (u k [-] v k)) vzero).
    { intros X r u v l B0 HB0 Hr0 Hu Hv0. apply vcv_iff2. pose proof (vcv_minus _ _ _ _ Hu Hv0) as Huv. apply vcv_iff2 in Huv.
      apply (Un_cv_squeeze _ (fun k => B0 * B0 * norm2 (u k [-] v k [-] (l [-] l)))).
      - intro k. split; [apply norm2_nonneg|]. replace (r k [*] (u k [-] v k) [-] vzero) with (r k [*] (u k [-] v k)) by vring. replace (u k [-] v k [-] (l [-] l)) with (u k [-] v k) by vring.
        rewrite norm2_scal. apply Rmult_le_compat_r; [apply norm2_nonneg|]. destruct (Hr0 k). apply Rmult_le_compat; lra.
      - replace 0 with (B0 * B0 * 0) by ring. apply (CV_mult (fun _ => B0 * B0)); [apply Un_cv_const|exact Huv]. }
    assert (HMP : 0 <= M / P) by (left; apply Rdiv_lt_0_compat; lra). assert (HTP : 0 <= T / P) by (left; apply Rdiv_lt_0_compat; lra).
    assert (Hit' : forall k, 0 <= / tau (phi k) <= M / P) by (intro k; destruct (Hst (phi k)) as (? & _); destruct (Hit (phi k)); split; [left; apply Rinv_0_lt_compat; lra|lra]).
    assert (Him' : forall k, 0 <= / mu (phi k) <= T / P) by (intro k; destruct (Hst (phi k)) as (_ & ? & _); destruct (Him (phi k)); split; [left; apply Rinv_0_lt_compat; lra|lra]).
    pose proof (Hquot E _ _ _ _ _ HMP Hit' La La') as Q1. pose proof (Hquot F _ _ _ _ _ HTP Him' Lb Lb') as Q2. cbn beta in Q1, Q2.
    assert (P1 : is_prox f 1 (a [+] (vzero [-] (ladj A b [+] z))) a).
    { apply (prox_limit f 1 (fun k => xs (S (phi k)) [+] (/ tau (phi k) [*] (xs (phi k) [-] xs (S (phi k))) [-] (ladj A (ys (phi k)) [+] z))) (fun k => xs (S (phi k)))); auto; [lra| |].
      - intro k. destruct (Hr (phi k)) as [R1 _]. destruct (Hst (phi k)) as (T1 & _). apply prox_subgrad in R1; auto. apply subgrad_prox; [lra|].
        match goal with |- is_subgrad _ _ ?v => match type of R1 with is_subgrad _ _ ?u => replace v with u; [exact R1|] end end. vfield. lra.
      - apply vcv_add; [exact La'|]. apply vcv_minus; [exact Q1|]. apply vcv_add; [|apply vcv_const]. apply (vcv_ladj A C); assumption. }
    assert (P2 : is_prox gs 1 (b [+] (vzero [+] lapp A (a [+] 1 [*] (a [-] a)))) b).
    { apply (prox_limit gs 1 (fun k => ys (S (phi k)) [+] (/ mu (phi k) [*] (ys (phi k) [-] ys (S (phi k))) [+] lapp A (xs (S (phi k)) [+] 1 [*] (xs (S (phi k)) [-] xs (phi k))))) (fun k => ys (S (phi k)))); auto; [lra| |].
      - intro k. destruct (Hr (phi k)) as [_ R1]. destruct (Hst (phi k)) as (_ & M1 & _). apply prox_subgrad in R1; auto. apply subgrad_prox; [lra|].
        match goal with |- is_subgrad _ _ ?v => match type of R1 with is_subgrad _ _ ?u => replace v with u; [exact R1|] end end. vfield. lra.
      - apply vcv_add; [exact Lb'|]. apply vcv_add; [exact Q2|]. apply (vcv_lapp A C (fun k => xs (S (phi k)) [+] 1 [*] (xs (S (phi k)) [-] xs (phi k)))); auto. apply vcv_add; [exact La'|]. apply vcv_scal. apply vcv_minus; assumption. }
    replace (a [+] 1 [*] (a [-] a)) with a in P2 by vring. apply prox_subgrad in P1; [|auto|lra]. apply prox_subgrad in P2; [|auto|lra]. split; cbn [fst snd].
    + replace (vopp (ladj A b [+] z)) with (/ 1 [*] (a [+] (vzero [-] (ladj A b [+] z)) [-] a)); [exact P1|]. vfield.
    + replace (lapp A a) with (/ 1 [*] (b [+] (vzero [+] lapp A a) [-] b)); [exact P2|]. vfield.
  - apply prod_vcv in Hw as [La Lb]. exists a, b. split; [exact Hs1|]. split; assumption.
Qed.
End PD.
