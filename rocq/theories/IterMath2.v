(** * Convergence of primal-dual recursions: PDHG, linearised ADMM, ADMM with a least-squares step *)
From Coq Require Import Psatz.
From Verif Require Import Base Space Spec ConvexFacts Smooth VSum M_ProxOp SpecOps M_Split SplitMath P_Split3 P_PD Compact Fejer IterMath.
Open Scope R_scope.

Lemma vcv_lapp {E F : IPS} (A : linop E F) C u l : 0 <= C -> (forall a, norm2 (lapp A a) <= C * norm2 a) -> vcv u l -> vcv (fun k => lapp A (u k)) (lapp A l).
Proof.
  intros HC HA H. apply (vcv_map (lapp A) (sqrt C + 1)); [pose proof (sqrt_pos C); lra| |exact H]. intros v w. rewrite <- lapp_sub. unfold norm at 1.
  apply Rle_trans with (sqrt (C * norm2 (v [-] w))); [apply sqrt_le_1_alt, HA|]. rewrite sqrt_mult by (auto; apply norm2_nonneg). fold (norm (v [-] w)).
  pose proof (norm_nonneg (v [-] w)). lra.
Qed.
(** the adjoint has the same bound *)
Lemma ladj_bd {E F : IPS} (A : linop E F) C : 0 <= C -> (forall a, norm2 (lapp A a) <= C * norm2 a) -> forall b, norm2 (ladj A b) <= C * norm2 b.
Proof.
  intros HC HA b. assert (H1 : norm2 (ladj A b) = << lapp A (ladj A b), b >>) by (rewrite ladj_spec; reflexivity).
  pose proof (CS_abs (lapp A (ladj A b)) b) as H2. rewrite <- H1, Rabs_right in H2 by (apply Rle_ge, norm2_nonneg).
  assert (H3 : norm (lapp A (ladj A b)) <= sqrt C * norm (ladj A b)). { unfold norm. rewrite <- sqrt_mult_alt by exact HC. apply sqrt_le_1_alt, HA. }
  pose proof (norm_nonneg b). pose proof (norm_nonneg (ladj A b)) as Hp. assert (H4 : norm2 (ladj A b) <= sqrt C * norm (ladj A b) * norm b) by (eapply Rle_trans; [exact H2|apply Rmult_le_compat_r; lra]).
  rewrite <- norm_sq in H4. assert (H5 : norm (ladj A b) <= sqrt C * norm b).
  { destruct (Req_dec (norm (ladj A b)) 0) as [->|Hn]; [apply Rmult_le_pos; [apply sqrt_pos|lra]|]. apply (Rmult_le_reg_l (norm (ladj A b))); [lra|]. lra. }
  rewrite <- (norm_sq (ladj A b)), <- (norm_sq b). replace (C * (norm b * norm b)) with ((sqrt C * norm b) * (sqrt C * norm b)).
  - apply Rmult_le_compat; lra.
  - rewrite <- (sqrt_sqrt C HC) at 3. ring.
Qed.
Lemma vcv_ladj {E F : IPS} (A : linop E F) C u l : 0 <= C -> (forall a, norm2 (lapp A a) <= C * norm2 a) -> vcv u l -> vcv (fun k => ladj A (u k)) (ladj A l).
Proof. intros HC HA H. apply (vcv_lapp (adj_linop A) C u l HC); [|exact H]. apply ladj_bd; assumption. Qed.

(** Fejer monotonicity in a seminorm V, when the next iterate depends Lipschitz-continuously on the V-part of the present one *)
Lemma fejer_cvD {E : IPS} (u : nat -> E) (Sol : E -> Prop) (V : E -> R) D : bw E -> 0 <= D -> (forall d, 0 <= V d) ->
  (forall w, vcv w vzero -> Un_cv (fun k => V (w k)) 0) -> (exists s, Sol s) -> (forall s k, Sol s -> V (u (S k) [-] s) <= V (u k [-] s)) ->
  (forall s k, Sol s -> norm2 (u (S k) [-] s) <= D * V (u k [-] s)) ->
  (forall l phi, strict_inc phi -> vcv (fun k => u (S (phi k))) l -> Sol l) -> exists l, Sol l /\ vcv u l.
Proof.
  intros HB HD HVp HVc [s Hs] Hf Hn Hcl.
  destruct (HB (fun k => u (S k)) (sqrt (D * V (u 0%nat [-] s)) + norm s)) as (l & phi & Hi & Hl).
  { intro k. assert (H1 : norm (u (S k) [-] s) <= sqrt (D * V (u 0%nat [-] s))).
    { apply sqrt_le_1_alt. pose proof (dec_le (fun k => V (u k [-] s)) (fun j => Hf s j Hs) k) as H. cbn beta in H. specialize (Hn s k Hs).
      apply (Rmult_le_compat_l D) in H; [|exact HD]. lra. }
    pose proof (norm_triangle (u (S k) [-] s) s) as H2. replace (u (S k) [-] s [+] s) with (u (S k)) in H2 by vring. lra. }
  exists l. assert (Sl : Sol l) by (eapply Hcl; eauto). split; [exact Sl|].
  assert (HVl : Un_cv (fun k => V (u (S k) [-] l)) 0).
  { apply (dec_sub _ phi); [intro k; apply Hf; exact Sl|intro; apply HVp|exact Hi|]. apply (HVc (fun k => u (S (phi k)) [-] l)).
    replace (vzero : E) with (l [-] l) by vring. apply vcv_minus; [exact Hl|apply vcv_const]. }
  apply vcv_unshift, vcv_unshift. apply vcv_iff2. apply (Un_cv_squeeze _ (fun k => D * V (u (S k) [-] l))).
  - intro k. split; [apply norm2_nonneg|]. apply Hn. exact Sl.
  - replace 0 with (D * 0) by ring. apply (CV_mult (fun _ => D)); [apply Un_cv_const|exact HVl].
Qed.

Lemma norm2_add_le {E : IPS} (a b : E) : norm2 (a [+] b) <= 2 * norm2 a + 2 * norm2 b.
Proof. pose proof (norm2_nonneg (a [-] b)) as H. rewrite norm2_sub in H. rewrite norm2_add. lra. Qed.
Lemma norm2_sub_le {E : IPS} (a b : E) : norm2 (a [-] b) <= 2 * norm2 a + 2 * norm2 b.
Proof. pose proof (norm2_nonneg (a [+] b)) as H. rewrite norm2_add in H. rewrite norm2_sub. lra. Qed.
Lemma prox_nonexp2 {E : IPS} (f : efun E) tau x y p q : convex f -> 0 < tau -> is_prox f tau x p -> is_prox f tau y q -> norm2 (p [-] q) <= norm2 (x [-] y).
Proof.
  intros Hf Ht H1 H2. pose proof (prox_nonexp f tau x y p q Hf Ht H1 H2) as H. pose proof (norm_nonneg (p [-] q)). rewrite <- (norm_sq (p [-] q)), <- (norm_sq (x [-] y)).
  apply Rmult_le_compat; lra.
Qed.

Section PD.
Context {E F : IPS} (A : linop E F) (f : efun E) (gs : efun F) (z : E).
Variables (tau mu : R).
Hypothesis Ht : 0 < tau.
Hypothesis Hm : 0 < mu.
Hypothesis HA : forall a, tau * mu * norm2 (lapp A a) <= norm2 a.

Lemma pd_AC : forall a, norm2 (lapp A a) <= / (tau * mu) * norm2 a.
Proof.
  intro a. assert (0 < tau * mu) by (apply Rmult_lt_0_compat; assumption). apply (Rmult_le_reg_l (tau * mu)); [assumption|].
  rewrite <- Rmult_assoc, Rinv_r, Rmult_1_l by lra. apply HA.
Qed.
Lemma pd_AC' : forall b, norm2 (ladj A b) <= / (tau * mu) * norm2 b.
Proof. apply ladj_bd; [left; apply Rinv_0_lt_compat, Rmult_lt_0_compat; assumption|exact pd_AC]. Qed.

Lemma pd_part1 a b : norm2 (a [-] tau [*] ladj A b) <= 2 * tau * pd_metric A tau mu a b.
Proof.
  unfold pd_metric, pd_dist. rewrite norm2_sub, norm2_scal, inner_scal_r, <- ladj_spec. pose proof (pd_AC' b) as H. apply (Rmult_le_compat_l (tau * tau)) in H; [|nra].
  replace (tau * tau * (/ (tau * mu) * norm2 b)) with (tau / mu * norm2 b) in H by (field; lra).
  replace (2 * tau * (/ (2 * tau) * norm2 a + / (2 * mu) * norm2 b - << lapp A a, b >>)) with (norm2 a + tau / mu * norm2 b - 2 * tau * << lapp A a, b >>) by (field; lra). lra.
Qed.
Lemma pd_part2 a b : norm2 (b [-] mu [*] lapp A a) <= 2 * mu * pd_metric A tau mu a b.
Proof.
  unfold pd_metric, pd_dist. rewrite norm2_sub, norm2_scal, inner_scal_r, (inner_sym b). pose proof (pd_AC a) as H. apply (Rmult_le_compat_l (mu * mu)) in H; [|nra].
  replace (mu * mu * (/ (tau * mu) * norm2 a)) with (mu / tau * norm2 a) in H by (field; lra).
  replace (2 * mu * (/ (2 * tau) * norm2 a + / (2 * mu) * norm2 b - << lapp A a, b >>)) with (mu / tau * norm2 a + norm2 b - 2 * mu * << lapp A a, b >>) by (field; lra). lra.
Qed.

(** one iteration, as a relation *)
Definition pd_it (x : E) (y : F) (x' : E) (y' : F) : Prop :=
  is_prox f tau (x [-] tau [*] (ladj A y [+] z)) x' /\ is_prox gs mu (y [+] mu [*] lapp A (x' [+] 1 [*] (x' [-] x))) y'.

Lemma pd_it_lip x y x1 y1 u v u1 v1 : convex f -> convex gs -> pd_it x y x1 y1 -> pd_it u v u1 v1 ->
  norm2 (x1 [-] u1) + norm2 (y1 [-] v1) <= (2 * tau + 20 * mu) * pd_metric A tau mu (x [-] u) (y [-] v).
Proof.
  intros Cf Cg [P1 P2] [Q1 Q2]. pose proof (prox_nonexp2 _ _ _ _ _ _ Cf Ht P1 Q1) as H1. pose proof (prox_nonexp2 _ _ _ _ _ _ Cg Hm P2 Q2) as H2.
  replace (x [-] tau [*] (ladj A y [+] z) [-] (u [-] tau [*] (ladj A v [+] z))) with ((x [-] u) [-] tau [*] ladj A (y [-] v)) in H1 by (rewrite ladj_sub; vring).
  replace (y [+] mu [*] lapp A (x1 [+] 1 [*] (x1 [-] x)) [-] (v [+] mu [*] lapp A (u1 [+] 1 [*] (u1 [-] u)))) with
    (((y [-] v) [-] mu [*] lapp A (x [-] u)) [+] (2 * mu) [*] lapp A (x1 [-] u1)) in H2 by (rewrite !lapp_add, !lapp_scal, !lapp_sub; vring).
  pose proof (pd_part1 (x [-] u) (y [-] v)) as B1. pose proof (pd_part2 (x [-] u) (y [-] v)) as B2.
  pose proof (norm2_add_le ((y [-] v) [-] mu [*] lapp A (x [-] u)) ((2 * mu) [*] lapp A (x1 [-] u1))) as B3. rewrite norm2_scal in B3.
  pose proof (pd_AC (x1 [-] u1)) as B4. apply (Rmult_le_compat_l (2 * mu * (2 * mu))) in B4; [|nra].
  assert (B5 : 2 * mu * (2 * mu) * (/ (tau * mu) * norm2 (x1 [-] u1)) <= 2 * mu * (2 * mu) * (/ (tau * mu) * (2 * tau * pd_metric A tau mu (x [-] u) (y [-] v)))).
  { apply Rmult_le_compat_l; [nra|]. apply Rmult_le_compat_l; [left; apply Rinv_0_lt_compat, Rmult_lt_0_compat; assumption|]. lra. }
  replace (2 * mu * (2 * mu) * (/ (tau * mu) * (2 * tau * pd_metric A tau mu (x [-] u) (y [-] v)))) with (8 * mu * pd_metric A tau mu (x [-] u) (y [-] v)) in B5 by (field; lra).
  lra.
Qed.

Lemma saddle_it x y : saddle A f gs z x y -> pd_it x y x y.
Proof.
  intros [S1 S2]. split.
  - apply subgrad_prox; [exact Ht|]. replace (/ tau [*] (x [-] tau [*] (ladj A y [+] z) [-] x)) with (vopp (ladj A y [+] z)); [exact S1|]. vfield. lra.
  - replace (x [+] 1 [*] (x [-] x)) with x by vring. apply subgrad_prox; [exact Hm|]. replace (/ mu [*] (y [+] mu [*] lapp A x [-] y)) with (lapp A x); [exact S2|]. vfield. lra.
Qed.
Lemma it_saddle x y : convex f -> convex gs -> pd_it x y x y -> saddle A f gs z x y.
Proof.
  intros Cf Cg [P1 P2]. replace (x [+] 1 [*] (x [-] x)) with x in P2 by vring. apply prox_subgrad in P1; auto. apply prox_subgrad in P2; auto. split.
  - replace (vopp (ladj A y [+] z)) with (/ tau [*] (x [-] tau [*] (ladj A y [+] z) [-] x)); [exact P1|]. vfield. lra.
  - replace (lapp A x) with (/ mu [*] (y [+] mu [*] lapp A x [-] y)); [exact P2|]. vfield. lra.
Qed.

Lemma pd_cv1 (xs : nat -> E) (ys : nat -> F) : bw E -> bw F -> convex f -> convex gs ->
  (forall x, exists p, is_prox f tau x p) -> (forall y, exists p, is_prox gs mu y p) -> (forall j, pd_it (xs j) (ys j) (xs (S j)) (ys (S j))) ->
  (exists xo yo, saddle A f gs z xo yo) -> exists xl yl, saddle A f gs z xl yl /\ vcv xs xl /\ vcv ys yl.
Proof.
  intros HE HF Cf Cg Ef Eg Hr (xo & yo & Ho).
  assert (HC : 0 <= / (tau * mu)) by (left; apply Rinv_0_lt_compat, Rmult_lt_0_compat; assumption).
  set (V := fun d : Prod_IPS E F => pd_metric A tau mu (fst d) (snd d)). set (D := 2 * tau + 20 * mu).
  assert (HVp : forall d, 0 <= V d) by (intro d; apply pd_metric_nonneg; assumption).
  assert (HVc : forall w, vcv w vzero -> Un_cv (fun k => V (w k)) 0).
  { intros w Hw. change (vzero : Prod_IPS E F) with ((vzero, vzero) : Prod_IPS E F) in Hw. apply prod_vcv in Hw as [W1 W2].
    assert (W3 : vcv (fun k => lapp A (fst (w k))) vzero). { replace (vzero : F) with (lapp A vzero); [apply (vcv_lapp A (/ (tau * mu))); auto using pd_AC|]. apply norm2_eq0. apply Rle_antisym; [|apply norm2_nonneg]. pose proof (pd_AC vzero) as H. rewrite norm2_zero in H. lra. }
    apply vcv_iff2 in W1. apply vcv_iff2 in W2. apply vcv_iff2 in W3.
    assert (Z : forall (G : IPS) (v : G), norm2 (v [-] vzero) = norm2 v) by (intros G v; f_equal; vring).
    apply (Un_cv_squeeze _ (fun k => / (2 * tau) * norm2 (fst (w k) [-] vzero) + / (2 * mu) * norm2 (snd (w k) [-] vzero) + / 2 * norm2 (lapp A (fst (w k)) [-] vzero) + / 2 * norm2 (snd (w k) [-] vzero))).
    - intro k. split; [apply HVp|]. rewrite !Z. unfold V, pd_metric, pd_dist.
      pose proof (norm2_nonneg (lapp A (fst (w k)) [+] snd (w k))) as H. rewrite norm2_add in H. lra.
    - replace 0 with (/ (2 * tau) * 0 + / (2 * mu) * 0 + / 2 * 0 + / 2 * 0) by ring.
      repeat apply CV_plus; (apply (CV_mult (fun _ => _)); [apply Un_cv_const|assumption]). }
  set (w := fun k => (xs k, ys k) : Prod_IPS E F). set (Sol := fun s : Prod_IPS E F => saddle A f gs z (fst s) (snd s)).
  assert (Hd : forall s k, Sol s -> V (w (S k) [-] s) + V (w (S k) [-] w k) <= V (w k [-] s)).
  { intros [a b] k Hsol. destruct (Hr k) as [R1 R2]. destruct (saddle_point _ _ _ _ _ _ Hsol) as [D1 [D2 _]]. cbn [fst snd] in D1, D2.
    pose proof (pd_step_f A f gs z tau mu Ht Hm (xs k) (ys k) (xs (S k)) (ys (S k)) a b Cf Cg R1 R2 D1 D2) as H.
    pose proof (saddle_gap _ _ _ _ _ _ (xs (S k)) (ys (S k)) Hsol (proj1 R1) (proj1 R2)) as G. cbn [fst snd] in G.
    unfold V, w.
    change (pd_metric A tau mu (xs (S k) [-] a) (ys (S k) [-] b) + pd_metric A tau mu (xs (S k) [-] xs k) (ys (S k) [-] ys k) <= pd_metric A tau mu (xs k [-] a) (ys k [-] b)). lra. }
  set (so := (xo, yo) : Prod_IPS E F). assert (So : Sol so) by exact Ho.
  assert (HV : Un_cv (fun k => V (w (S k) [-] w k)) 0).
  { apply (drop_vanish (fun k => V (w k [-] so)) _ 1 Rlt_0_1); [intro; apply HVp|intro; apply HVp|]. intro k. specialize (Hd so k So). lra. }
  assert (Hv : Un_cv (fun k => norm2 (w (S (S k)) [-] w (S k))) 0).
  { apply (Un_cv_squeeze _ (fun k => D * V (w (S k) [-] w k))).
    - intro k. split; [apply norm2_nonneg|]. exact (pd_it_lip _ _ _ _ _ _ _ _ Cf Cg (Hr (S k)) (Hr k)).
    - replace 0 with (D * 0) by ring. apply (CV_mult (fun _ => D)); [apply Un_cv_const|exact HV]. }
  destruct (fejer_cvD w Sol V D (bw_prod _ _ HE HF)) as ([a b] & Hs1 & Hw).
  - unfold D. lra.
  - exact HVp.
  - exact HVc.
  - exists so. exact So.
  - intros s0 k Hs0. specialize (Hd s0 k Hs0). specialize (HVp (w (S k) [-] w k)). lra.
  - intros [a b] k Hs0. exact (pd_it_lip _ _ _ _ _ _ _ _ Cf Cg (Hr k) (saddle_it _ _ Hs0)).
  - intros [a b] phi Hp Hl. assert (Hl' : vcv (fun k => w (S (S (phi k)))) ((a, b) : Prod_IPS E F)) by (apply (vcv_close (fun k => w (S (phi k)))); [exact Hl|apply (Un_cv_sub (fun k => norm2 (w (S (S k)) [-] w (S k))) 0 phi Hp Hv)]).
    apply prod_vcv in Hl as [La Lb]. apply prod_vcv in Hl' as [La' Lb']. unfold w in La, Lb, La', Lb'. cbn [fst snd] in La, Lb, La', Lb'.
    apply it_saddle; auto. cbn [fst snd]. split.
    + apply (prox_limit f tau (fun k => xs (S (phi k)) [-] tau [*] (ladj A (ys (S (phi k))) [+] z)) (fun k => xs (S (S (phi k))))); auto; [intro k; apply Hr|].
      apply vcv_minus; [exact La|]. apply vcv_scal. apply vcv_add; [|apply vcv_const]. apply (vcv_ladj A (/ (tau * mu))); auto using pd_AC.
    + apply (prox_limit gs mu (fun k => ys (S (phi k)) [+] mu [*] lapp A (xs (S (S (phi k))) [+] 1 [*] (xs (S (S (phi k))) [-] xs (S (phi k))))) (fun k => ys (S (S (phi k))))); auto; [intro k; apply Hr|].
      apply vcv_add; [exact Lb|]. apply vcv_scal. apply (vcv_lapp A (/ (tau * mu)) (fun k => xs (S (S (phi k))) [+] 1 [*] (xs (S (S (phi k))) [-] xs (S (phi k))))); auto using pd_AC. apply vcv_add; [exact La'|]. apply vcv_scal. apply vcv_minus; assumption.
  - apply prod_vcv in Hw as [La Lb]. exists a, b. split; [exact Hs1|]. split; assumption.
Qed.
End PD.

Lemma pd_cv {E F : IPS} (A : linop E F) (f : efun E) (gs : efun F) (z : E) tau mu kappa (xs : nat -> E) (ys : nat -> F) : bw E -> bw F -> convex f -> convex gs -> 0 < tau -> 0 < mu -> 0 <= kappa <= 1 ->
  (forall a, tau * mu * norm2 (lapp A a) <= kappa * norm2 a) ->
  (forall x, exists p, is_prox f tau x p) -> (forall y, exists p, is_prox gs mu y p) ->
  (forall j, is_prox f tau (xs j [-] tau [*] (ladj A (ys j) [+] z)) (xs (S j)) /\ is_prox gs mu (ys j [+] mu [*] lapp A (xs (S j) [+] 1 [*] (xs (S j) [-] xs j))) (ys (S j))) ->
  (exists xo yo, saddle A f gs z xo yo) -> exists xl yl, saddle A f gs z xl yl /\ vcv xs xl /\ vcv ys yl.
Proof.
  intros HE HF Cf Cg Ht Hm Hk HA Ef Eg Hr Hs. apply (pd_cv1 A f gs z tau mu); auto.
  intro a. specialize (HA a). pose proof (norm2_nonneg a). nra.
Qed.

Section LA.
Context {E F : IPS} (A : linop E F) (f : efun E) (g : efun F).
Variables (tau mu : R).
Hypothesis Ht : 0 < tau.
Hypothesis Hm : 0 < mu.
Hypothesis HA : forall a, mu * norm2 (lapp A a) <= tau * norm2 a.
Let C := tau / mu.
Lemma la_C0 : 0 < C.
Proof. apply Rdiv_lt_0_compat; assumption. Qed.
Lemma la_AC : forall a, norm2 (lapp A a) <= C * norm2 a.
Proof. intro a. unfold C. apply (Rmult_le_reg_l mu); [exact Hm|]. replace (mu * (tau / mu * norm2 a)) with (tau * norm2 a) by (field; lra). apply HA. Qed.
Lemma la_AC' : forall b, norm2 (ladj A b) <= C * norm2 b.
Proof. apply ladj_bd; [left; exact la_C0|exact la_AC]. Qed.

Lemma la_part a : norm2 (a [-] (mu / tau) [*] ladj A (lapp A a)) <= mu / tau * la_metric A tau mu a.
Proof.
  unfold la_metric. rewrite norm2_sub, norm2_scal, inner_scal_r, <- ladj_spec. pose proof (la_AC' (lapp A a)) as H. unfold C in H.
  assert (Hq : 0 < mu / tau) by (apply Rdiv_lt_0_compat; assumption).
  apply (Rmult_le_compat_l (mu / tau * (mu / tau))) in H; [|nra].
  replace (mu / tau * (mu / tau) * (tau / mu * norm2 (lapp A a))) with (mu / tau * norm2 (lapp A a)) in H by (field; lra).
  replace (mu / tau * (tau / mu * norm2 a - norm2 (lapp A a))) with (norm2 a - mu / tau * norm2 (lapp A a)) by (field; lra).
  change (<< lapp A a, lapp A a >>) with (norm2 (lapp A a)). lra.
Qed.

(** the x-step of one iteration depends Lipschitz-continuously on (la_metric part of x, z, u) *)
Lemma la_x_lip x z u x' a b e a' : convex f ->
  is_prox f mu (x [-] (mu / tau) [*] ladj A (lapp A x [-] z [+] u)) x' -> is_prox f mu (a [-] (mu / tau) [*] ladj A (lapp A a [-] b [+] e)) a' ->
  norm2 (x' [-] a') <= 4 * (mu / tau) * (la_metric A tau mu (x [-] a) + norm2 (z [-] b) + norm2 (u [-] e)).
Proof.
  intros Cf P Q. pose proof (prox_nonexp2 _ _ _ _ _ _ Cf Hm P Q) as H.
  replace (x [-] (mu / tau) [*] ladj A (lapp A x [-] z [+] u) [-] (a [-] (mu / tau) [*] ladj A (lapp A a [-] b [+] e))) with
    (((x [-] a) [-] (mu / tau) [*] ladj A (lapp A (x [-] a))) [+] (mu / tau) [*] ladj A ((z [-] b) [-] (u [-] e))) in H
    by (rewrite lapp_sub, !ladj_sub, !ladj_add, !ladj_sub; vring).
  pose proof (norm2_add_le ((x [-] a) [-] (mu / tau) [*] ladj A (lapp A (x [-] a))) ((mu / tau) [*] ladj A ((z [-] b) [-] (u [-] e)))) as B1. rewrite norm2_scal in B1.
  pose proof (la_part (x [-] a)) as B2. pose proof (la_AC' ((z [-] b) [-] (u [-] e))) as B3. unfold C in B3. pose proof (norm2_sub_le (z [-] b) (u [-] e)) as B4.
  assert (Hq : 0 < mu / tau) by (apply Rdiv_lt_0_compat; assumption).
  apply (Rmult_le_compat_l (mu / tau * (mu / tau))) in B3; [|nra].
  replace (mu / tau * (mu / tau) * (tau / mu * norm2 (z [-] b [-] (u [-] e)))) with (mu / tau * norm2 (z [-] b [-] (u [-] e))) in B3 by (field; lra).
  apply (Rmult_le_compat_l (mu / tau)) in B4; [|lra].
  pose proof (la_metric_pos A tau mu (x [-] a) Hm HA) as B5. assert (0 <= mu / tau * la_metric A tau mu (x [-] a)) by (apply Rmult_le_pos; lra). lra.
Qed.

Lemma la_cv1 (xs : nat -> E) (zs us : nat -> F) : bw E -> bw F -> convex f -> convex g ->
  (forall x, exists p, is_prox f mu x p) -> (forall y, exists p, is_prox g tau y p) ->
  (forall j, is_prox f mu (xs j [-] (mu / tau) [*] ladj A (lapp A (xs j) [-] zs j [+] us j)) (xs (S j)) /\
    is_prox g tau (lapp A (xs (S j)) [+] us j) (zs (S j)) /\ us (S j) = us j [+] lapp A (xs (S j)) [-] zs (S j)) ->
  (exists xo v, kktA f g A xo v) -> exists xl v, kktA f g A xl v /\ vcv xs xl /\ vcv zs (lapp A xl).
Proof.
  intros HE HF Cf Cg Ef Eg Hr (xo & vo & Ho).
  assert (Htm : 0 < C) by exact la_C0. assert (Hq : 0 < mu / tau) by (apply Rdiv_lt_0_compat; assumption).
  assert (HM : forall a, 0 <= la_metric A tau mu a) by (intro a; apply la_metric_pos; assumption).
  set (P := Prod_IPS E (Prod_IPS F F)).
  set (V := fun d : P => la_metric A tau mu (fst d) + norm2 (fst (snd d)) + norm2 (snd (snd d))). set (D := 4 * (mu / tau) + 1).
  assert (HVp : forall d, 0 <= V d) by (intros [a [b e]]; unfold V; cbn [fst snd]; specialize (HM a); pose proof (norm2_nonneg b); pose proof (norm2_nonneg e); lra).
  assert (HVc : forall w, vcv w vzero -> Un_cv (fun k => V (w k)) 0).
  { intros w Hw. apply vcv_iff2 in Hw. apply (Un_cv_squeeze _ (fun k => (C + 1) * norm2 (w k [-] vzero))).
    - intro k. split; [apply HVp|]. replace (w k [-] vzero) with (w k) by vring. destruct (w k) as [a [b e]]. unfold V, la_metric. cbn [fst snd]. change (norm2 ((a, (b, e)) : P)) with (norm2 a + (norm2 b + norm2 e)). fold C.
      pose proof (norm2_nonneg a). pose proof (norm2_nonneg b). pose proof (norm2_nonneg e). pose proof (norm2_nonneg (lapp A a)).
      assert (0 <= C * norm2 b) by (apply Rmult_le_pos; lra). assert (0 <= C * norm2 e) by (apply Rmult_le_pos; lra). lra.
    - replace 0 with ((C + 1) * 0) by ring. apply (CV_mult (fun _ => _)); [apply Un_cv_const|exact Hw]. }
  set (w := fun k => (xs k, (zs k, us k)) : P). set (Sol := fun s : P => kktA f g A (fst s) (/ tau [*] snd (snd s)) /\ fst (snd s) = lapp A (fst s)).
  assert (Hd0 : forall (s : P) k, Sol s -> V (w (S k) [-] s) + (la_metric A tau mu (xs (S k) [-] xs k) + norm2 (zs (S k) [-] zs k [+] (us (S k) [-] us k))) <= V (w k [-] s)).
  { intros [a [b e]] k [Hs1 Hs2]. cbn [fst snd] in Hs1, Hs2. destruct (Hr k) as (R1 & R2 & R3).
    pose proof (la_step A f g tau mu _ _ _ _ _ _ a (/ tau [*] e) Cf Cg Ht Hm R1 R2 R3 Hs1) as H. replace (tau [*] (/ tau [*] e)) with e in H by (vfield; lra). rewrite <- Hs2 in H.
    change (la_metric A tau mu (xs (S k) [-] a) + norm2 (zs (S k) [-] b) + norm2 (us (S k) [-] e) + (la_metric A tau mu (xs (S k) [-] xs k) + norm2 (zs (S k) [-] zs k [+] (us (S k) [-] us k))) <=
      la_metric A tau mu (xs k [-] a) + norm2 (zs k [-] b) + norm2 (us k [-] e)). lra. }
  assert (Hdec : forall (s : P) k, Sol s -> V (w (S k) [-] s) <= V (w k [-] s)).
  { intros s k Hs. specialize (Hd0 s k Hs). specialize (HM (xs (S k) [-] xs k)). pose proof (norm2_nonneg (zs (S k) [-] zs k [+] (us (S k) [-] us k))). lra. }
  assert (Hcr : forall k, norm2 (zs (S (S k)) [-] zs (S k)) + norm2 (us (S (S k)) [-] us (S k)) <= norm2 (zs (S (S k)) [-] zs (S k) [+] (us (S (S k)) [-] us (S k)))).
  { intro k. destruct (Hr k) as (R1 & R2 & R3). destruct (Hr (S k)) as (T1 & T2 & T3).
    pose proof (dual_subgrad g tau _ _ _ _ Cg Ht R2 R3) as S1. pose proof (dual_subgrad g tau _ _ _ _ Cg Ht T2 T3) as S2. pose proof (subgrad_mono g _ _ _ _ S2 S1) as M.
    assert (M' : 0 <= << us (S (S k)) [-] us (S k), zs (S (S k)) [-] zs (S k) >>).
    { replace (<< us (S (S k)) [-] us (S k), zs (S (S k)) [-] zs (S k) >>) with (tau * << / tau [*] us (S (S k)) [-] / tau [*] us (S k), zs (S (S k)) [-] zs (S k) >>) by (inner_lin_all; field; lra). apply Rmult_le_pos; lra. }
    rewrite norm2_add. rewrite (inner_sym (zs (S (S k)) [-] zs (S k))). lra. }
  set (so := (xo, (lapp A xo, tau [*] vo)) : P). assert (So : Sol so).
  { split; [|reflexivity]. unfold so. cbn [fst snd]. replace (/ tau [*] (tau [*] vo)) with vo by (vfield; lra). exact Ho. }
  assert (HV : Un_cv (fun k => V (w (S (S k)) [-] w (S k))) 0).
  { apply (drop_vanish (fun k => V (w (S k) [-] so)) _ 1 Rlt_0_1); [intro; apply HVp|intro; apply HVp|]. intro k. specialize (Hd0 so (S k) So). specialize (Hcr k).
    change (V (w (S (S k)) [-] w (S k))) with (la_metric A tau mu (xs (S (S k)) [-] xs (S k)) + norm2 (zs (S (S k)) [-] zs (S k)) + norm2 (us (S (S k)) [-] us (S k))). lra. }
  assert (HV' : Un_cv (fun k => V (w (S (S (S k))) [-] w (S (S k)))) 0) by (apply (Un_cv_sub (fun k => V (w (S (S k)) [-] w (S k))) 0 S); [intro; lia|exact HV]).
  assert (Hv : Un_cv (fun k => norm2 (w (S (S (S k))) [-] w (S (S k)))) 0).
  { apply (Un_cv_squeeze _ (fun k => 4 * (mu / tau) * V (w (S (S k)) [-] w (S k)) + V (w (S (S (S k))) [-] w (S (S k))))).
    - intro k. split; [apply norm2_nonneg|].
      pose proof (la_x_lip _ _ _ _ _ _ _ _ Cf (proj1 (Hr (S (S k)))) (proj1 (Hr (S k)))) as H1. specialize (HM (xs (S (S (S k))) [-] xs (S (S k)))).
      change (norm2 (w (S (S (S k))) [-] w (S (S k)))) with (norm2 (xs (S (S (S k))) [-] xs (S (S k))) + (norm2 (zs (S (S (S k))) [-] zs (S (S k))) + norm2 (us (S (S (S k))) [-] us (S (S k))))).
      change (V (w (S (S (S k))) [-] w (S (S k)))) with (la_metric A tau mu (xs (S (S (S k))) [-] xs (S (S k))) + norm2 (zs (S (S (S k))) [-] zs (S (S k))) + norm2 (us (S (S (S k))) [-] us (S (S k)))).
      change (V (w (S (S k)) [-] w (S k))) with (la_metric A tau mu (xs (S (S k)) [-] xs (S k)) + norm2 (zs (S (S k)) [-] zs (S k)) + norm2 (us (S (S k)) [-] us (S k))). lra.
    - replace 0 with (4 * (mu / tau) * 0 + 0) by ring. apply CV_plus; [|exact HV']. apply (CV_mult (fun _ => _)); [apply Un_cv_const|exact HV]. }
  destruct (fejer_cvD (fun k => w (S k)) Sol V D (bw_prod _ _ HE (bw_prod _ _ HF HF))) as ([a [b e]] & [Hs1 Hs2] & Hw).
  - unfold D. lra.
  - exact HVp.
  - exact HVc.
  - exists so. exact So.
  - intros s k Hs. apply Hdec. exact Hs.
  - intros [a [b e]] k Hs. pose proof (Hdec _ (S k) Hs) as Hde. destruct Hs as [[K1 K2] Hs2]. cbn [fst snd] in K1, K2, Hs2.
    assert (Q : is_prox f mu (a [-] (mu / tau) [*] ladj A (lapp A a [-] b [+] e)) a).
    { apply subgrad_prox; [exact Hm|]. rewrite Hs2. replace (lapp A a [-] lapp A a [+] e) with e by vring.
      replace (/ mu [*] (a [-] (mu / tau) [*] ladj A e [-] a)) with (vopp (ladj A (/ tau [*] e))); [exact K1|]. rewrite ladj_scal. vfield. lra. }
    pose proof (la_x_lip _ _ _ _ _ _ _ _ Cf (proj1 (Hr (S k))) Q) as H1. specialize (HM (xs (S (S k)) [-] a)). unfold D.
    change (V (w (S (S k)) [-] (a, (b, e)))) with (la_metric A tau mu (xs (S (S k)) [-] a) + norm2 (zs (S (S k)) [-] b) + norm2 (us (S (S k)) [-] e)) in Hde.
    change (norm2 (w (S (S k)) [-] (a, (b, e)))) with (norm2 (xs (S (S k)) [-] a) + (norm2 (zs (S (S k)) [-] b) + norm2 (us (S (S k)) [-] e))).
    change (V (w (S k) [-] (a, (b, e)))) with (la_metric A tau mu (xs (S k) [-] a) + norm2 (zs (S k) [-] b) + norm2 (us (S k) [-] e)) in *. lra.
  - intros [a [b e]] phi Hp Hl. assert (Hl' : vcv (fun k => w (S (S (S (phi k))))) ((a, (b, e)) : P)) by (apply (vcv_close (fun k => w (S (S (phi k))))); [exact Hl|apply (Un_cv_sub (fun k => norm2 (w (S (S (S k))) [-] w (S (S k)))) 0 phi Hp Hv)]).
    apply (prod_vcv (E:=E) (F:=Prod_IPS F F)) in Hl as [La Lbe]. apply prod_vcv in Lbe as [Lb Le]. apply (prod_vcv (E:=E) (F:=Prod_IPS F F)) in Hl' as [La' Lbe']. apply prod_vcv in Lbe' as [Lb' Le'].
    unfold w in La, Lb, Le, La', Lb', Le'. cbn [fst snd] in La, Lb, Le, La', Lb', Le'.
    assert (HC : 0 <= C) by lra.
    assert (LA' : vcv (fun k => lapp A (xs (S (S (S (phi k)))))) (lapp A a)) by (apply (vcv_lapp A C); auto using la_AC).
    assert (LA : vcv (fun k => lapp A (xs (S (S (phi k))))) (lapp A a)) by (apply (vcv_lapp A C); auto using la_AC).
    assert (Hb : b = lapp A a).
    { apply (vcv_unique (fun k => lapp A (xs (S (S (S (phi k))))))); [|exact LA'].
      apply (vcv_ext (fun k => us (S (S (S (phi k)))) [-] us (S (S (phi k))) [+] zs (S (S (S (phi k)))))); [intro k; destruct (Hr (S (S (phi k)))) as (_ & _ & ->); vring|].
      replace b with (e [-] e [+] b) by vring. apply vcv_add; [apply vcv_minus; assumption|exact Lb']. }
    split; [|exact Hb]. cbn [fst snd].
    assert (P1 : is_prox f mu (a [-] (mu / tau) [*] ladj A (lapp A a [-] b [+] e)) a).
    { apply (prox_limit f mu (fun k => xs (S (S (phi k))) [-] (mu / tau) [*] ladj A (lapp A (xs (S (S (phi k)))) [-] zs (S (S (phi k))) [+] us (S (S (phi k))))) (fun k => xs (S (S (S (phi k)))))); auto; [intro k; apply Hr|].
      apply vcv_minus; [exact La|]. apply vcv_scal. apply (vcv_ladj A C (fun k => lapp A (xs (S (S (phi k)))) [-] zs (S (S (phi k))) [+] us (S (S (phi k))))); auto using la_AC. apply vcv_add; [apply vcv_minus; assumption|exact Le]. }
    assert (P2 : is_prox g tau (lapp A a [+] e) b).
    { apply (prox_limit g tau (fun k => lapp A (xs (S (S (S (phi k))))) [+] us (S (S (phi k)))) (fun k => zs (S (S (S (phi k)))))); auto; [intro k; apply Hr|]. apply vcv_add; assumption. }
    rewrite Hb in P1, P2. apply prox_subgrad in P1; auto. apply prox_subgrad in P2; auto. split.
    + replace (vopp (ladj A (/ tau [*] e))) with (/ mu [*] (a [-] (mu / tau) [*] ladj A (lapp A a [-] lapp A a [+] e) [-] a)); [exact P1|].
      replace (lapp A a [-] lapp A a [+] e) with e by vring. rewrite ladj_scal. vfield. lra.
    + replace (/ tau [*] e) with (/ tau [*] (lapp A a [+] e [-] lapp A a)) by vring. exact P2.
  - cbn [fst snd] in Hs1, Hs2. apply (prod_vcv (E:=E) (F:=Prod_IPS F F)) in Hw as [La Lbe]. apply prod_vcv in Lbe as [Lb _]. unfold w in La, Lb. cbn [fst snd] in La, Lb.
    exists a, (/ tau [*] e). split; [exact Hs1|]. split; [apply vcv_unshift; exact La|]. rewrite <- Hs2. apply vcv_unshift. exact Lb.
Qed.
End LA.

Lemma la_cv {E F : IPS} (A : linop E F) (f : efun E) (g : efun F) tau mu kappa (xs : nat -> E) (zs us : nat -> F) : bw E -> bw F -> convex f -> convex g -> 0 < tau -> 0 < mu -> 0 <= kappa <= 1 ->
  (forall a, mu * norm2 (lapp A a) <= kappa * tau * norm2 a) ->
  (forall x, exists p, is_prox f mu x p) -> (forall y, exists p, is_prox g tau y p) ->
  (forall j, is_prox f mu (xs j [-] (mu / tau) [*] ladj A (lapp A (xs j) [-] zs j [+] us j)) (xs (S j)) /\
    is_prox g tau (lapp A (xs (S j)) [+] us j) (zs (S j)) /\ us (S j) = us j [+] lapp A (xs (S j)) [-] zs (S j)) ->
  (exists xo v, kktA f g A xo v) -> exists xl v, kktA f g A xl v /\ vcv xs xl /\ vcv zs (lapp A xl).
Proof.
  intros HE HF Cf Cg Ht Hm Hk HA Ef Eg Hr Hs. apply (la_cv1 A f g tau mu Ht Hm) with (us := us); auto.
  intro a. specialize (HA a). pose proof (norm2_nonneg a). assert (0 <= tau * norm2 a) by (apply Rmult_le_pos; lra). nra.
Qed.

Section AL2.
Context {E F G : IPS} (B : linop E G) (b : G) (A : linop E F) (g : efun F).
(** the exact inner solve depends on its data in a Lipschitz way *)
Lemma al2_lip tau d d' x x' : 0 < tau -> al2_x B b A tau d x -> al2_x B b A tau d' x' ->
  norm2 (lapp A x [-] lapp A x') <= norm2 (d [-] d') /\ norm2 (lapp B (x [-] x')) <= / (4 * tau) * norm2 (d [-] d').
Proof.
  intros Ht H H'. apply al2_x_grad in H; auto. apply al2_x_grad in H'; auto.
  assert (HI : << lsq_grad B b x [-] lsq_grad B b x', x [-] x' >> = norm2 (lapp B (x [-] x'))).
  { unfold lsq_grad. rewrite <- ladj_sub, ladj_spec'. unfold norm2. rewrite lapp_sub. f_equal. vring. }
  rewrite H, H' in HI.
  assert (HJ : << vopp (/ tau [*] ladj A (lapp A x [-] d)) [-] vopp (/ tau [*] ladj A (lapp A x' [-] d')), x [-] x' >> =
     / tau * (<< d [-] d', lapp A x [-] lapp A x' >> - norm2 (lapp A x [-] lapp A x'))).
  { rewrite inner_sub_l, !inner_opp_l, !inner_scal_l, !ladj_spec', lapp_sub. unfold norm2. iexp. ring. }
  rewrite HJ in HI. clear HJ H H'. set (D := d [-] d') in *. set (W := lapp A x [-] lapp A x') in *.
  pose proof (norm2_nonneg (lapp B (x [-] x'))) as P. assert (Hi : 0 < / tau) by (apply Rinv_0_lt_compat; lra).
  assert (Q : norm2 W <= << D, W >>). { assert (0 <= << D, W >> - norm2 W); [|lra]. apply (Rmult_le_reg_l (/ tau)); [exact Hi|]. lra. }
  split.
  - pose proof (norm2_nonneg (D [-] W)) as N. rewrite norm2_sub in N. lra.
  - rewrite <- HI. replace (/ (4 * tau)) with (/ tau * / 4) by (field; lra). rewrite Rmult_assoc. apply Rmult_le_compat_l; [lra|].
    pose proof (norm2_nonneg (D [-] 2 [*] W)) as N. rewrite norm2_sub, norm2_scal, inner_scal_r in N. lra.
Qed.
Lemma al2_cv tau c (xs : nat -> E) (zs us : nat -> F) : bw F -> convex g -> 0 < tau -> 0 < c -> (forall a, c * norm2 a <= norm2 (lapp B a) + norm2 (lapp A a)) ->
  (forall y, exists p, is_prox g tau y p) -> (forall d, exists x, al2_x B b A tau d x) ->
  (forall j, al2_x B b A tau (zs j [-] us j) (xs (S j)) /\ is_prox g tau (lapp A (xs (S j)) [+] us j) (zs (S j)) /\ us (S j) = us j [+] lapp A (xs (S j)) [-] zs (S j)) ->
  (exists xo v, kktA (etot (lsq B b)) g A xo v) -> exists xl v, kktA (etot (lsq B b)) g A xl v /\ vcv xs xl /\ vcv zs (lapp A xl) /\ vcv us (tau [*] v).
Proof.
  intros HF Cg Ht Hc Hin Eg Er Hr (xo & vo & Ho).
  set (P := Prod_IPS F F). set (w := fun k => (zs k, us k) : P). set (Sol := fun s : P => exists x, kktA (etot (lsq B b)) g A x (/ tau [*] snd s) /\ fst s = lapp A x).
  assert (Hd0 : forall (s : P) k, Sol s -> norm2 (w (S k) [-] s) + norm2 (zs (S k) [-] zs k [+] (us (S k) [-] us k)) <= norm2 (w k [-] s)).
  { intros [s1 s2] k (x & Hk & Hs). cbn [fst snd] in Hk, Hs. subst s1. set (v := / tau [*] s2) in *. assert (Hs2 : s2 = tau [*] v) by (unfold v; vfield; lra). destruct Hk as [Kf Kg].
    destruct (Hr k) as [H1 [H2 H3]]. apply al2_x_grad in H1; auto.
    pose proof (subgrad_mono _ _ _ _ _ (lsq_subgrad B b (xs (S k))) Kf) as M1. rewrite H1 in M1.
    pose proof (dual_subgrad g tau _ _ _ _ Cg Ht H2 H3) as S1. pose proof (subgrad_mono g _ _ _ _ S1 Kg) as M2.
    assert (HQ : 0 <= 0 - << us (S k) [-] tau [*] v [+] (zs (S k) [-] zs k), lapp A (xs (S k)) [-] lapp A x >>).
    { replace (0 - << us (S k) [-] tau [*] v [+] (zs (S k) [-] zs k), lapp A (xs (S k)) [-] lapp A x >>) with
        (tau * << vopp (/ tau [*] ladj A (lapp A (xs (S k)) [-] (zs k [-] us k))) [-] vopp (ladj A v), xs (S k) [-] x >>).
      - apply Rmult_le_pos; lra.
      - rewrite H3. inner_lin_all. rewrite ?inner_opp_l, ?inner_opp_r. inner_lin_all. rewrite !ladj_spec'. inner_lin_all. field. lra. }
    assert (HM : 0 <= << us (S k) [-] tau [*] v, zs (S k) [-] lapp A x >>).
    { replace (<< us (S k) [-] tau [*] v, zs (S k) [-] lapp A x >>) with (tau * << / tau [*] us (S k) [-] v, zs (S k) [-] lapp A x >>) by (inner_lin_all; field; lra).
      apply Rmult_le_pos; lra. }
    pose proof (admmA_core 0 _ _ _ _ _ (lapp A x) (tau [*] v) HQ HM H3) as HC. rewrite Hs2.
    change (norm2 (zs (S k) [-] lapp A x) + norm2 (us (S k) [-] tau [*] v) + norm2 (zs (S k) [-] zs k [+] (us (S k) [-] us k)) <= norm2 (zs k [-] lapp A x) + norm2 (us k [-] tau [*] v)). lra. }
  assert (Hcr : forall k, norm2 (w (S (S k)) [-] w (S k)) <= norm2 (zs (S (S k)) [-] zs (S k) [+] (us (S (S k)) [-] us (S k)))).
  { intro k. destruct (Hr k) as (_ & R2 & R3). destruct (Hr (S k)) as (_ & T2 & T3).
    pose proof (dual_subgrad g tau _ _ _ _ Cg Ht R2 R3) as S1. pose proof (dual_subgrad g tau _ _ _ _ Cg Ht T2 T3) as S2. pose proof (subgrad_mono g _ _ _ _ S2 S1) as M.
    assert (M' : 0 <= << us (S (S k)) [-] us (S k), zs (S (S k)) [-] zs (S k) >>).
    { replace (<< us (S (S k)) [-] us (S k), zs (S (S k)) [-] zs (S k) >>) with (tau * << / tau [*] us (S (S k)) [-] / tau [*] us (S k), zs (S (S k)) [-] zs (S k) >>) by (inner_lin_all; field; lra). apply Rmult_le_pos; lra. }
    change (norm2 (w (S (S k)) [-] w (S k))) with (norm2 (zs (S (S k)) [-] zs (S k)) + norm2 (us (S (S k)) [-] us (S k))).
    rewrite norm2_add. rewrite (inner_sym (zs (S (S k)) [-] zs (S k))). lra. }
  set (so := (lapp A xo, tau [*] vo) : P). assert (So : Sol so).
  { exists xo. split; [|reflexivity]. unfold so. cbn [fst snd]. replace (/ tau [*] (tau [*] vo)) with vo by (vfield; lra). exact Ho. }
  assert (Hv : Un_cv (fun k => norm2 (w (S (S k)) [-] w (S k))) 0).
  { apply (drop_vanish (fun k => norm2 (w (S k) [-] so)) _ 1); [lra|intro; apply norm2_nonneg|intro; apply norm2_nonneg|]. intro k. specialize (Hd0 so (S k) So). specialize (Hcr k). lra. }
  assert (Hx : forall (phi : nat -> nat) d x, vcv (fun k => zs (phi k) [-] us (phi k)) d -> al2_x B b A tau d x -> vcv (fun k => xs (S (phi k))) x /\ vcv (fun k => lapp A (xs (S (phi k)))) (lapp A x)).
  { intros phi d x Hd Hxx. apply vcv_iff2 in Hd. rewrite !vcv_iff2. split.
    - apply (Un_cv_squeeze _ (fun k => / c * (1 + / (4 * tau)) * norm2 (zs (phi k) [-] us (phi k) [-] d))).
      + intro k. split; [apply norm2_nonneg|]. destruct (Hr (phi k)) as [H1 _]. destruct (al2_lip tau _ _ _ _ Ht H1 Hxx) as [L1 L2]. specialize (Hin (xs (S (phi k)) [-] x)). rewrite (lapp_sub A) in Hin.
        apply (Rmult_le_reg_l c); [exact Hc|]. rewrite <- !Rmult_assoc, Rinv_r, Rmult_1_l by lra. lra.
      + replace 0 with (/ c * (1 + / (4 * tau)) * 0) by ring. apply (CV_mult (fun _ => _)); [apply Un_cv_const|exact Hd].
    - apply (Un_cv_squeeze _ (fun k => norm2 (zs (phi k) [-] us (phi k) [-] d))); [|exact Hd]. intro k. split; [apply norm2_nonneg|]. destruct (Hr (phi k)) as [H1 _]. apply (al2_lip tau _ _ _ _ Ht H1 Hxx). }
  destruct (fejer_cv (fun k => w (S k)) Sol (bw_prod _ _ HF HF) (ex_intro _ so So)) as ([s1 s2] & (xl & Kl & Hl) & Hw).
  - intros s k Hs. specialize (Hd0 s (S k) Hs). pose proof (norm2_nonneg (zs (S (S k)) [-] zs (S k) [+] (us (S (S k)) [-] us (S k)))). lra.
  - intros [s1 s2] phi Hp Hl. assert (Hl' : vcv (fun k => w (S (S (phi k)))) ((s1, s2) : P)) by (apply (vcv_close (fun k => w (S (phi k)))); [exact Hl|apply (Un_cv_sub (fun k => norm2 (w (S (S k)) [-] w (S k))) 0 phi Hp Hv)]).
    apply prod_vcv in Hl as [Lb Le]. apply prod_vcv in Hl' as [Lb' Le']. unfold w in Lb, Le, Lb', Le'. cbn [fst snd] in Lb, Le, Lb', Le'.
    destruct (Er (s1 [-] s2)) as [x Hxx]. destruct (Hx (fun k => S (phi k)) (s1 [-] s2) x) as [_ LA]; [apply vcv_minus; assumption|exact Hxx|].
    assert (Hb : s1 = lapp A x).
    { apply (vcv_unique (fun k => lapp A (xs (S (S (phi k)))))); [|exact LA].
      apply (vcv_ext (fun k => us (S (S (phi k))) [-] us (S (phi k)) [+] zs (S (S (phi k))))); [intro k; destruct (Hr (S (phi k))) as (_ & _ & ->); vring|].
      replace s1 with (s2 [-] s2 [+] s1) by vring. apply vcv_add; [apply vcv_minus; assumption|exact Lb']. }
    exists x. split; [|exact Hb]. cbn [fst snd].
    assert (P2 : is_prox g tau (lapp A x [+] s2) s1).
    { apply (prox_limit g tau (fun k => lapp A (xs (S (S (phi k)))) [+] us (S (phi k))) (fun k => zs (S (S (phi k))))); auto; [intro k; apply Hr|]. apply vcv_add; assumption. }
    subst s1. apply prox_subgrad in P2; auto. apply al2_x_grad in Hxx; auto. split.
    + replace (vopp (ladj A (/ tau [*] s2))) with (lsq_grad B b x); [apply lsq_subgrad|]. rewrite Hxx. replace (lapp A x [-] (lapp A x [-] s2)) with s2 by vring. rewrite ladj_scal. reflexivity.
    + replace (/ tau [*] s2) with (/ tau [*] (lapp A x [+] s2 [-] lapp A x)) by vring. exact P2.
  - cbn [fst snd] in Kl, Hl. apply prod_vcv in Hw as [Lb Le]. unfold w in Lb, Le. cbn [fst snd] in Lb, Le. subst s1.
    exists xl, (/ tau [*] s2). split; [exact Kl|]. replace (tau [*] (/ tau [*] s2)) with s2 by (vfield; lra).
    destruct (Er (lapp A xl [-] s2)) as [x Hxx]. destruct (Hx S (lapp A xl [-] s2) x) as [Lx _]; [apply vcv_minus; assumption|exact Hxx|].
    assert (Hxl : x = xl).
    { assert (Hg : lsq_grad B b xl = vopp (/ tau [*] ladj A (lapp A xl [-] (lapp A xl [-] s2)))).
      { replace (lapp A xl [-] (lapp A xl [-] s2)) with s2 by vring. rewrite <- ladj_scal. symmetry. apply lsq_subgrad_unique. apply Kl. }
      assert (Hxl : al2_x B b A tau (lapp A xl [-] s2) xl).
      { split; [exact I|]. intros y _. cbn [eval etot]. change (1 / 2 * norm2 (lapp B xl [-] b)) with (lsq B b xl). change (1 / 2 * norm2 (lapp B y [-] b)) with (lsq B b y).
        rewrite (lsq_taylor B b xl y), Hg. rewrite inner_opp_l, inner_scal_l, ladj_spec', lapp_sub.
        pose proof (norm2_nonneg (lapp B (y [-] xl))) as N1. pose proof (norm2_nonneg (lapp A y [-] lapp A xl)) as N2.
        assert (HH : 1 / (2 * tau) * norm2 (lapp A y [-] (lapp A xl [-] s2)) - 1 / (2 * tau) * norm2 (lapp A xl [-] (lapp A xl [-] s2)) - / tau * << lapp A xl [-] (lapp A xl [-] s2), lapp A y [-] lapp A xl >> = / (2 * tau) * norm2 (lapp A y [-] lapp A xl)) by (unfold norm2; iexp; field; lra).
        assert (0 <= / (2 * tau) * norm2 (lapp A y [-] lapp A xl)) by (apply Rmult_le_pos; [left; apply Rinv_0_lt_compat; lra|exact N2]). lra. }
      destruct (al2_lip tau _ _ _ _ Ht Hxx Hxl) as [L1 L2]. replace (lapp A xl [-] s2 [-] (lapp A xl [-] s2)) with (vzero : F) in L1, L2 by vring. rewrite norm2_zero in L1, L2.
      specialize (Hin (x [-] xl)). rewrite (lapp_sub A) in Hin. apply vsub_eq, norm2_eq0. pose proof (norm2_nonneg (x [-] xl)). assert (c * norm2 (x [-] xl) <= 0) by lra. apply Rle_antisym; [|assumption]. apply (Rmult_le_reg_l c); lra. }
    subst x. split; [apply vcv_unshift, (vcv_unshift (fun k => xs (S k))); exact Lx|]. split; apply vcv_unshift; assumption.
Qed.
End AL2.
