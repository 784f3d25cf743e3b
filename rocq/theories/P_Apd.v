(** * The iterates of AdaptivePrimalDual converge to a solution (M_PD.v) *)
From Coq Require Import String Psatz.
From Verif Require Import Base Space Spec Cplx ConvexFacts Smooth VSum M_ProxOp SpecOps P_ProxOp M_Norms P_Norms M_Loop LoopFacts SeqFacts M_PG M_Split M_PD SplitMath P_PD P_PD3 S_Split2 S_PD2 P_PD2 S_Seq Compact Fejer IterMath IterMath2 ApdMath DykMath S_Qual S_Exist HahnBanach P_Qual ExistMath P_Exist.
Open Scope result_scope.
Open Scope R_scope.

Section A.
Context {E F : IPS} (A : linop E F).

(** the states visited when the loop is never stopped *)
Lemma apd_states proxf proxg f gs alias z rz eta s delta st0 : impl_prox proxf f -> impl_proxdual proxg gs -> alias = None \/ z = None ->
  (forall v, z = Some v -> rz v <> None) -> 0 < delta -> 0 < eta <= 1 -> 0 < ap_tau st0 -> 0 < ap_mu st0 -> 0 < ap_alpha st0 < 1 ->
  exists st : nat -> @apd_state E F, st 0%nat = st0 /\ (forall j, apd_body proxf proxg A alias z rz eta s delta (st j) = Ok (st (S j)) /\ apd_step A f gs z rz eta s delta (st j) (st (S j))) /\
    (forall j, 0 < ap_tau (st j) /\ 0 < ap_mu (st j) /\ 0 < ap_alpha (st j) < 1).
Proof.
  intros Hf Hg Hal Hrz Hd He Ht Hm Ha.
  set (nx := fun t => match apd_body proxf proxg A alias z rz eta s delta t with Ok t' => t' | Err _ => t end).
  set (st := fix st j := match j with O => st0 | S j => nx (st j) end).
  assert (HI : forall j, 0 < ap_tau (st j) /\ 0 < ap_mu (st j) /\ 0 < ap_alpha (st j) < 1).
  { induction j as [|j (T & M & L)]; [auto|]. change (st (S j)) with (nx (st j)). unfold nx.
    destruct (apd_body_ok A proxf proxg f gs alias z rz eta s delta (st j) Hf Hg Hal Hrz T M L Hd) as (t' & -> & Hs).
    destruct Hs as (_ & _ & _ & _ & _ & _ & Q7 & _). destruct (adapt_inv _ _ _ _ _ _ _ _ _ _ _ He T M L Q7) as (J1 & J2 & J3 & _). auto. }
  exists st. split; [reflexivity|]. split; [|exact HI]. intro j. destruct (HI j) as (T & M & L). change (st (S j)) with (nx (st j)). unfold nx.
  destruct (apd_body_ok A proxf proxg f gs alias z rz eta s delta (st j) Hf Hg Hal Hrz T M L Hd) as (t' & -> & Hs). auto.
Qed.

(** the while loop returns one of them *)
Lemma apd_while_prefix proxf proxg alias z rz eta s delta tol (st : nat -> @apd_state E F) n i :
  (forall j, apd_body proxf proxg A alias z rz eta s delta (st j) = Ok (st (S j))) ->
  exists k, (k <= n)%nat /\ apd_while proxf proxg A alias z rz eta s delta tol n (st i) = Ok (st (i + k)%nat) /\
    (k = n \/ ap_p (st (i + k)%nat) <= tol \/ ap_d (st (i + k)%nat) <= tol) /\ (forall j, (i <= j < i + k)%nat -> tol < ap_p (st j) /\ tol < ap_d (st j)).
Proof.
  intro Hb. revert i. induction n as [|n IH]; intro i.
  - exists 0%nat. rewrite Nat.add_0_r. simpl. repeat split; auto; lia.
  - cbn [apd_while]. destruct (Rltb_spec tol (ap_p (st i))) as [[H1 ->]|[H1 ->]].
    + destruct (Rltb_spec tol (ap_d (st i))) as [[H2 ->]|[H2 ->]].
      * cbn [andb]. rewrite Hb. cbn [bind]. destruct (IH (S i)) as (k & Hk & Hr & Hs & Hj). exists (S k). rewrite Nat.add_succ_r. split; [lia|]. split; [exact Hr|]. split; [destruct Hs as [->|Hs]; auto|].
        intros j Hji. destruct (Nat.eq_dec j i) as [->|Hne]; [split; assumption|apply Hj; lia].
      * exists 0%nat. rewrite Nat.add_0_r. cbn [andb]. split; [lia|]. split; [reflexivity|]. split; [auto|intros j Hji; lia].
    + exists 0%nat. rewrite Nat.add_0_r. cbn [andb]. split; [lia|]. split; [reflexivity|]. split; [auto|intros j Hji; lia].
Qed.
(** the residuals recorded in the starting state only decide whether the loop is entered *)
Lemma apd_body_pd proxf proxg alias z rz eta s delta (st : @apd_state E F) p d :
  apd_body proxf proxg A alias z rz eta s delta (APD (ap_x st) (ap_y st) (ap_Ax st) (ap_ATy st) (ap_tau st) (ap_mu st) (ap_alpha st) p d (ap_taus st) (ap_mus st) (ap_alphas st) (ap_tr st)) =
  apd_body proxf proxg A alias z rz eta s delta st.
Proof. reflexivity. Qed.

Lemma apd_hist f gs z rz eta s delta (st : nat -> @apd_state E F) x0 tau mu alpha p d : (forall j, apd_step A f gs z rz eta s delta (st j) (st (S j))) ->
  st 0%nat = APD x0 vzero vzero vzero tau mu alpha p d [tau] [mu] [alpha] [] ->
  forall j, ap_taus (st j) = map (fun j => ap_tau (st j)) (seq 0 (S j)) /\ ap_mus (st j) = map (fun j => ap_mu (st j)) (seq 0 (S j)) /\
      ap_alphas (st j) = map (fun j => ap_alpha (st j)) (seq 0 (S j)) /\ ap_tr (st j) = map (fun j => ap_x (st j)) (seq 1 j).
Proof.
  intros Hst S0. induction j as [|j (I1 & I2 & I3 & I4)]; [rewrite S0; cbn; rewrite S0; auto|].
  destruct (Hst j) as (_ & _ & _ & _ & _ & _ & _ & Q8 & Q9 & Q10 & Q11). rewrite Q8, Q9, Q10, Q11, I1, I2, I3, I4.
  rewrite (seq_S (S j) 0), (seq_S j 1), !map_app. cbn [map]. replace (0 + S j)%nat with (S j) by lia. replace (1 + j)%nat with (S j) by lia. auto.
Qed.

Lemma adapt_rate eta s delta p d tau mu alpha tau' mu' alpha' a0 : 0 < eta < 1 -> 0 < tau -> 0 < mu -> 0 < alpha <= a0 -> a0 < 1 ->
  adapt eta s delta p d tau mu alpha tau' mu' alpha' ->
  tau' <= (1 + / ((1 - a0) * (1 - eta)) * (alpha - alpha')) * tau /\ tau <= (1 + / ((1 - a0) * (1 - eta)) * (alpha - alpha')) * tau'.
Proof.
  intros He Ht Hm Ha H0 Hx. assert (Hi : / (1 - alpha) <= / (1 - a0)) by (apply Rinv_le_contravar; lra).
  assert (Hq : / ((1 - a0) * (1 - eta)) * (alpha - alpha * eta) = alpha * / (1 - a0)) by (field; lra).
  assert (Hk : alpha * / (1 - alpha) <= alpha * / (1 - a0)) by (apply Rmult_le_compat_l; lra).
  assert (H1 : / (1 - alpha) = 1 + alpha * / (1 - alpha)) by (field; lra).
  assert (Hp : 0 < / (1 - a0)) by (apply Rinv_0_lt_compat; lra). assert (Hp2 : 0 < alpha * / (1 - a0)) by (apply Rmult_lt_0_compat; lra).
  destruct Hx as [[_ [-> [_ ->]]]|[[_ [_ [-> [_ ->]]]]|[_ [-> [_ ->]]]]].
  - rewrite Hq. unfold Rdiv. rewrite (Rmult_comm tau). assert (HH : 1 <= / (1 - alpha)) by (rewrite H1; assert (0 < / (1 - alpha)) by (apply Rinv_0_lt_compat; lra); assert (0 < alpha * / (1 - alpha)) by (apply Rmult_lt_0_compat; lra); lra).
    split; [apply Rmult_le_compat_r; lra|]. rewrite <- Rmult_assoc. rewrite <- (Rmult_1_l tau) at 1. apply Rmult_le_compat_r; [lra|]. rewrite <- (Rmult_1_l 1) at 1. apply Rmult_le_compat; lra.
  - rewrite Hq. split.
    + rewrite Rmult_comm. apply Rmult_le_compat_r; lra.
    + rewrite (Rmult_comm tau), <- Rmult_assoc. rewrite <- (Rmult_1_l tau) at 1. apply Rmult_le_compat_r; [lra|].
      apply (Rmult_le_reg_r (/ (1 - alpha))); [apply Rinv_0_lt_compat; lra|]. rewrite Rmult_assoc, Rinv_r, Rmult_1_r, Rmult_1_l by lra. lra.
  - replace (alpha - alpha) with 0 by ring. lra.
Qed.
End A.

(*! C58_converges : f, g convex, gs the conjugate of g, 0 < alpha < 1, 0 < eta < 1, delta > 0, any s, tau, mu > 0 with tau mu |A a|^2 <= kappa |a|^2
   for some kappa < 1, z None or A^T z well-shaped and rmatvec fresh, finite dimension, and the problem has a saddle point.  There are sequences of vectors and of steps, the
   same for all niter and tol, such that each run returns the first of them up to the k-th, with k = niter unless a residual fell
   to tol, for the first time; the vectors converge to a minimiser of f + <z,.> + g(A .), the steps tau, mu to positive limits and the dual residual to 0.  In particular
   with a negative tol (no early stop) the returned x converges to a solution as niter grows *)
Lemma C58_converges_l : forall (E F : IPS) (A : linop E F) proxf proxg f g gs alias x0 tau mu kappa alpha eta s delta z rz, bw E -> bw F ->
  impl_prox proxf f -> impl_proxdual proxg gs -> convex f -> convex g -> is_conj g gs -> (forall u, exists p, is_prox g 1 u p) ->
  alias = None \/ z = None -> (forall v, z = Some v -> rz v <> None) ->
  0 < tau -> 0 < mu -> 0 <= kappa < 1 -> (forall a, tau * mu * norm2 (lapp A a) <= kappa * norm2 a) -> 0 < alpha < 1 -> 0 < eta < 1 -> 0 < delta ->
  (exists xo yo, saddle A f gs (zvec z) xo yo) ->
  exists xs ts ms als ps ds xl tl ml, xs 0%nat = x0 /\
    (forall niter tol, exists k, (k <= niter)%nat /\
       AdaptivePrimalDual proxf proxg A alias x0 tau mu alpha eta s delta z rz niter tol = Ok (xs k, (map ts (seq 0 (S k)), map ms (seq 0 (S k)), map als (seq 0 (S k))), map xs (seq 1 k)) /\
       (k = niter \/ (1 <= k)%nat /\ (ps k <= tol \/ ds k <= tol)) /\ (forall j, (1 <= j < k)%nat -> tol < ps j /\ tol < ds j)) /\
    (forall k, (1 <= k)%nat -> 0 <= ps k /\ 0 <= ds k) /\
    is_min (eadd (elin f (zvec z)) (epre g (lapp A))) xl /\ vcv xs xl /\ Un_cv ts tl /\ Un_cv ms ml /\ 0 < tl /\ 0 < ml /\ Un_cv ds 0.
Proof.
  intros E F A proxf proxg f g gs alias x0 tau mu kappa alpha eta s delta z rz HE HF Hf Hg Cf Cg Hc Hpg Hali Hrz Ht Hm Hk HA Ha He Hd Hs.
  pose proof (conj_convex _ _ Hc) as Cgs. assert (He' : 0 < eta <= 1) by lra.
  set (ini := fun r : R => @APD E F x0 vzero vzero vzero tau mu alpha r r [tau] [mu] [alpha] []).
  destruct (apd_states A proxf proxg f gs alias z rz eta s delta (ini 1) Hf Hg Hali Hrz Hd He' Ht Hm Ha) as (st & S0 & Hst & Hpos).
  assert (Hbody : forall j, apd_body proxf proxg A alias z rz eta s delta (st j) = Ok (st (S j))) by (intro; apply Hst).
  assert (Hstep : forall j, apd_step A f gs z rz eta s delta (st j) (st (S j))) by (intro; apply Hst).
  assert (Had : forall j, adapt eta s delta (ap_p (st (S j))) (ap_d (st (S j))) (ap_tau (st j)) (ap_mu (st j)) (ap_alpha (st j)) (ap_tau (st (S j))) (ap_mu (st (S j))) (ap_alpha (st (S j)))) by (intro j; destruct (Hstep j) as (_ & _ & _ & _ & _ & _ & H & _); exact H).
  assert (Hprod : forall j, ap_tau (st j) * ap_mu (st j) = tau * mu).
  { induction j as [|j IH]; [rewrite S0; reflexivity|]. destruct (Hpos j) as (T & M & L). destruct (adapt_inv _ _ _ _ _ _ _ _ _ _ _ He' T M L (Had j)) as (_ & _ & _ & _ & J). congruence. }
  assert (Hdec : forall j, ap_alpha (st (S j)) <= ap_alpha (st j)).
  { intro j. destruct (Hpos j) as (T & M & L). destruct (adapt_inv _ _ _ _ _ _ _ _ _ _ _ He' T M L (Had j)) as (_ & _ & _ & J & _). exact J. }
  assert (Hle : forall j, ap_alpha (st j) <= alpha) by (induction j as [|j IH]; [rewrite S0; cbn; lra|specialize (Hdec j); lra]).
  set (K := / ((1 - alpha) * (1 - eta))). assert (HK : 0 < K) by (apply Rinv_0_lt_compat, Rmult_lt_0_compat; lra).
  assert (Hrate : forall j, ap_tau (st (S j)) <= (1 + K * (ap_alpha (st j) - ap_alpha (st (S j)))) * ap_tau (st j) /\ ap_tau (st j) <= (1 + K * (ap_alpha (st j) - ap_alpha (st (S j)))) * ap_tau (st (S j))).
  { intro j. destruct (Hpos j) as (T & M & L). apply (adapt_rate eta s delta (ap_p (st (S j))) (ap_d (st (S j))) _ (ap_mu (st j)) _ _ (ap_mu (st (S j))) _ alpha He T M); [specialize (Hle j); lra|lra|apply Had]. }
  assert (HAx : forall j, (1 <= j)%nat -> ap_Ax (st j) = lapp A (ap_x (st j))) by (intros [|j] Hj; [lia|]; destruct (Hstep j) as (_ & _ & H & _); exact H).
  assert (HATy : forall j, ap_ATy (st (S j)) = ladj A (ap_y (st (S j)))) by (intro j; destruct (Hstep j) as (_ & _ & _ & H & _); exact H).
  destruct (pd_cv_var A f gs (zvec z) (fun k => ap_tau (st (S k))) (fun k => ap_mu (st (S k))) (fun k => ap_alpha (st (S k))) (tau * mu) K kappa
     (fun k => ap_x (st (S k))) (fun k => ap_y (st (S k)))) as (xl & yl & Hsad & Lx & Ly); auto; try lra.
  { intro k. destruct (Hpos (S k)) as (T & M & _). auto. }
  { intro k. destruct (Hpos (S k)) as (_ & _ & L). split; [lra|apply Hdec]. }
  { intro v. destruct (Hf v 1 ltac:(lra)) as (p & _ & Hq). eauto. }
  { intro v. destruct (Hg v 1 ltac:(lra)) as (p & _ & Hq). eauto. }
  { intro j. destruct (Hstep (S j)) as (Q1 & Q2 & Q3 & _). rewrite HATy in Q1. split; [exact Q1|]. rewrite Q3, HAx in Q2 by lia.
    replace (lapp A (ap_x (st (S (S j))) [+] 1 [*] (ap_x (st (S (S j))) [-] ap_x (st (S j))))) with (2 [*] lapp A (ap_x (st (S (S j)))) [-] lapp A (ap_x (st (S j)))); [exact Q2|].
    rewrite lapp_add, lapp_scal, lapp_sub. vring. }
  assert (Hres : forall k, (1 <= k)%nat -> 0 <= ap_p (st k) /\ 0 <= ap_d (st k)).
  { intros [|k] Hk1; [lia|]. destruct (Hstep k) as (_ & _ & _ & _ & Q5 & Q6 & _). rewrite Q6. split; [|apply norm_nonneg]. unfold apd_p in Q5.
    destruct z as [v|]; [destruct (rz v); [|discriminate]|]; injection Q5 as <-; apply norm_nonneg. }
  (* the steps converge *)
  assert (Hal0 : forall j, 0 <= ap_alpha (st j)) by (intro j; destruct (Hpos j) as (_ & _ & ?); lra).
  assert (Hdcv : forall u : nat -> R, (forall j, u (S j) <= u j) -> (forall j, 0 <= u j) -> exists l, Un_cv u l).
  { intros u H1 H2. destruct (decreasing_cv u) as [l Hl]; [exact H1| |eauto]. exists 0. intros y [i ->]. unfold opp_seq. specialize (H2 i). lra. }
  destruct (Hdcv (fun j => ap_alpha (st j)) Hdec Hal0) as [al Hcal].
  assert (Hscv : forall r : nat -> R, (forall j, 0 < r j) -> (forall j, r (S j) <= (1 + K * (ap_alpha (st j) - ap_alpha (st (S j)))) * r j) -> exists l, Un_cv r l).
  { intros r R0 R1. assert (Hx : forall j, r (S j) * exp (K * ap_alpha (st (S j))) <= r j * exp (K * ap_alpha (st j))).
    { intro j. replace (K * ap_alpha (st j)) with (K * (ap_alpha (st j) - ap_alpha (st (S j))) + K * ap_alpha (st (S j))) by ring. rewrite exp_plus, <- Rmult_assoc.
      apply Rmult_le_compat_r; [left; apply exp_pos|]. eapply Rle_trans; [apply R1|]. rewrite Rmult_comm. apply Rmult_le_compat_l; [specialize (R0 j); lra|apply exp_ineq1_le]. }
    destruct (Hdcv (fun j => r j * exp (K * ap_alpha (st j))) Hx) as [m Hm0]; [intro j; apply Rmult_le_pos; [specialize (R0 j); lra|left; apply exp_pos]|].
    exists (m * exp (- (K * al))). apply (Un_cv_ext (fun j => r j * exp (K * ap_alpha (st j)) * exp (- (K * ap_alpha (st j))))).
    { intro j. rewrite Rmult_assoc, <- exp_plus. replace (K * ap_alpha (st j) + - (K * ap_alpha (st j))) with 0 by ring. rewrite exp_0. ring. }
    apply CV_mult; [exact Hm0|]. apply (continuity_seq exp (fun j => - (K * ap_alpha (st j))) (- (K * al))); [apply derivable_continuous_pt, derivable_pt_exp|].
    apply (CV_opp (fun j => K * ap_alpha (st j))). apply (CV_mult (fun _ => K)); [apply Un_cv_const|exact Hcal]. }
  destruct (Hscv (fun j => ap_tau (st j))) as [tl Htl]; [intro j; apply Hpos|apply Hrate|].
  assert (Hmrate : forall k, ap_mu (st (S k)) <= (1 + K * (ap_alpha (st k) - ap_alpha (st (S k)))) * ap_mu (st k)).
  { intro k. destruct (Hrate k) as [_ V2]. destruct (Hpos k) as (T1 & M1 & _). destruct (Hpos (S k)) as (T2 & M2 & _). pose proof (Hprod k) as E1. pose proof (Hprod (S k)) as E2. set (q := 1 + K * (ap_alpha (st k) - ap_alpha (st (S k)))) in *.
    apply (Rmult_le_reg_l (ap_tau (st k) * ap_tau (st (S k)))); [apply Rmult_lt_0_compat; assumption|].
    replace (ap_tau (st k) * ap_tau (st (S k)) * ap_mu (st (S k))) with (tau * mu * ap_tau (st k)) by (rewrite <- E2; ring).
    replace (ap_tau (st k) * ap_tau (st (S k)) * (q * ap_mu (st k))) with (tau * mu * (q * ap_tau (st (S k)))) by (rewrite <- E1; ring).
    apply Rmult_le_compat_l; [left; apply Rmult_lt_0_compat; assumption|exact V2]. }
  destruct (Hscv (fun j => ap_mu (st j))) as [ml Hml]; [intro j; apply Hpos|exact Hmrate|].
  assert (Htm : tl * ml = tau * mu).
  { apply (UL_sequence (fun j => ap_tau (st j) * ap_mu (st j))); [apply CV_mult; assumption|]. apply (Un_cv_ext (fun _ => tau * mu)); [intro; symmetry; apply Hprod|apply Un_cv_const]. }
  assert (Htm0 : 0 < tau * mu) by (apply Rmult_lt_0_compat; assumption).
  assert (Hge : forall r l, (forall j : nat, 0 < r j) -> Un_cv r l -> 0 <= l).
  { intros r l R0 Hr. destruct (Rle_lt_dec 0 l) as [?|Hn]; [assumption|]. destruct (Hr (- l) ltac:(lra)) as [N HN]. specialize (HN N (le_n N)). unfold R_dist in HN. specialize (R0 N). rewrite Rabs_right in HN; lra. }
  assert (Htl0 : 0 <= tl) by (apply (Hge (fun j => ap_tau (st j))); [intro; apply Hpos|exact Htl]). assert (Hml0 : 0 <= ml) by (apply (Hge (fun j => ap_mu (st j))); [intro; apply Hpos|exact Hml]).
  assert (tl <> 0) by (intros ->; lra). assert (ml <> 0) by (intros ->; lra).
  assert (Hml1 : 0 < ml) by lra.
  assert (Hds : Un_cv (fun k => ap_d (st k)) 0).
  { apply (CV_shift (fun k => ap_d (st k)) 2 0). set (C := kappa / (tau * mu)). assert (HC : 0 <= C) by (unfold C; apply Rmult_le_pos; [lra|left; apply Rinv_0_lt_compat; exact Htm0]).
    assert (HAC : forall a, norm (lapp A a) <= sqrt C * norm a).
    { intro a. unfold norm. rewrite <- sqrt_mult_alt by exact HC. apply sqrt_le_1_alt. apply (Rmult_le_reg_l (tau * mu)); [exact Htm0|]. replace (tau * mu * (C * norm2 a)) with (kappa * norm2 a) by (unfold C; field; lra). apply HA. }
    assert (D1 : Un_cv (fun k => norm (ap_y (st (S k)) [-] ap_y (st (S (S k))))) 0).
    { rewrite <- (norm_zero (E:=F)). replace (vzero : F) with (yl [-] yl) by vring. apply (vcv_norm (fun k => ap_y (st (S k)) [-] ap_y (st (S (S k))))). apply vcv_minus; [exact Ly|apply (vcv_shift (fun k => ap_y (st (S k)))); exact Ly]. }
    assert (D2 : Un_cv (fun k => norm (ap_x (st (S k)) [-] ap_x (st (S (S k))))) 0).
    { rewrite <- (norm_zero (E:=E)). replace (vzero : E) with (xl [-] xl) by vring. apply (vcv_norm (fun k => ap_x (st (S k)) [-] ap_x (st (S (S k))))). apply vcv_minus; [exact Lx|apply (vcv_shift (fun k => ap_x (st (S k)))); exact Lx]. }
    assert (D3 : Un_cv (fun k => / ap_mu (st (S k))) (/ ml)).
    { apply (continuity_seq (fun x => / x) (fun k => ap_mu (st (S k))) ml); [apply (continuity_pt_inv (fun x => x)); [apply derivable_continuous_pt, derivable_pt_id|lra]|]. intros e He0. destruct (Hml e He0) as [N HN]. exists N. intros n Hn. apply HN. lia. }
    apply (Un_cv_squeeze _ (fun k => / ap_mu (st (S k)) * norm (ap_y (st (S k)) [-] ap_y (st (S (S k)))) + sqrt C * norm (ap_x (st (S k)) [-] ap_x (st (S (S k)))))).
    - intro k. destruct (Hstep (S k)) as (_ & _ & _ & _ & _ & Q6 & _). replace (k + 2)%nat with (S (S k)) by lia. rewrite Q6. split; [apply norm_nonneg|]. destruct (Hpos (S k)) as (_ & M & _). apply Rinv_0_lt_compat in M.
      eapply Rle_trans; [apply norm_sub_le|]. apply Rplus_le_compat; [rewrite norm_scal, Rabs_right by lra; lra|]. rewrite !HAx by lia. rewrite <- lapp_sub. apply HAC.
    - replace 0 with (/ ml * 0 + sqrt C * 0) by ring. apply (CV_plus (fun k => / ap_mu (st (S k)) * norm (ap_y (st (S k)) [-] ap_y (st (S (S k)))))); [apply CV_mult; assumption|]. apply (CV_mult (fun _ => sqrt C)); [apply Un_cv_const|exact D2]. }
  exists (fun k => ap_x (st k)), (fun k => ap_tau (st k)), (fun k => ap_mu (st k)), (fun k => ap_alpha (st k)), (fun k => ap_p (st k)), (fun k => ap_d (st k)), xl, tl, ml.
  split; [rewrite S0; reflexivity|]. split; [|split; [exact Hres|]; split; [apply (saddle_primal A f g gs (zvec z) xl yl); auto|]; split; [apply vcv_unshift; exact Lx|]; repeat split; auto; lra].
  intros niter tol. unfold AdaptivePrimalDual. fold (ini (tol + 1)).
  destruct niter as [|n].
  - exists 0%nat. split; [lia|]. cbn [apd_while bind]. split; [|split; [auto|intros j Hj; lia]]. unfold ini. cbn [ap_x ap_taus ap_mus ap_alphas ap_tr seq map]. rewrite S0. reflexivity.
  - cbn [apd_while]. change (ap_p (ini (tol + 1))) with (tol + 1). change (ap_d (ini (tol + 1))) with (tol + 1).
    destruct (Rltb_spec tol (tol + 1)) as [[_ ->]|[? _]]; [|lra]. cbn [andb].
    replace (apd_body proxf proxg A alias z rz eta s delta (ini (tol + 1))) with (Ok (st 1%nat)) by (rewrite <- (Hbody 0%nat), S0; reflexivity). cbn [bind].
    destruct (apd_while_prefix A proxf proxg alias z rz eta s delta tol st n 1 Hbody) as (k & Hkn & -> & Hstop & Hfirst). cbn [bind].
    exists (S k). split; [lia|]. change (1 + k)%nat with (S k) in *. destruct (apd_hist A f gs z rz eta s delta st x0 tau mu alpha 1 1 Hstep S0 (S k)) as (-> & -> & -> & ->).
    split; [reflexivity|]. split; [destruct Hstop as [->|Hstop]; [left; reflexivity|right; split; [lia|exact Hstop]]|]. intros j Hj. apply Hfirst. lia.
Qed.

(*! C81_adaptive : the same for AdaptivePrimalDual without early stop, when a minimiser exists and Slater's condition holds (no saddle point
   assumed) *)
Lemma C81_adaptive_l : forall (E F : IPS) (A : linop E F) proxf proxg f g gs alias x0 tau mu kappa alpha eta s delta z rz tol, bw E -> bw F -> hb F ->
  impl_prox proxf f -> impl_proxdual proxg gs -> convex f -> convex g -> is_conj g gs -> (forall u, exists p, is_prox g 1 u p) ->
  alias = None \/ z = None -> (forall v, z = Some v -> rz v <> None) ->
  0 < tau -> 0 < mu -> 0 <= kappa < 1 -> (forall a, tau * mu * norm2 (lapp A a) <= kappa * norm2 a) -> 0 < alpha < 1 -> 0 < eta < 1 -> 0 < delta -> tol < 0 ->
  qualified f g A -> (exists m, is_min (eadd (elin f (zvec z)) (epre g (lapp A))) m) ->
  exists xs xl, (forall n, exists h tr, AdaptivePrimalDual proxf proxg A alias x0 tau mu alpha eta s delta z rz n tol = Ok (xs n, h, tr)) /\
    is_min (eadd (elin f (zvec z)) (epre g (lapp A))) xl /\ vcv xs xl.
Proof.
  intros E F A proxf proxg f g gs alias x0 tau mu kappa alpha eta s delta z rz tol BE BF HF If Ig Cf Cg Hc Hp Hal Hrz Ht Hmu Hk HA Ha He Hd Htol Hq [m Hm].
  destruct (multiplier (elin f (zvec z)) g A m HF (convex_lin f _ Cf) Cg Hq Hm) as (v & V1 & V2).
  destruct (C58_converges_l E F A proxf proxg f g gs alias x0 tau mu kappa alpha eta s delta z rz) as (xs & ts & ms & als & ps & ds & xl & tl & ml & _ & H1 & H2 & H3 & H4 & _); auto.
  - exists m, v. split.
    + apply (subgrad_lin f (zvec z) m). replace (vopp (ladj A v [+] zvec z) [+] zvec z) with (vopp (ladj A v)) by (unfold vopp; vring). exact V1.
    + exact (proj1 (subgrad_conj g gs _ _ Hc V2)).
  - exists xs, xl. split; [|auto]. intro n. destruct (H1 n tol) as (k & Hkn & Hr & [->|[Hk1 Hstop]] & _); [eauto|]. exfalso. destruct (H2 k Hk1). lra.
Qed.

(*! C85_adaptive : the same for AdaptivePrimalDual without early stop (tol < 0, adaptivity 0 < alpha < 1, 0 < eta < 1): f, g closed and the sets
   {f + <z,.> + g(A .) <= c} bounded (no minimiser assumed) *)
Lemma C85_adaptive_l : forall (E F : IPS) (A : linop E F) proxf proxg f g gs alias x0 tau mu kappa alpha eta s delta z rz tol, bw E -> bw F -> hb F -> complete E -> described E ->
  impl_prox proxf f -> impl_proxdual proxg gs -> convex f -> convex g -> closed f -> closed g -> is_conj g gs -> (forall u, exists p, is_prox g 1 u p) ->
  alias = None \/ z = None -> (forall v, z = Some v -> rz v <> None) ->
  0 < tau -> 0 < mu -> 0 <= kappa < 1 -> (forall a, tau * mu * norm2 (lapp A a) <= kappa * norm2 a) -> 0 < alpha < 1 -> 0 < eta < 1 -> 0 < delta -> tol < 0 ->
  qualified f g A -> level_bounded (eadd (elin f (zvec z)) (epre g (lapp A))) ->
  exists xs xl, (forall n, exists h tr, AdaptivePrimalDual proxf proxg A alias x0 tau mu alpha eta s delta z rz n tol = Ok (xs n, h, tr)) /\
    is_min (eadd (elin f (zvec z)) (epre g (lapp A))) xl /\ vcv xs xl.
Proof.
  intros E F A proxf proxg f g gs alias x0 tau mu kappa alpha eta s delta z rz tol BE BF HF HE HU If Ig Cf Cg Lf Lg Hcj Hpg Hal Hrz Ht Hmu Hk HA Ha He Hd Htol Hq Hl.
  eapply C81_adaptive_l; eauto.
  apply (exist_pre (elin f (zvec z)) g A (sqrt (kappa / (tau * mu)))); auto.
  - apply convex_lin; exact Cf.
  - apply closed_lin; exact Lf.
  - apply minor_lin. eapply minor_impl; eassumption.
  - apply minor_prox; assumption.
  - apply bound_of_step; [apply Rmult_lt_0_compat; assumption|lra|exact HA].
  - exact (qual_dom f g A Hq).
Qed.

(*!ex C58_converges_example : on the problem of C58_stops_early_refuted (f = (x-1)^2/2, g = x^2/2, A = identity, x0 = 1/4, tau = 1/4, mu = 3, where the
   default tol stops after one iteration at 2/5), tol = -1 and the default alpha, eta, s, delta give vectors that converge to the minimiser 1/2 *)
Lemma C58_converges_example_l : exists xs, (forall n, exists h tr, AdaptivePrimalDual shifted1 half1 (id_linop R_IPS) None (1/4 : R_IPS) (1/4) 3 (1/2) (95/100) 1 (3/2) None (fun v => Some v) n (-1) = Ok (xs n, h, tr)) /\
  vcv xs (1/2 : R_IPS).
Proof.
  destruct C58_example_l as (H1 & H2 & H3 & H4 & H5 & _). set (f := etot (E:=R_IPS) (fun x : R_IPS => 1 / 2 * ((x - 1) * (x - 1)))) in *.
  destruct (C58_converges_l R_IPS R_IPS (id_linop R_IPS) shifted1 half1 f half1_fun half1_fun None (1/4 : R_IPS) (1/4) 3 (3/4) (1/2) (95/100) 1 (3/2) None (fun v => Some v))
    as (xs & ts & ms & als & ps & ds & xl & tl & ml & _ & Hr & Hp & Hm & Hx & _); auto using bw_R, half1_conj; try lra.
  - intro u. destruct (half1_prox u 1 ltac:(lra)) as (p & _ & Hq). eauto.
  - intros v E. discriminate.
  - intro a. cbn [lapp id_linop]. lra.
  - exists (1/2 : R_IPS), (1/2 : R_IPS). exact H5.
  - exists xs. split.
    + intro n. destruct (Hr n (-1)) as (k & Hk & E & [->|[Hk1 Hs]] & _); [eauto|]. destruct (Hp k Hk1). lra.
    + assert (Hxl : xl = (1/2 : R_IPS)); [|rewrite <- Hxl; exact Hx].
      destruct Hm as [_ Hm]. specialize (Hm (1/2 : R_IPS) (Logic.conj I I)). cbn in Hm. assert (0 <= (xl - 1/2) * (xl - 1/2)) by apply Rle_0_sqr.
      assert (Hz : (xl - 1/2) * (xl - 1/2) = 0) by (unfold zvec in Hm; cbn in Hm; lra). apply Rmult_integral in Hz. lra.
Qed.
