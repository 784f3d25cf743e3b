(** * Proofs about the primal-dual solvers in their own inner product (M_PD.v, M_Split.v, M_Breg.v, M_Count.v) *)
From Coq Require Import String Psatz Classical.
From Verif Require Import Base Space Spec VSum Sep ConvexFacts Smooth MatFacts M_ProxOp SpecOps P_ProxOp M_Norms P_Norms M_Loop LoopFacts LoopFacts2 SeqFacts M_PG M_Split M_PD M_Breg SplitMath P_PG P_PG2 P_PG3 P_Split P_Split2 P_Split3 S_PD P_PD S_Seq Compact Fejer IterMath IterMath2 IterMath3 S_Iter P_Iter P_Iter2 S_Exist ExistMath S_Inexact InexactMath M_Count S_Count CountMath P_Count S_Pnp PnpMath P_Pnp S_Sets P_Sets S_Sparse M_L1 S_L1 P_L1 S_Incons InconsMath EscapeMath P_Incons MetricMath.
From Verif Require Export S_Metric.
Open Scope result_scope.
Open Scope R_scope.

(** ** the iteration of two firmly non-expansive maps *)
Section G.
Context {E F : IPS} (HE : bw E) (HF : bw F) (A : linop E F) (tau mu kappa : R) (P : E -> E) (Q : F -> F) (z : E).
Hypothesis Ht : 0 < tau.
Hypothesis Hm : 0 < mu.
Hypothesis Hk : 0 <= kappa < 1.
Hypothesis HA : forall a, tau * mu * norm2 (lapp A a) <= kappa * norm2 a.
Hypothesis HP : firm P.
Hypothesis HQ : firm Q.
Let M := MIPS A tau mu kappa Ht Hm Hk HA.
Let T : M -> M := pdmap A tau mu kappa Ht Hm Hk HA P Q z.
Definition pd_fix (x : E) (y : F) : Prop := x = P (x [-] tau [*] (ladj A y [+] z)) /\ y = Q (y [+] mu [*] lapp A x).
Lemma pd_fix_iff x y : pd_fix x y <-> T ((x, y) : M) = ((x, y) : M).
Proof.
  unfold pd_fix, T, pdmap. cbn [fst snd]. split.
  - intros [H1 H2]. f_equal; [symmetry; exact H1|]. rewrite <- H1. replace (x [+] 1 [*] (x [-] x)) with x by vring. symmetry. exact H2.
  - intro H. injection H as H1 H2. rewrite H1 in H2. replace (x [+] 1 [*] (x [-] x)) with x in H2 by vring. split; symmetry; assumption.
Qed.
Definition pd_step (x : E) (y : F) (x' : E) (y' : F) : Prop := x' = P (x [-] tau [*] (ladj A y [+] z)) /\ y' = Q (y [+] mu [*] lapp A (x' [+] 1 [*] (x' [-] x))).
Lemma pd_cases (xs : nat -> E) (ys : nat -> F) : (forall j, pd_step (xs j) (ys j) (xs (S j)) (ys (S j))) ->
  (exists xl yl, pd_fix xl yl /\ vcv xs xl /\ vcv ys yl) \/ ((forall xl yl, ~ pd_fix xl yl) /\ escapes (E:=Prod_IPS E F) (fun n => (xs n, ys n))).
Proof.
  intro HR. set (w := (fun n => (xs n, ys n)) : nat -> M).
  assert (Hw : forall n, w (S n) = T (w n)). { intro n. destruct (HR n) as [H1 H2]. unfold w, T, pdmap. cbn [fst snd]. rewrite <- H1. f_equal. exact H2. }
  destruct (km_cases (m_bw A tau mu kappa Ht Hm Hk HA HE HF) 1 T w (firm_averaged T (pdmap_firm A tau mu kappa Ht Hm Hk HA P Q z HP HQ)) Hw) as [([x y] & Hf & Hv)|[Hno Hes]].
  - left. exists x, y. split; [apply pd_fix_iff; exact Hf|]. apply m_vcv in Hv. exact Hv.
  - right. split; [intros x y Hf; apply pd_fix_iff in Hf; exact (Hno _ Hf)|]. apply (m_escapes A tau mu kappa Ht Hm Hk HA). exact Hes.
Qed.
(** consecutive dual vectors stay within a fixed distance *)
Lemma pd_ydiff (xs : nat -> E) (ys : nat -> F) : (forall j, pd_step (xs j) (ys j) (xs (S j)) (ys (S j))) -> exists B, forall n, norm (ys (S n) [-] ys n) <= B.
Proof.
  intro HR. set (w := (fun n => (xs n, ys n)) : nat -> M).
  assert (Hw : forall n, w (S n) = T (w n)). { intro n. destruct (HR n) as [H1 H2]. unfold w, T, pdmap. cbn [fst snd]. rewrite <- H1. f_equal. exact H2. }
  pose proof (averaged_nonexp 1 T (firm_averaged T (pdmap_firm A tau mu kappa Ht Hm Hk HA P Q z HP HQ))) as NT.
  destruct (m_snd A tau mu kappa Ht Hm Hk HA) as (C & HC & Hs).
  assert (D : forall n, norm (w (S n) [-] w n) <= norm (w 1%nat [-] w 0%nat)). { induction n as [|n IH]; [lra|]. rewrite (Hw (S n)), (Hw n). eapply Rle_trans; [apply NT|]. rewrite <- Hw. exact IH. }
  exists (C * norm (w 1%nat [-] w 0%nat)). intro n. eapply Rle_trans; [exact (Hs (w (S n) [-] w n))|]. apply Rmult_le_compat_l; [lra|apply D].
Qed.
(** errors with a finite sum *)
Lemma pd_pert (xs : nat -> E) (ys : nat -> F) (ex ey : nat -> R) : summable ex -> summable ey -> (exists xl yl, pd_fix xl yl) ->
  (forall j, norm (xs (S j) [-] P (xs j [-] tau [*] (ladj A (ys j) [+] z))) <= ex j /\ norm (ys (S j) [-] Q (ys j [+] mu [*] lapp A (xs (S j) [+] 1 [*] (xs (S j) [-] xs j)))) <= ey j) ->
  exists xl yl, pd_fix xl yl /\ vcv xs xl /\ vcv ys yl.
Proof.
  intros Sx Sy (x0 & y0 & Hfix) HR. set (w := (fun n => (xs n, ys n)) : nat -> M). pose proof (pdmap_firm A tau mu kappa Ht Hm Hk HA P Q z HP HQ) as FT. fold T in FT.
  pose proof (averaged_nonexp 1 T (firm_averaged T FT)) as NT. destruct (m_up A tau mu kappa Ht Hm Hk HA) as (C & HC & Hup).
  set (K := 2 * mu * sqrt (/ (tau * mu))). assert (HK : 0 <= K) by (unfold K; pose proof (sqrt_pos (/ (tau * mu))); nra).
  destruct (perturbed_cv (m_bw A tau mu kappa Ht Hm Hk HA HE HF) T w (fun k => sqrt C * ((1 + K) * ex k + ey k)) NT) as ([x y] & Hf & Hv).
  - intros us Hu. destruct (km_cv (m_bw A tau mu kappa Ht Hm Hk HA HE HF) 1 T us (firm_averaged T FT)) as (l & H1 & H2); [exists ((x0, y0) : M); apply pd_fix_iff; exact Hfix|exact Hu|]. exists l. auto.
  - apply summable_scal; [apply sqrt_pos|]. apply summable_add; [apply summable_scal; [lra|exact Sx]|exact Sy].
  - intro k. destruct (HR k) as [H1 H2]. unfold w at 1. unfold T, pdmap. set (p := P (fst (w k) [-] tau [*] (ladj A (snd (w k)) [+] z))). cbn [w fst snd] in p. fold p in H1.
    set (q := Q (ys k [+] mu [*] lapp A (p [+] 1 [*] (p [-] xs k)))).
    change (norm (E:=M) (up A tau mu kappa Ht Hm Hk HA (xs (S k) [-] p, ys (S k) [-] q)) <= sqrt C * ((1 + K) * ex k + ey k)).
    assert (Hy : norm (ys (S k) [-] q) <= ey k + K * ex k).
    { set (q' := Q (ys k [+] mu [*] lapp A (xs (S k) [+] 1 [*] (xs (S k) [-] xs k)))) in *. eapply Rle_trans; [apply (tri_sub _ q')|]. apply Rplus_le_compat; [exact H2|]. eapply Rle_trans; [apply (firm_nonexp Q HQ)|].
      replace (ys k [+] mu [*] lapp A (xs (S k) [+] 1 [*] (xs (S k) [-] xs k)) [-] (ys k [+] mu [*] lapp A (p [+] 1 [*] (p [-] xs k)))) with ((2 * mu) [*] lapp A (xs (S k) [-] p)) by (rewrite !lapp_add, !lapp_scal, !lapp_sub; vring).
      rewrite norm_scal, Rabs_right by lra. unfold K. rewrite (Rmult_assoc (2 * mu)). apply Rmult_le_compat_l; [lra|]. apply Rle_trans with (sqrt (/ (tau * mu)) * norm (xs (S k) [-] p)); [|apply Rmult_le_compat_l; [apply sqrt_pos|exact H1]].
      assert (Htm : 0 < tau * mu) by (apply Rmult_lt_0_compat; assumption). unfold norm. rewrite <- sqrt_mult_alt by (left; apply Rinv_0_lt_compat; exact Htm). apply sqrt_le_1_alt. apply (Rmult_le_reg_l (tau * mu)); [exact Htm|]. rewrite <- Rmult_assoc, Rinv_r, Rmult_1_l by lra.
      pose proof (HA (xs (S k) [-] p)). pose proof (norm2_nonneg (xs (S k) [-] p)). nra. }
    pose proof (norm_nonneg (xs (S k) [-] p)) as N1. pose proof (norm_nonneg (ys (S k) [-] q)) as N2.
    unfold norm at 1. apply Rle_trans with (sqrt (C * ((norm (xs (S k) [-] p) + norm (ys (S k) [-] q)) * (norm (xs (S k) [-] p) + norm (ys (S k) [-] q))))).
    + apply sqrt_le_1_alt. eapply Rle_trans; [apply Hup|]. apply Rmult_le_compat_l; [lra|]. rewrite <- (norm_sq (xs (S k) [-] p)), <- (norm_sq (ys (S k) [-] q)). nra.
    + rewrite sqrt_mult_alt by lra. rewrite sqrt_square by lra. apply Rmult_le_compat_l; [apply sqrt_pos|]. lra.
  - exists x, y. split; [apply pd_fix_iff; exact Hf|]. apply m_vcv in Hv. exact Hv.
Qed.
End G.

(** ** PrimalDual *)
Lemma pd_maps {E F : IPS} (A : linop E F) proxf proxg (P : E -> E) (Q : F -> F) alias x0 tau mu y0 z gfirst : (forall v, o_prox proxf v tau = Ok (P v)) -> (forall v, o_proxdual proxg v mu = Ok (Q v)) -> alias = None \/ z = None ->
  exists xs ys, (forall n, exists tr, PrimalDual proxf proxg A alias x0 (Scalar tau) (Scalar mu) y0 z 1 n gfirst = Ok (xs n, ys n, tr)) /\
    forall j, if gfirst : bool then pd_step A tau mu P Q (zvec z) (xs j) (ys (S j)) (xs (S j)) (ys (S (S j))) else pd_step A tau mu P Q (zvec z) (xs j) (ys j) (xs (S j)) (ys (S j)).
Proof.
  intros HP HQ Hal.
  set (body := fun (j : nat) (s : @pd_state E F) => if gfirst then
      y <- o_proxdual proxg (pd_y s [+] mu [*] lapp A (pd_hat s)) mu ;;
      let (aty, y) := rmatvec_plus A alias z y in
      x <- o_prox proxf (pd_x s [-] tau [*] aty) tau ;;
      Ok (M_PD.PD x y (x [+] 1 [*] (x [-] pd_x s)) (pd_tr s ++ [(x, y)]), false)
    else
      let (aty, y) := rmatvec_plus A alias z (pd_y s) in
      x <- o_prox proxf (pd_x s [-] tau [*] aty) tau ;;
      let xhat := x [+] 1 [*] (x [-] pd_x s) in
      y <- o_proxdual proxg (y [+] mu [*] lapp A xhat) mu ;;
      Ok (M_PD.PD x y xhat (pd_tr s ++ [(x, y)]), false)).
  destruct (loop_seq body (fun _ _ => True) (fun _ s s' => pd_hat s' = pd_x s' [+] 1 [*] (pd_x s' [-] pd_x s) /\
     (if gfirst then pd_y s' = Q (pd_y s [+] mu [*] lapp A (pd_hat s)) /\ pd_x s' = P (pd_x s [-] tau [*] (ladj A (pd_y s') [+] zvec z))
      else pd_x s' = P (pd_x s [-] tau [*] (ladj A (pd_y s) [+] zvec z)) /\ pd_y s' = Q (pd_y s [+] mu [*] lapp A (pd_hat s'))))
     (M_PD.PD x0 (y0vec y0) x0 [])) as (st & S0 & Hrun & _ & HR); [exact I| |].
  { intros j s _. unfold body. destruct gfirst.
    - rewrite HQ. cbn [bind]. rewrite rmatvec_plus_ok by auto. rewrite HP. cbn [bind]. eexists. split; [reflexivity|]. cbn [pd_x pd_y pd_hat]. auto.
    - rewrite rmatvec_plus_ok by auto. rewrite HP. cbn [bind]. rewrite HQ. cbn [bind]. eexists. split; [reflexivity|]. cbn [pd_x pd_y pd_hat]. auto. }
  exists (fun k => pd_x (st k)), (fun k => pd_y (st k)). split.
  - intro n. exists (pd_tr (st n)). unfold PrimalDual. replace (match y0 with Some y => y | None => vzero end) with (y0vec y0) by (destruct y0; reflexivity).
    rewrite (for_loop_ext _ body); [rewrite Hrun; reflexivity|]. intros j s Hj. unfold pd_body, body, getitem. cbn [steps_arr]. rewrite !nth_error_repeat by lia. reflexivity.
  - intro j. destruct (HR j) as (H1 & H2). destruct gfirst.
    + destruct (HR (S j)) as (G1 & G2 & G3). split; [apply H2|]. rewrite H1 in G2. exact G2.
    + split; [apply H2|]. destruct H2 as [_ H2]. rewrite H1 in H2. exact H2.
Qed.
Lemma pd_run_cases {E F : IPS} (A : linop E F) proxf proxg (P : E -> E) (Q : F -> F) alias x0 tau mu kappa y0 z (gfirst : bool) : bw E -> bw F ->
  (forall v, o_prox proxf v tau = Ok (P v)) -> (forall v, o_proxdual proxg v mu = Ok (Q v)) -> firm P -> firm Q -> 0 < tau -> 0 < mu -> 0 <= kappa < 1 -> (forall a, tau * mu * norm2 (lapp A a) <= kappa * norm2 a) -> alias = None \/ z = None ->
  exists xs ys, (forall n, exists tr, PrimalDual proxf proxg A alias x0 (Scalar tau) (Scalar mu) y0 z 1 n gfirst = Ok (xs n, ys n, tr)) /\
    ((exists xl yl, pd_fix A tau mu P Q (zvec z) xl yl /\ vcv xs xl /\ vcv ys yl) \/ ((forall xl yl, ~ pd_fix A tau mu P Q (zvec z) xl yl) /\ escapes (E:=Prod_IPS E F) (fun n => (xs n, ys n)))).
Proof.
  intros HE HF HP HQ FP FQ Ht Hm Hk HA Hal. destruct (pd_maps A proxf proxg P Q alias x0 tau mu y0 z gfirst HP HQ Hal) as (xs & ys & Hrun & HR). exists xs, ys. split; [exact Hrun|]. destruct gfirst.
  - destruct (pd_cases HE HF A tau mu kappa P Q (zvec z) Ht Hm Hk HA FP FQ xs (fun n => ys (S n)) HR) as [(xl & yl & H1 & H2 & H3)|[H1 H2]].
    + left. exists xl, yl. split; [exact H1|]. split; [exact H2|]. apply vcv_unshift. exact H3.
    + right. split; [exact H1|]. destruct (pd_ydiff A tau mu kappa P Q (zvec z) Ht Hm Hk HA FP FQ xs (fun n => ys (S n)) HR) as [B HB].
      intro K. destruct (H2 (K + (B + norm (ys 1%nat [-] ys 0%nat)))) as [N HN]. exists N. intros n Hn. specialize (HN n Hn).
      pose proof (norm_triangle (E:=Prod_IPS E F) (xs n, ys n) ((vzero, ys (S n) [-] ys n) : Prod_IPS E F)) as Tr.
      replace (((xs n, ys n) : Prod_IPS E F) [+] ((vzero, ys (S n) [-] ys n) : Prod_IPS E F)) with ((xs n, ys (S n)) : Prod_IPS E F) in Tr by (change ((xs n, ys (S n)) = (xs n [+] vzero, ys n [+] (ys (S n) [-] ys n))); f_equal; vring).
      assert (Hd : norm (((vzero, ys (S n) [-] ys n)) : Prod_IPS E F) = norm (ys (S n) [-] ys n)).
      { unfold norm. f_equal. change (norm2 (vzero : E) + norm2 (ys (S n) [-] ys n) = norm2 (ys (S n) [-] ys n)). rewrite norm2_zero. ring. }
      assert (Hb : norm (ys (S n) [-] ys n) <= B + norm (ys 1%nat [-] ys 0%nat)).
      { pose proof (norm_nonneg (ys 1%nat [-] ys 0%nat)). pose proof (HB 0%nat). pose proof (norm_nonneg (ys 2%nat [-] ys 1%nat)). destruct n as [|n]; [lra|]. specialize (HB n). lra. }
      lra.
  - apply (pd_cases HE HF A tau mu kappa P Q (zvec z) Ht Hm Hk HA FP FQ xs ys HR).
Qed.
Lemma dual_map {E : IPS} (o : Op E) gs mu : impl_proxdual o gs -> 0 < mu -> exists Q : E -> E, (forall v, o_proxdual o v mu = Ok (Q v)) /\ forall v, is_prox gs mu v (Q v).
Proof.
  intros H Hm. exists (fun v => match o_proxdual o v mu with Ok p => p | Err _ => vzero end). split; intro v; destruct (H v mu Hm) as (p & -> & Hp); auto.
Qed.
Lemma pd_fix_saddle {E F : IPS} (A : linop E F) (f : efun E) (gs : efun F) tau mu P Q z x y : convex f -> convex gs -> 0 < tau -> 0 < mu -> (forall v, is_prox f tau v (P v)) -> (forall v, is_prox gs mu v (Q v)) ->
  pd_fix A tau mu P Q z x y <-> saddle A f gs z x y.
Proof.
  intros Cf Cg Ht Hm HP HQ. split.
  - intros [H1 H2]. apply (it_saddle A f gs z tau mu Ht Hm); auto. split; [|replace (x [+] 1 [*] (x [-] x)) with x by vring].
    + rewrite H1 at 2. apply HP.
    + rewrite H2 at 2. apply HQ.
  - intro H. destruct (saddle_it A f gs z tau mu Ht Hm x y H) as [H1 H2]. replace (x [+] 1 [*] (x [-] x)) with x in H2 by vring. split.
    + apply (prox_unique f tau _ _ _ Cf Ht H1 (HP _)).
    + apply (prox_unique gs mu _ _ _ Cg Hm H2 (HQ _)).
Qed.
(*! C104_primal_dual : f and gs convex with exact prox and dual prox, theta = 1, constant steps with tau mu |A a|^2 <= kappa |a|^2 for some kappa < 1, any start, either order, finite dimension, and no assumption that a
   solution exists: PrimalDual never raises, and the pairs returned with niter = 0, 1, 2, ... either converge to a saddle point, or there is no saddle point and the norm of the pair tends to infinity *)
Lemma C104_primal_dual_l : forall (E F : IPS) (A : linop E F) proxf proxg f gs alias x0 tau mu kappa y0 z (gfirst : bool), bw E -> bw F ->
  impl_prox proxf f -> impl_proxdual proxg gs -> convex f -> convex gs -> 0 < tau -> 0 < mu -> 0 <= kappa < 1 -> (forall a, tau * mu * norm2 (lapp A a) <= kappa * norm2 a) -> alias = None \/ z = None ->
  exists xs ys, (forall n, exists tr, PrimalDual proxf proxg A alias x0 (Scalar tau) (Scalar mu) y0 z 1 n gfirst = Ok (xs n, ys n, tr)) /\
    ((exists xl yl, saddle A f gs (zvec z) xl yl /\ vcv xs xl /\ vcv ys yl) \/ ((forall xo yo, ~ saddle A f gs (zvec z) xo yo) /\ escapes (E:=Prod_IPS E F) (fun n => (xs n, ys n)))).
Proof.
  intros E F A proxf proxg f gs alias x0 tau mu kappa y0 z gfirst HE HF Hf Hg Cf Cg Ht Hm Hk HA Hal. destruct (prox_map proxf f tau Hf Ht) as (P & EP & HP). destruct (dual_map proxg gs mu Hg Hm) as (Q & EQ & HQ).
  destruct (pd_run_cases A proxf proxg P Q alias x0 tau mu kappa y0 z gfirst HE HF EP EQ (prox_firmly f tau P Cf Ht HP) (prox_firmly gs mu Q Cg Hm HQ) Ht Hm Hk HA Hal) as (xs & ys & Hrun & Hc). exists xs, ys. split; [exact Hrun|].
  destruct Hc as [(xl & yl & H1 & H2)|[H1 H2]]; [left; exists xl, yl; split; [|exact H2]|right; split; [|exact H2]; intros xo yo Hs; apply (H1 xo yo)]; apply (pd_fix_saddle A f gs tau mu P Q); auto.
Qed.

(** ** an operator whose proxdual is the one inherited from ProxOperator *)
Lemma moreau_prox {E : IPS} fuel (b : Body E) (D : E -> E) mu : b_proxdual b = None -> 0 < mu -> (forall v, o_prox (obj (S fuel) b) v (1 / mu) = Ok (D v)) ->
  forall v, o_proxdual (obj (S (S fuel)) b) v mu = Ok (v [-] mu [*] D (/ mu [*] v)).
Proof. intros Hb Hm HD v. cbn [o_proxdual obj]. change (d_proxdual (S (S fuel)) b v mu) with (match b_proxdual b with Some m => check_tau mu (m v mu) | None => check_tau mu (p <- d_prox (S fuel) b (/ mu [*] v) (1 / mu) ;; Ok (v [-] mu [*] p)) end). rewrite Hb, check_tau_pos by auto. specialize (HD (/ mu [*] v)). cbn [o_prox obj] in HD. rewrite HD. reflexivity. Qed.
Lemma moreau_firm {E : IPS} (D : E -> E) mu : 0 < mu -> firm D -> firm (fun v => v [-] mu [*] D (/ mu [*] v)).
Proof.
  intros Hm HD x y. specialize (HD (/ mu [*] x) (/ mu [*] y)). set (p := D (/ mu [*] x)) in *. set (q := D (/ mu [*] y)) in *.
  replace (x [-] mu [*] p [-] (y [-] mu [*] q)) with ((x [-] y) [-] mu [*] (p [-] q)) by vring. replace (/ mu [*] x [-] / mu [*] y) with (/ mu [*] (x [-] y)) in HD by vring.
  revert HD. generalize (p [-] q) (x [-] y). intros d a HD. rewrite norm2_sub, norm2_scal, inner_sub_l, !inner_scal_l, !inner_scal_r in *. fold (norm2 a). rewrite (inner_sym a d).
  apply (Rmult_le_compat_l (mu * mu)) in HD; [|nra]. replace (mu * mu * (/ mu * << d, a >>)) with (mu * << d, a >>) in HD by (field; lra). lra.
Qed.
Lemma prox_step_iff {E : IPS} (f : efun E) tau P x w : convex f -> 0 < tau -> (forall v, is_prox f tau v (P v)) -> x = P (x [-] tau [*] w) <-> is_subgrad f x (vopp w).
Proof.
  intros Cf Ht HP. assert (Q : / tau [*] (x [-] tau [*] w [-] x) = vopp w) by (vfield; lra). split.
  - intro H. rewrite <- Q. apply prox_subgrad; auto. rewrite H at 2. apply HP.
  - intro H. apply (prox_unique f tau (x [-] tau [*] w)); auto. apply subgrad_prox; auto. rewrite Q. exact H.
Qed.
Lemma bal_fixA {E F : IPS} (A : linop E F) (f : efun E) (D : F -> F) tau mu P z x y : convex f -> 0 < tau -> 0 < mu -> (forall v, is_prox f tau v (P v)) ->
  pd_fix A tau mu P (fun v => v [-] mu [*] D (/ mu [*] v)) z x y <-> balancedA f D A z mu x y.
Proof.
  intros Cf Ht Hm HP. unfold pd_fix, balancedA. rewrite (prox_step_iff f tau P x (ladj A y [+] z) Cf Ht HP).
  replace (/ mu [*] (y [+] mu [*] lapp A x)) with (lapp A x [+] / mu [*] y) by (vfield; lra). generalize (D (lapp A x [+] / mu [*] y)). intro d. split; intros [H1 H2]; (split; [exact H1|]).
  - assert (H3 : mu [*] (lapp A x [-] d) = vzero). { replace (mu [*] (lapp A x [-] d)) with ((y [+] mu [*] lapp A x [-] mu [*] d) [-] y) by vring. rewrite <- H2. vring. }
    assert (H4 : / mu [*] (mu [*] (lapp A x [-] d)) = lapp A x [-] d) by (vfield; lra). rewrite H3 in H4. replace d with (lapp A x [-] (lapp A x [-] d)) by vring. rewrite <- H4. vring.
  - rewrite H2. vring.
Qed.
(*! C104_denoiser : PrimalDual with the operator that PlugAndPlay builds around a firmly non-expansive denoiser (called with the parameter 1/mu) in the place of g, any linear operator A, f convex with exact prox, tau mu |A a|^2 <= kappa |a|^2 for
   some kappa < 1, any start, either order: it never raises, and the pairs returned with niter = 0, 1, 2, ... either converge to a balanced pair (x optimal for f given y, A x unchanged by the denoiser when y/mu is added), or no
   balanced pair exists and the norm of the pair tends to infinity *)
Lemma C104_denoiser_l : forall (E : IPS) m fuel (A : linop E (Vec m)) proxf f den D dims alias x0 tau mu kappa y0 z (gfirst : bool), bw E ->
  impl_prox proxf f -> convex f -> denoises den dims (1 / mu) D -> firm D -> 0 < tau -> 0 < mu -> 0 <= kappa < 1 -> (forall a, tau * mu * norm2 (lapp A a) <= kappa * norm2 a) -> alias = None \/ z = None ->
  exists xs ys, (forall n, exists tr, PrimalDual proxf (obj (S (S fuel)) (denoise_body den dims)) A alias x0 (Scalar tau) (Scalar mu) y0 z 1 n gfirst = Ok (xs n, ys n, tr)) /\
    ((exists xl yl, balancedA f D A (zvec z) mu xl yl /\ vcv xs xl /\ vcv ys yl) \/ ((forall xo yo, ~ balancedA f D A (zvec z) mu xo yo) /\ escapes (E:=Prod_IPS E (Vec m)) (fun n => (xs n, ys n)))).
Proof.
  intros E m fuel A proxf f den D dims alias x0 tau mu kappa y0 z gfirst HE Hf Cf Hden HD Ht Hm Hk HA Hal. destruct (prox_map proxf f tau Hf Ht) as (P & EP & HP).
  assert (Hi : 0 < 1 / mu) by (apply Rdiv_lt_0_compat; lra).
  destruct (pd_run_cases A proxf (obj (S (S fuel)) (denoise_body den dims)) P (fun v => v [-] mu [*] D (/ mu [*] v)) alias x0 tau mu kappa y0 z gfirst HE (proj1 (proj2 C75_arrays_l) m) EP) as (xs & ys & Hrun & Hc); auto.
  - apply moreau_prox; auto. apply denoise_prox; auto.
  - apply (prox_firmly f tau P Cf Ht HP).
  - apply moreau_firm; auto.
  - exists xs, ys. split; [exact Hrun|]. destruct Hc as [(xl & yl & H1 & H2)|[H1 H2]]; [left; exists xl, yl; split; [|exact H2]|right; split; [|exact H2]; intros xo yo Hs; apply (H1 xo yo)]; apply (bal_fixA A f D tau mu P); auto.
Qed.
Lemma bal_kktA {E F : IPS} (A : linop E F) (f : efun E) (g : efun F) D mu z x y : convex g -> 0 < mu -> (forall v, is_prox g (1 / mu) v (D v)) ->
  balancedA f D A z mu x y <-> is_subgrad f x (vopp (ladj A y [+] z)) /\ is_subgrad g (lapp A x) y.
Proof.
  intros Cg Hm HD. assert (Hi : 0 < 1 / mu) by (apply Rdiv_lt_0_compat; lra). unfold balancedA. pose proof (prox_step_iff g (1 / mu) D (lapp A x) (vopp y) Cg Hi HD) as H.
  replace (lapp A x [-] 1 / mu [*] vopp y) with (lapp A x [+] / mu [*] y) in H by (vfield; lra). replace (vopp (vopp y)) with y in H by vring.
  split; intros [H1 H2]; (split; [exact H1|]); [apply H|symmetry; apply H]; auto.
Qed.
(*! C104_inherited : the same for a convex g whose operator has only a prox method, so that the solver uses the dual prox inherited from ProxOperator: the pairs either converge to (x, y) with -(A^T y + z) a subgradient of f at x and y a
   subgradient of g at A x, so that x minimises f(x) + g(A x) + <z, x>, or no such pair exists and the norm of the pair tends to infinity *)
Lemma C104_inherited_l : forall (E F : IPS) fuel (A : linop E F) proxf b f g alias x0 tau mu kappa y0 z (gfirst : bool), bw E -> bw F ->
  impl_prox proxf f -> b_proxdual b = None -> impl_prox (obj (S fuel) b) g -> convex f -> convex g -> 0 < tau -> 0 < mu -> 0 <= kappa < 1 -> (forall a, tau * mu * norm2 (lapp A a) <= kappa * norm2 a) -> alias = None \/ z = None ->
  exists xs ys, (forall n, exists tr, PrimalDual proxf (obj (S (S fuel)) b) A alias x0 (Scalar tau) (Scalar mu) y0 z 1 n gfirst = Ok (xs n, ys n, tr)) /\
    ((exists xl yl, (is_subgrad f xl (vopp (ladj A yl [+] zvec z)) /\ is_subgrad g (lapp A xl) yl) /\ is_min (elin (eadd f (epre g (lapp A))) (zvec z)) xl /\ vcv xs xl /\ vcv ys yl) \/
     ((forall xo yo, ~ (is_subgrad f xo (vopp (ladj A yo [+] zvec z)) /\ is_subgrad g (lapp A xo) yo)) /\ escapes (E:=Prod_IPS E F) (fun n => (xs n, ys n)))).
Proof.
  intros E F fuel A proxf b f g alias x0 tau mu kappa y0 z gfirst HE HF Hf Hb Hg Cf Cg Ht Hm Hk HA Hal. destruct (prox_map proxf f tau Hf Ht) as (P & EP & HP). assert (Hi : 0 < 1 / mu) by (apply Rdiv_lt_0_compat; lra).
  destruct (prox_map _ g (1 / mu) Hg Hi) as (D & ED & HD).
  destruct (pd_run_cases A proxf (obj (S (S fuel)) b) P (fun v => v [-] mu [*] D (/ mu [*] v)) alias x0 tau mu kappa y0 z gfirst HE HF EP) as (xs & ys & Hrun & Hc); auto.
  - apply moreau_prox; auto.
  - apply (prox_firmly f tau P Cf Ht HP).
  - apply moreau_firm; auto. apply (prox_firmly g (1 / mu) D Cg Hi HD).
  - exists xs, ys. split; [exact Hrun|]. destruct Hc as [(xl & yl & H1 & H2)|[H1 H2]].
    + left. exists xl, yl. assert (K : is_subgrad f xl (vopp (ladj A yl [+] zvec z)) /\ is_subgrad g (lapp A xl) yl) by (apply (bal_kktA A f g D mu); auto; apply (bal_fixA A f D tau mu P); auto).
      split; [exact K|]. split; [|exact H2]. destruct K as [[D1 K1] [D2 K2]]. split; [split; [exact D1|exact D2]|]. intros y [Dy1 Dy2]. specialize (K1 y Dy1). specialize (K2 (lapp A y) Dy2).
      cbn [eval eadd epre elin] in *. revert K1 K2. rewrite inner_opp_l, inner_add_l, !inner_sub_r. rewrite !(inner_sym (ladj A yl)), <- !ladj_spec, !(inner_sym _ yl). lra.
    + right. split; [|exact H2]. intros xo yo K. apply (H1 xo yo). apply (bal_fixA A f D tau mu P); auto. apply (bal_kktA A f g D mu); auto.
Qed.

(** ** LinearizedADMM *)
Definition nadj {E F : IPS} (A : linop E F) : linop F E.
Proof.
  refine (mkLinop _ _ (fun v => (-1) [*] ladj A v) (fun x => (-1) [*] lapp A x) _ _ _).
  - intros x y. rewrite ladj_add. vring.
  - intros a x. rewrite ladj_scal. vring.
  - intros x y. rewrite inner_scal_l, inner_scal_r, (inner_sym (ladj A x)), <- ladj_spec, (inner_sym x). reflexivity.
Defined.
Lemma resid_firm {E : IPS} (D : E -> E) : firm D -> firm (fun v => v [-] D v).
Proof.
  intros HD x y. specialize (HD x y). set (p := D x) in *. set (q := D y) in *. replace (x [-] p [-] (y [-] q)) with ((x [-] y) [-] (p [-] q)) by vring. revert HD. generalize (p [-] q) (x [-] y). intros d a HD.
  rewrite norm2_sub, inner_sub_l. fold (norm2 a). rewrite (inner_sym a d). lra.
Qed.
Definition la_fix {E F : IPS} (A : linop E F) tau mu (P : E -> E) (D : F -> F) (x : E) (u : F) : Prop := x = P (x [-] (mu / tau) [*] ladj A u) /\ D (lapp A x [+] u) = lapp A x.
Section LAsec.
Context {E F : IPS} (HE : bw E) (HF : bw F) (A : linop E F) (tau mu kappa : R) (P : E -> E) (D : F -> F).
Hypothesis Ht : 0 < tau.
Hypothesis Hm : 0 < mu.
Hypothesis Hk : 0 <= kappa < 1.
Hypothesis HA : forall a, mu * norm2 (lapp A a) <= kappa * tau * norm2 a.
Hypothesis HP : firm P.
Hypothesis HD : firm D.
Lemma la_bd v : 1 * (mu / tau) * norm2 (lapp (nadj A) v) <= kappa * norm2 v.
Proof.
  cbn [nadj lapp]. rewrite norm2_scal. assert (HC : 0 <= kappa * tau / mu) by (apply Rmult_le_pos; [nra|left; apply Rinv_0_lt_compat; exact Hm]).
  assert (H := ladj_bd A (kappa * tau / mu) HC). specialize (H ltac:(intro a; apply (Rmult_le_reg_l mu); [exact Hm|]; replace (mu * (kappa * tau / mu * norm2 a)) with (kappa * tau * norm2 a) by (field; lra); apply HA) v).
  apply (Rmult_le_compat_l (mu / tau)) in H; [|left; apply Rdiv_lt_0_compat; assumption]. replace (mu / tau * (kappa * tau / mu * norm2 v)) with (kappa * norm2 v) in H by (field; lra). lra.
Qed.
Lemma la_mu : 0 < mu / tau.
Proof. apply Rdiv_lt_0_compat; assumption. Qed.
Lemma la_fix_iff x u : la_fix A tau mu P D x u <-> pd_fix (nadj A) 1 (mu / tau) (fun v => v [-] D v) P vzero u x.
Proof.
  unfold la_fix, pd_fix. cbn [nadj lapp ladj]. replace (u [-] 1 [*] ((-1) [*] lapp A x [+] vzero)) with (lapp A x [+] u) by vring. replace (x [+] (mu / tau) [*] ((-1) [*] ladj A u)) with (x [-] (mu / tau) [*] ladj A u) by vring.
  generalize (D (lapp A x [+] u)). intro d. split; intros [H1 H2]; split; auto.
  - rewrite H2. vring.
  - replace d with (lapp A x [+] u [-] (lapp A x [+] u [-] d)) by vring. rewrite <- H1. vring.
Qed.
Lemma la_cases (xs : nat -> E) (us : nat -> F) : (forall j, us (S j) = us j [+] lapp A (xs j) [-] D (lapp A (xs j) [+] us j) /\ xs (S j) = P (xs j [-] (mu / tau) [*] ladj A (2 [*] us (S j) [-] us j))) ->
  (exists xl ul, la_fix A tau mu P D xl ul /\ vcv xs xl /\ vcv us ul) \/ ((forall xl ul, ~ la_fix A tau mu P D xl ul) /\ escapes (E:=Prod_IPS E F) (fun n => (xs n, us n))).
Proof.
  intro HR. destruct (pd_cases HF HE (nadj A) 1 (mu / tau) kappa (fun v => v [-] D v) P vzero Rlt_0_1 la_mu Hk la_bd (resid_firm D HD) HP us xs) as [(u & x & H1 & H2 & H3)|[H1 H2]].
  - intro j. destruct (HR j) as [G1 G2]. split; cbn [nadj lapp ladj].
    + rewrite G1. replace (us j [-] 1 [*] ((-1) [*] lapp A (xs j) [+] vzero)) with (lapp A (xs j) [+] us j) by vring. vring.
    + rewrite G2. f_equal. replace (us (S j) [+] 1 [*] (us (S j) [-] us j)) with (2 [*] us (S j) [-] us j) by vring. vring.
  - left. exists x, u. split; [apply la_fix_iff; exact H1|auto].
  - right. split; [intros x u Hf; apply la_fix_iff in Hf; exact (H1 _ _ Hf)|]. intro K. destruct (H2 K) as [N HN]. exists N. intros n Hn. specialize (HN n Hn). unfold norm in *. change (norm2 (E:=Prod_IPS F E) (us n, xs n)) with (norm2 (us n) + norm2 (xs n)) in HN. change (norm2 (E:=Prod_IPS E F) (xs n, us n)) with (norm2 (xs n) + norm2 (us n)). rewrite Rplus_comm. exact HN.
Qed.
Lemma la_pert (xs : nat -> E) (us : nat -> F) (ex eu : nat -> R) : summable ex -> summable eu -> (exists xl ul, la_fix A tau mu P D xl ul) ->
  (forall j, norm (us (S j) [-] (us j [+] lapp A (xs j) [-] D (lapp A (xs j) [+] us j))) <= eu j /\ norm (xs (S j) [-] P (xs j [-] (mu / tau) [*] ladj A (2 [*] us (S j) [-] us j))) <= ex j) ->
  exists xl ul, la_fix A tau mu P D xl ul /\ vcv xs xl /\ vcv us ul.
Proof.
  intros Sx Su (xo & uo & Ho) HR. destruct (pd_pert HF HE (nadj A) 1 (mu / tau) kappa (fun v => v [-] D v) P vzero Rlt_0_1 la_mu Hk la_bd (resid_firm D HD) HP us xs eu ex Su Sx) as (u & x & H1 & H2 & H3).
  - exists uo, xo. apply la_fix_iff. exact Ho.
  - intro j. destruct (HR j) as [G1 G2]. split; cbn [nadj lapp ladj].
    + replace (us j [-] 1 [*] ((-1) [*] lapp A (xs j) [+] vzero)) with (lapp A (xs j) [+] us j) by vring. replace (lapp A (xs j) [+] us j [-] D (lapp A (xs j) [+] us j)) with (us j [+] lapp A (xs j) [-] D (lapp A (xs j) [+] us j)) by vring. exact G1.
    + replace (xs j [+] (mu / tau) [*] ((-1) [*] ladj A (us (S j) [+] 1 [*] (us (S j) [-] us j)))) with (xs j [-] (mu / tau) [*] ladj A (2 [*] us (S j) [-] us j)); [exact G2|]. replace (us (S j) [+] 1 [*] (us (S j) [-] us j)) with (2 [*] us (S j) [-] us j) by vring. vring.
  - exists x, u. split; [apply la_fix_iff; exact H1|auto].
Qed.
End LAsec.
Lemma la_maps {E F : IPS} (A : linop E F) proxf proxg (P : E -> E) (D : F -> F) tau mu x0 z0 x z : 0 < tau -> (forall v, o_prox proxf v mu = Ok (P v)) -> (forall v, o_prox proxg v tau = Ok (D v)) -> x0z0_initA (lapp A) x0 z0 = Ok (x, z) ->
  exists xs zs us, us 0%nat = vzero /\ (forall n, exists tr, LinearizedADMM proxf proxg A x0 tau mu n z0 = Ok (xs n, zs n, tr)) /\
    forall j, zs (S j) = D (lapp A (xs (S j)) [+] us j) /\ us (S j) = us j [+] lapp A (xs (S j)) [-] zs (S j) /\ xs (S (S j)) = P (xs (S j) [-] (mu / tau) [*] ladj A (2 [*] us (S j) [-] us j)).
Proof.
  intros Ht EP ED Hi. set (Ax0 := match z0 with None => lapp A x | Some _ => z end).
  destruct (loop_seq (la_body proxf proxg A tau mu) (fun j s => (0 < j)%nat -> la_Ax s = lapp A (la_x s))
     (fun _ s s' => la_x s' = P (la_x s [-] (mu / tau) [*] ladj A (la_Ax s [-] la_z s [+] la_u s)) /\
        la_z s' = D (lapp A (la_x s') [+] la_u s) /\ la_u s' = la_u s [+] lapp A (la_x s') [-] la_z s') (M_Split.LA x Ax0 z vzero [])) as (st & S0 & Hrun & HI & HR); [intro; lia| |].
  { intros j s _. unfold la_body. rewrite pydiv_ok by lra. cbn [bind]. rewrite EP. cbn [bind]. rewrite ED. cbn [bind]. eexists. split; [reflexivity|]. cbn [la_x la_z la_u la_Ax]. auto. }
  exists (fun k => la_x (st k)), (fun k => la_z (st k)), (fun k => la_u (st k)). split; [rewrite S0; reflexivity|]. split.
  - intro n. exists (la_tr (st n)). unfold LinearizedADMM. rewrite Hi. cbn [bind fst snd]. fold Ax0. rewrite Hrun. reflexivity.
  - intro j. destruct (HR j) as (H1 & H2 & H3). destruct (HR (S j)) as (G1 & _ & _). rewrite (HI (S j)) in G1 by lia. split; [exact H2|]. split; [exact H3|]. rewrite G1. f_equal. f_equal. f_equal. f_equal. rewrite H3. vring.
Qed.
Lemma la_usum {E F : IPS} (A : linop E F) (xs : nat -> E) (zs us : nat -> F) : us 0%nat = vzero -> (forall j, us (S j) = us j [+] lapp A (xs (S j)) [-] zs (S j)) -> forall n, us n = VS n (fun j => lapp A (xs (S j)) [-] zs (S j)).
Proof. intros H0 H. induction n as [|n IH]; [exact H0|]. rewrite H, IH. cbn [VS]. vring. Qed.
Lemma la_zlim {E F : IPS} (A : linop E F) (D : F -> F) (xs : nat -> E) (zs us : nat -> F) C x u : 0 <= C -> (forall a, norm2 (lapp A a) <= C * norm2 a) -> firm D -> (forall j, zs (S j) = D (lapp A (xs (S j)) [+] us j)) -> vcv (fun k => xs (S k)) x -> vcv us u -> D (lapp A x [+] u) = lapp A x -> vcv zs (lapp A x).
Proof.
  intros HC HA HD HR Lx Lu HF. apply vcv_unshift. apply (vcv_ext (fun k => D (lapp A (xs (S k)) [+] us k))); [intro k; symmetry; apply HR|]. rewrite <- HF. apply (vcv_nonexp D _ _ (firm_nonexp D HD)). apply vcv_add; [|exact Lu]. apply (vcv_lapp A C); auto.
Qed.
Lemma la_run_cases {E F : IPS} (A : linop E F) proxf proxg (P : E -> E) (D : F -> F) tau mu kappa x0 z0 x z : bw E -> bw F -> (forall v, o_prox proxf v mu = Ok (P v)) -> (forall v, o_prox proxg v tau = Ok (D v)) -> firm P -> firm D -> 0 < tau -> 0 < mu -> 0 <= kappa < 1 ->
  (forall a, mu * norm2 (lapp A a) <= kappa * tau * norm2 a) -> x0z0_initA (lapp A) x0 z0 = Ok (x, z) ->
  exists xs zs, (forall n, exists tr, LinearizedADMM proxf proxg A x0 tau mu n z0 = Ok (xs n, zs n, tr)) /\
    ((exists xl ul, la_fix A tau mu P D xl ul /\ vcv xs xl /\ vcv zs (lapp A xl) /\ vcv (fun n => VS n (fun j => lapp A (xs (S j)) [-] zs (S j))) ul) \/
     ((forall xl ul, ~ la_fix A tau mu P D xl ul) /\ escapes (E:=Prod_IPS E F) (fun n => (xs (S n), VS n (fun j => lapp A (xs (S j)) [-] zs (S j)))))).
Proof.
  intros HE HF EP ED FP FD Ht Hm Hk HA Hi. destruct (la_maps A proxf proxg P D tau mu x0 z0 x z Ht EP ED Hi) as (xs & zs & us & U0 & Hrun & HR). exists xs, zs. split; [exact Hrun|].
  assert (Hu : forall n, us n = VS n (fun j => lapp A (xs (S j)) [-] zs (S j))) by (apply (la_usum A xs zs us U0); intro j; apply HR).
  destruct (la_cases HE HF A tau mu kappa P D Ht Hm Hk HA FP FD (fun k => xs (S k)) us) as [(xl & ul & H1 & H2 & H3)|[H1 H2]].
  - intro j. destruct (HR j) as (G1 & G2 & G3). split; [|exact G3]. rewrite <- G1. exact G2.
  - left. exists xl, ul. split; [exact H1|]. split; [apply vcv_unshift; exact H2|]. split.
    + apply (la_zlim A D xs zs us (kappa * tau / mu) xl ul); auto; [apply Rmult_le_pos; [nra|left; apply Rinv_0_lt_compat; exact Hm]| |intro j; apply HR|apply H1]. intro a. apply (Rmult_le_reg_l mu); [exact Hm|]. replace (mu * (kappa * tau / mu * norm2 a)) with (kappa * tau * norm2 a) by (field; lra). apply HA.
    + apply (vcv_ext us); [exact Hu|exact H3].
  - right. split; [exact H1|]. intro K. destruct (H2 K) as [N HN]. exists N. intros n Hn. specialize (HN n Hn). cbv beta in HN. rewrite Hu in HN. exact HN.
Qed.
Lemma la_fix_kktA {E F : IPS} (A : linop E F) f g tau mu P D x u : convex f -> convex g -> 0 < tau -> 0 < mu -> (forall v, is_prox f mu v (P v)) -> (forall v, is_prox g tau v (D v)) -> la_fix A tau mu P D x u <-> kktA f g A x (/ tau [*] u).
Proof.
  intros Cf Cg Ht Hm HP HD. unfold la_fix, kktA. pose proof (prox_step_iff f mu P x (ladj A (/ tau [*] u)) Cf Hm HP) as H1. pose proof (prox_step_iff g tau D (lapp A x) (vopp (/ tau [*] u)) Cg Ht HD) as H2.
  replace (x [-] mu [*] ladj A (/ tau [*] u)) with (x [-] (mu / tau) [*] ladj A u) in H1 by (rewrite ladj_scal; vfield; lra). replace (lapp A x [-] tau [*] vopp (/ tau [*] u)) with (lapp A x [+] u) in H2 by (vfield; lra). replace (vopp (vopp (/ tau [*] u))) with (/ tau [*] u) in H2 by vring.
  rewrite H1. split; intros [G1 G2]; (split; [exact G1|]); [apply H2; auto|symmetry; apply H2; auto].
Qed.
(*! C104_linearized_admm : f and g convex with exact prox, mu |A a|^2 <= kappa tau |a|^2 for some kappa < 1, either guess, finite dimension, and no assumption that a solution exists: LinearizedADMM never raises, and either x and z
   converge to a minimiser xl of f(x) + g(A x) and to A xl, the accumulated differences A x - z, divided by tau, converging to a multiplier, or no point of the problem has a multiplier and x together with the accumulated
   differences is unbounded: its norm tends to infinity *)
Lemma C104_linearized_admm_l : forall (E F : IPS) (A : linop E F) proxf proxg f g tau mu kappa x0 z0 x z, bw E -> bw F ->
  impl_prox proxf f -> impl_prox proxg g -> convex f -> convex g -> 0 < tau -> 0 < mu -> 0 <= kappa < 1 -> (forall a, mu * norm2 (lapp A a) <= kappa * tau * norm2 a) -> x0z0_initA (lapp A) x0 z0 = Ok (x, z) ->
  exists xs zs, (forall n, exists tr, LinearizedADMM proxf proxg A x0 tau mu n z0 = Ok (xs n, zs n, tr)) /\
    ((exists xl v, kktA f g A xl v /\ is_min (eadd f (epre g (lapp A))) xl /\ vcv xs xl /\ vcv zs (lapp A xl) /\ vcv (fun n => / tau [*] VS n (fun j => lapp A (xs (S j)) [-] zs (S j))) v) \/
     ((forall xo v, ~ kktA f g A xo v) /\ escapes (E:=Prod_IPS E F) (fun n => (xs (S n), VS n (fun j => lapp A (xs (S j)) [-] zs (S j)))))).
Proof.
  intros E F A proxf proxg f g tau mu kappa x0 z0 x z HE HF Hf Hg Cf Cg Ht Hm Hk HA Hi. destruct (prox_map proxf f mu Hf Hm) as (P & EP & HP). destruct (prox_map proxg g tau Hg Ht) as (D & ED & HD).
  destruct (la_run_cases A proxf proxg P D tau mu kappa x0 z0 x z HE HF EP ED (prox_firmly f mu P Cf Hm HP) (prox_firmly g tau D Cg Ht HD) Ht Hm Hk HA Hi) as (xs & zs & Hrun & Hc). exists xs, zs. split; [exact Hrun|]. destruct Hc as [(xl & ul & H1 & H2 & H3 & H4)|[H1 H2]].
  - left. exists xl, (/ tau [*] ul). apply (la_fix_kktA A f g tau mu P D) in H1; auto. split; [exact H1|]. split; [apply (kktA_min A f g xl _ H1)|]. split; [exact H2|]. split; [exact H3|]. apply vcv_scal. exact H4.
  - right. split; [|exact H2]. intros xo v K. apply (H1 xo (tau [*] v)). apply (la_fix_kktA A f g tau mu P D); auto. replace (/ tau [*] (tau [*] v)) with v by (vfield; lra). exact K.
Qed.
(*! C104_denoiser_linearized : LinearizedADMM with the operator that PlugAndPlay builds around a firmly non-expansive denoiser (called with the parameter tau) in the place of g: either x and z converge to xl and A xl, for a pair (xl, u)
   such that xl is optimal for f given u/tau and the denoiser leaves A xl unchanged when u is added, or there is no such pair and x together with the accumulated differences A x - z is unbounded *)
Lemma C104_denoiser_linearized_l : forall (E : IPS) m fuel (A : linop E (Vec m)) proxf f den D dims tau mu kappa x0 z0 x z, bw E ->
  impl_prox proxf f -> convex f -> denoises den dims tau D -> firm D -> 0 < tau -> 0 < mu -> 0 <= kappa < 1 -> (forall a, mu * norm2 (lapp A a) <= kappa * tau * norm2 a) -> x0z0_initA (lapp A) x0 z0 = Ok (x, z) ->
  exists xs zs, (forall n, exists tr, LinearizedADMM proxf (obj (S fuel) (denoise_body den dims)) A x0 tau mu n z0 = Ok (xs n, zs n, tr)) /\
    ((exists xl v, balancedA f D A vzero (/ tau) xl v /\ vcv xs xl /\ vcv zs (lapp A xl)) \/
     ((forall xo v, ~ balancedA f D A vzero (/ tau) xo v) /\ escapes (E:=Prod_IPS E (Vec m)) (fun n => (xs (S n), VS n (fun j => lapp A (xs (S j)) [-] zs (S j)))))).
Proof.
  intros E m fuel A proxf f den D dims tau mu kappa x0 z0 x z HE Hf Cf Hden HD Ht Hm Hk HA Hi. destruct (prox_map proxf f mu Hf Hm) as (P & EP & HP).
  assert (Hq : forall xo u, la_fix A tau mu P D xo u <-> balancedA f D A vzero (/ tau) xo (/ tau [*] u)).
  { intros xo u. unfold la_fix, balancedA. pose proof (prox_step_iff f mu P xo (ladj A (/ tau [*] u) [+] vzero) Cf Hm HP) as H1. replace (xo [-] mu [*] (ladj A (/ tau [*] u) [+] vzero)) with (xo [-] (mu / tau) [*] ladj A u) in H1 by (rewrite ladj_scal; vfield; lra).
    rewrite H1. replace (lapp A xo [+] / / tau [*] (/ tau [*] u)) with (lapp A xo [+] u) by (vfield; lra). reflexivity. }
  destruct (la_run_cases A proxf (obj (S fuel) (denoise_body den dims)) P D tau mu kappa x0 z0 x z HE (proj1 (proj2 C75_arrays_l) m) EP (denoise_prox fuel den dims tau D Ht Hden) (prox_firmly f mu P Cf Hm HP) HD Ht Hm Hk HA Hi) as (xs & zs & Hrun & Hc).
  exists xs, zs. split; [exact Hrun|]. destruct Hc as [(xl & ul & H1 & H2 & H3 & H4)|[H1 H2]].
  - left. exists xl, (/ tau [*] ul). apply Hq in H1. auto.
  - right. split; [|exact H2]. intros xo v K. apply (H1 xo (tau [*] v)). apply Hq. replace (/ tau [*] (tau [*] v)) with v by (vfield; lra). exact K.
Qed.

(** ** operators that change from call to call *)
Lemma calld_ok {E : IPS} (o : COp E) c x t c' p : c_dual o c x t = (c', Ok p) -> call (c_dual o c x t) = Ok (p, c').
Proof. intro H. unfold call. rewrite H. reflexivity. Qed.
Lemma cpd_run {E F : IPS} (A : linop E F) (proxf : COp E) (proxg : COp F) (P : E -> E) (Q : F -> F) cf cg ef eg alias x0 tau mu kappa y0 z (gfirst : bool) : bw E -> bw F ->
  (forall k v, exists p, c_prox proxf (cf k) v tau = (cf (S k), Ok p) /\ norm (p [-] P v) <= ef k) -> (forall k v, exists p, c_dual proxg (cg k) v mu = (cg (S k), Ok p) /\ norm (p [-] Q v) <= eg k) ->
  summable ef -> summable eg -> firm P -> firm Q -> 0 < tau -> 0 < mu -> 0 <= kappa < 1 -> (forall a, tau * mu * norm2 (lapp A a) <= kappa * norm2 a) -> alias = None \/ z = None -> (exists xo yo, pd_fix A tau mu P Q (zvec z) xo yo) ->
  exists xs ys xl yl, (forall n, exists tr, cPrimalDual proxf proxg (cf 0%nat) (cg 0%nat) A alias x0 (Scalar tau) (Scalar mu) y0 z 1 n gfirst = Ok (xs n, ys n, tr, (cf n, cg n))) /\ pd_fix A tau mu P Q (zvec z) xl yl /\ vcv xs xl /\ vcv ys yl.
Proof.
  intros HE HF EP EQ Sf Sg FP FQ Ht Hm Hk HA Hal Hfix.
  set (body := fun (j : nat) (sc : @pd_state E F * (nat * nat)) => let '(s, (cf, cg)) := sc in if gfirst then
      yc <- call (c_dual proxg cg (pd_y s [+] mu [*] lapp A (pd_hat s)) mu) ;;
      let (aty, y) := rmatvec_plus A alias z (fst yc) in
      x <- call (c_prox proxf cf (pd_x s [-] tau [*] aty) tau) ;;
      Ok ((M_PD.PD (fst x) y (fst x [+] 1 [*] (fst x [-] pd_x s)) (pd_tr s ++ [(fst x, y)]), (snd x, snd yc)), false)
    else
      let (aty, y) := rmatvec_plus A alias z (pd_y s) in
      x <- call (c_prox proxf cf (pd_x s [-] tau [*] aty) tau) ;;
      let xhat := fst x [+] 1 [*] (fst x [-] pd_x s) in
      yc <- call (c_dual proxg cg (y [+] mu [*] lapp A xhat) mu) ;;
      Ok ((M_PD.PD (fst x) (fst yc) xhat (pd_tr s ++ [(fst x, fst yc)]), (snd x, snd yc)), false)).
  destruct (loop_seq body (fun j s => snd s = (cf j, cg j)) (fun j s0 s1 => let s := fst s0 in let s' := fst s1 in pd_hat s' = pd_x s' [+] 1 [*] (pd_x s' [-] pd_x s) /\
     (if gfirst then norm (pd_y s' [-] Q (pd_y s [+] mu [*] lapp A (pd_hat s))) <= eg j /\ norm (pd_x s' [-] P (pd_x s [-] tau [*] (ladj A (pd_y s') [+] zvec z))) <= ef j
      else norm (pd_x s' [-] P (pd_x s [-] tau [*] (ladj A (pd_y s) [+] zvec z))) <= ef j /\ norm (pd_y s' [-] Q (pd_y s [+] mu [*] lapp A (pd_hat s'))) <= eg j))
     (M_PD.PD x0 (y0vec y0) x0 [], (cf 0%nat, cg 0%nat))) as (st & S0 & Hrun & HI & HR); [reflexivity| |].
  { intros j [s c] Hc. cbn [fst snd] in *. subst c. unfold body. destruct gfirst.
    - destruct (EQ j (pd_y s [+] mu [*] lapp A (pd_hat s))) as (q & Eq & Hq). rewrite (calld_ok _ _ _ _ _ _ Eq). cbn [bind fst snd]. rewrite rmatvec_plus_ok by auto.
      destruct (EP j (pd_x s [-] tau [*] (ladj A q [+] zvec z))) as (p & Ep & Hp). rewrite (call_ok _ _ _ _ _ _ Ep). cbn [bind fst snd]. eexists. split; [reflexivity|]. cbn [fst snd pd_x pd_y pd_hat]. auto.
    - rewrite rmatvec_plus_ok by auto. destruct (EP j (pd_x s [-] tau [*] (ladj A (pd_y s) [+] zvec z))) as (p & Ep & Hp). rewrite (call_ok _ _ _ _ _ _ Ep). cbn [bind fst snd].
      destruct (EQ j (pd_y s [+] mu [*] lapp A (p [+] 1 [*] (p [-] pd_x s)))) as (q & Eq & Hq). rewrite (calld_ok _ _ _ _ _ _ Eq). cbn [bind fst snd]. eexists. split; [reflexivity|]. cbn [fst snd pd_x pd_y pd_hat]. auto. }
  exists (fun k => pd_x (fst (st k))), (fun k => pd_y (fst (st k))).
  assert (Hret : forall n, exists tr, cPrimalDual proxf proxg (cf 0%nat) (cg 0%nat) A alias x0 (Scalar tau) (Scalar mu) y0 z 1 n gfirst = Ok (pd_x (fst (st n)), pd_y (fst (st n)), tr, (cf n, cg n))).
  { intro n. exists (pd_tr (fst (st n))). unfold cPrimalDual. replace (match y0 with Some y => y | None => vzero end) with (y0vec y0) by (destruct y0; reflexivity).
    rewrite (for_loop_ext _ body); [rewrite Hrun; cbn [bind fst]; specialize (HI n); destruct (st n) as [s c]; cbn [fst snd] in *; subst c; reflexivity|].
    intros j [s [c d]] Hj. unfold cpd_body, body, getitem. cbn [steps_arr]. rewrite !nth_error_repeat by lia. reflexivity. }
  set (xx := fun k => pd_x (fst (st k))) in *. set (yy := fun k => pd_y (fst (st k))) in *. destruct gfirst.
  - destruct (pd_pert HE HF A tau mu kappa P Q (zvec z) Ht Hm Hk HA FP FQ xx (fun n => yy (S n)) ef (fun k => eg (S k)) Sf (summable_shift _ Sg) Hfix) as (xl & yl & H1 & H2 & H3).
    + intro j. destruct (HR j) as (H1 & H2 & H3). destruct (HR (S j)) as (G1 & G2 & G3). cbv zeta in *. rewrite H1 in G2. split; [exact H3|exact G2].
    + exists xl, yl. split; [exact Hret|]. split; [exact H1|]. split; [exact H2|]. apply vcv_unshift. exact H3.
  - destruct (pd_pert HE HF A tau mu kappa P Q (zvec z) Ht Hm Hk HA FP FQ xx yy ef eg Sf Sg Hfix) as (xl & yl & H1 & H2 & H3).
    + intro j. destruct (HR j) as (H1 & H2 & H3). cbv zeta in *. rewrite H1 in H3. split; [exact H2|exact H3].
    + exists xl, yl. split; [exact Hret|]. auto.
Qed.
(*! C104_count_primal_dual : PrimalDual with operators that may change from call to call (f and gs convex, theta = 1, constant steps, kappa < 1, either order, a saddle point exists): the k-th calls are exact up to ef k and eg k. If the errors
   have a finite sum, the pair returned with niter = 0, 1, 2, ... converges to a saddle point *)
Lemma C104_count_primal_dual_l : forall (E F : IPS) (A : linop E F) proxf proxg f gs cf cg ef eg alias x0 tau mu kappa y0 z (gfirst : bool), bw E -> bw F ->
  serves proxf cf ef tau f -> serves_dual proxg cg eg mu gs -> summable ef -> summable eg -> convex f -> convex gs -> 0 < tau -> 0 < mu -> 0 <= kappa < 1 -> (forall a, tau * mu * norm2 (lapp A a) <= kappa * norm2 a) -> alias = None \/ z = None ->
  (exists xo yo, saddle A f gs (zvec z) xo yo) ->
  exists xs ys xl yl, (forall n, exists tr, cPrimalDual proxf proxg (cf 0%nat) (cg 0%nat) A alias x0 (Scalar tau) (Scalar mu) y0 z 1 n gfirst = Ok (xs n, ys n, tr, (cf n, cg n))) /\ saddle A f gs (zvec z) xl yl /\ vcv xs xl /\ vcv ys yl.
Proof.
  intros E F A proxf proxg f gs cf cg ef eg alias x0 tau mu kappa y0 z gfirst HE HF (P & HP & EP) (Q & HQ & EQ) Sf Sg Cf Cg Ht Hm Hk HA Hal (xo & yo & Ho).
  destruct (cpd_run A proxf proxg P Q cf cg ef eg alias x0 tau mu kappa y0 z gfirst HE HF EP EQ Sf Sg (prox_firmly f tau P Cf Ht HP) (prox_firmly gs mu Q Cg Hm HQ) Ht Hm Hk HA Hal) as (xs & ys & xl & yl & Hrun & H1 & H2).
  - exists xo, yo. apply (pd_fix_saddle A f gs tau mu P Q); auto.
  - exists xs, ys, xl, yl. split; [exact Hrun|]. split; [|exact H2]. apply (pd_fix_saddle A f gs tau mu P Q) in H1; auto.
Qed.
(*! C104_count_inherited : the same for an operator g whose dual prox is inherited (one prox call per dual prox call, with the step 1/mu): if its prox calls are those of a convex g up to errors with a finite sum and some x is optimal with a
   multiplier, the pair converges to (xl, yl) where xl minimises f(x) + g(A x) + <z, x> and yl is a multiplier *)
Lemma C104_count_inherited_l : forall (E F : IPS) (A : linop E F) proxf proxg f g cf cg ef eg alias x0 tau mu kappa y0 z (gfirst : bool), bw E -> bw F ->
  serves proxf cf ef tau f -> inherits proxg -> serves proxg cg eg (1 / mu) g -> summable ef -> summable eg -> convex f -> convex g -> 0 < tau -> 0 < mu -> 0 <= kappa < 1 -> (forall a, tau * mu * norm2 (lapp A a) <= kappa * norm2 a) -> alias = None \/ z = None ->
  (exists xo yo, is_subgrad f xo (vopp (ladj A yo [+] zvec z)) /\ is_subgrad g (lapp A xo) yo) ->
  exists xs ys xl yl, (forall n, exists tr, cPrimalDual proxf proxg (cf 0%nat) (cg 0%nat) A alias x0 (Scalar tau) (Scalar mu) y0 z 1 n gfirst = Ok (xs n, ys n, tr, (cf n, cg n))) /\
    (is_subgrad f xl (vopp (ladj A yl [+] zvec z)) /\ is_subgrad g (lapp A xl) yl) /\ vcv xs xl /\ vcv ys yl.
Proof.
  intros E F A proxf proxg f g cf cg ef eg alias x0 tau mu kappa y0 z gfirst HE HF (P & HP & EP) Hin (D & HD & ED) Sf Sg Cf Cg Ht Hm Hk HA Hal (xo & yo & Ho). assert (Hi : 0 < 1 / mu) by (apply Rdiv_lt_0_compat; lra).
  destruct (cpd_run A proxf proxg P (fun v => v [-] mu [*] D (/ mu [*] v)) cf cg ef (fun k => mu * eg k) alias x0 tau mu kappa y0 z gfirst HE HF EP) as (xs & ys & xl & yl & Hrun & H1 & H2); auto.
  - intros k v. rewrite Hin by exact Hm. destruct (ED k (/ mu [*] v)) as (p & -> & Hp). eexists. split; [reflexivity|]. replace (v [-] mu [*] p [-] (v [-] mu [*] D (/ mu [*] v))) with ((- mu) [*] (p [-] D (/ mu [*] v))) by vring.
    rewrite norm_scal, Rabs_left, Ropp_involutive by lra. apply Rmult_le_compat_l; [lra|exact Hp].
  - apply summable_scal; [lra|exact Sg].
  - apply (prox_firmly f tau P Cf Ht HP).
  - apply moreau_firm; auto. apply (prox_firmly g (1 / mu) D Cg Hi HD).
  - exists xo, yo. apply (bal_fixA A f D tau mu P); auto. apply (bal_kktA A f g D mu); auto.
  - exists xs, ys, xl, yl. split; [exact Hrun|]. split; [|exact H2]. apply (bal_kktA A f g D mu); auto. apply (bal_fixA A f D tau mu P); auto.
Qed.
(*! C104_count_linearized_admm : LinearizedADMM with operators that may change from call to call (f, g convex, mu |A a|^2 <= kappa tau |a|^2 for some kappa < 1, either guess, some point is a solution with a multiplier): if the errors ef k, eg k of the
   k-th calls have a finite sum, the returned x converges to a minimiser xl of f(x) + g(A x) and z to A xl *)
Lemma C104_count_linearized_admm_l : forall (E F : IPS) (A : linop E F) (proxf : COp E) (proxg : COp F) f g cf cg ef eg tau mu kappa x0 z0 x z, bw E -> bw F ->
  serves proxf cf ef mu f -> serves proxg cg eg tau g -> summable ef -> summable eg -> convex f -> convex g -> 0 < tau -> 0 < mu -> 0 <= kappa < 1 -> (forall a, mu * norm2 (lapp A a) <= kappa * tau * norm2 a) -> x0z0_initA (lapp A) x0 z0 = Ok (x, z) ->
  (exists xo v, kktA f g A xo v) ->
  exists xs zs xl, (forall n, exists tr, cLinearizedADMM proxf proxg (cf 0%nat) (cg 0%nat) A x0 tau mu n z0 = Ok (xs n, zs n, tr, (cf n, cg n))) /\ is_min (eadd f (epre g (lapp A))) xl /\ vcv xs xl /\ vcv zs (lapp A xl).
Proof.
  intros E F A proxf proxg f g cf cg ef eg tau mu kappa x0 z0 x z HE HF (P & HP & EP) (D & HD & ED) Sf Sg Cf Cg Ht Hm Hk HA Hi (xo & v & Ho). set (Ax0 := match z0 with None => lapp A x | Some _ => z end).
  destruct (loop_seq (cla_body proxf proxg A tau mu) (fun j s => snd s = (cf j, cg j) /\ ((0 < j)%nat -> la_Ax (fst s) = lapp A (la_x (fst s))))
     (fun j s0 s1 => let s := fst s0 in let s' := fst s1 in norm (la_x s' [-] P (la_x s [-] (mu / tau) [*] ladj A (la_Ax s [-] la_z s [+] la_u s))) <= ef j /\
        norm (la_z s' [-] D (lapp A (la_x s') [+] la_u s)) <= eg j /\ la_u s' = la_u s [+] lapp A (la_x s') [-] la_z s') (M_Split.LA x Ax0 z vzero [], (cf 0%nat, cg 0%nat))) as (st & S0 & Hrun & HI & HR); [split; [reflexivity|intro; lia]| |].
  { intros j [s c] [Hc _]. cbn [fst snd] in *. subst c. unfold cla_body. rewrite pydiv_ok by lra. cbn [bind]. destruct (EP j (la_x s [-] (mu / tau) [*] ladj A (la_Ax s [-] la_z s [+] la_u s))) as (p & Ep & Hp). rewrite (call_ok _ _ _ _ _ _ Ep). cbn [bind fst snd].
    destruct (ED j (lapp A p [+] la_u s)) as (q & Eq & Hq). rewrite (call_ok _ _ _ _ _ _ Eq). cbn [bind fst snd]. eexists. split; [reflexivity|]. cbn [fst snd la_x la_z la_u la_Ax]. auto. }
  exists (fun k => la_x (fst (st k))), (fun k => la_z (fst (st k))).
  assert (Hret : forall n, exists tr, cLinearizedADMM proxf proxg (cf 0%nat) (cg 0%nat) A x0 tau mu n z0 = Ok (la_x (fst (st n)), la_z (fst (st n)), tr, (cf n, cg n))).
  { intro n. exists (la_tr (fst (st n))). unfold cLinearizedADMM. rewrite Hi. cbn [bind fst snd]. fold Ax0. rewrite Hrun. cbn [bind fst]. destruct (HI n) as [Hc _]. destruct (st n) as [s c]. cbn [fst snd] in *. subst c. reflexivity. }
  set (xx := fun k => la_x (fst (st k))) in *. set (zz := fun k => la_z (fst (st k))) in *. set (uu := fun k => la_u (fst (st k))) in *.
  destruct (la_pert HE HF A tau mu kappa P D Ht Hm Hk HA (prox_firmly f mu P Cf Hm HP) (prox_firmly g tau D Cg Ht HD) (fun k => xx (S k)) uu (fun k => ef (S k)) eg (summable_shift _ Sf) Sg) as (xl & ul & H1 & H2 & H3).
  - exists xo, (tau [*] v). apply (la_fix_kktA A f g tau mu P D); auto. replace (/ tau [*] (tau [*] v)) with v by (vfield; lra). exact Ho.
  - intro j. destruct (HR j) as (_ & G2 & G3). destruct (HR (S j)) as (G1 & _ & _). cbv zeta in *. destruct (HI (S j)) as [_ Hax]. rewrite Hax in G1 by lia. fold (xx (S j)) (zz (S j)) (uu (S j)) (uu j) (xx (S (S j))) in *. split.
    + replace (uu (S j) [-] (uu j [+] lapp A (xx (S j)) [-] D (lapp A (xx (S j)) [+] uu j))) with ((-1) [*] (zz (S j) [-] D (lapp A (xx (S j)) [+] uu j))) by (rewrite G3; vring). rewrite norm_scal, Rabs_left by lra. lra.
    + replace (2 [*] uu (S j) [-] uu j) with (lapp A (xx (S j)) [-] zz (S j) [+] uu (S j)); [exact G1|]. rewrite G3. vring.
  - exists xl. split; [exact Hret|]. apply (la_fix_kktA A f g tau mu P D) in H1; auto. split; [apply (kktA_min A f g xl _ H1)|]. split; [apply vcv_unshift; exact H2|].
    apply vcv_unshift. apply (vcv_ext (fun k => lapp A (xx (S k)) [+] (uu k [-] uu (S k)))).
    + intro k. destruct (HR k) as (_ & _ & G3). cbv zeta in G3. fold (xx (S k)) (zz (S k)) (uu (S k)) (uu k) in *. rewrite G3. vring.
    + replace (lapp A xl) with (lapp A xl [+] (ul [-] ul)) by vring. apply vcv_add; [|apply vcv_minus; [exact H3|apply vcv_shift; exact H3]]. apply (vcv_lapp A (kappa * tau / mu)); [apply Rmult_le_pos; [nra|left; apply Rinv_0_lt_compat; exact Hm]| |exact H2].
      intro a. apply (Rmult_le_reg_l mu); [exact Hm|]. replace (mu * (kappa * tau / mu * norm2 a)) with (kappa * tau * norm2 a) by (field; lra). apply HA.
Qed.

(** ** ADMM *)
Lemma pair_le {E F : IPS} (a : E) (b : F) : norm a <= norm (E:=Prod_IPS E F) (a, b) /\ norm b <= norm (E:=Prod_IPS E F) (a, b).
Proof. unfold norm. change (norm2 (E:=Prod_IPS E F) (a, b)) with (norm2 a + norm2 b). pose proof (norm2_nonneg a). pose proof (norm2_nonneg b). split; apply sqrt_le_1_alt; lra. Qed.
Lemma escape_pair {E : IPS} (ys as_ bs : nat -> E) : escapes ys -> (forall k, ys k = as_ (S k) [+] bs (S k) \/ ys k = as_ (S k) [-] bs (S k)) -> escapes (E:=Prod_IPS E E) (fun n => (as_ n, bs n)).
Proof.
  intros H Hy K. destruct (H (2 * Rabs K)) as [N HN]. exists (S N). intros n Hn. destruct n as [|n]; [lia|]. specialize (HN n ltac:(lia)). destruct (pair_le (as_ (S n)) (bs (S n))) as [P1 P2]. pose proof (Rle_abs K).
  assert (norm (ys n) <= norm (as_ (S n)) + norm (bs (S n))); [|lra]. destruct (Hy n) as [-> | ->]; [apply norm_triangle|]. replace (as_ (S n) [-] bs (S n)) with (as_ (S n) [+] (-1) [*] bs (S n)) by vring.
  eapply Rle_trans; [apply norm_triangle|]. rewrite norm_scal, Rabs_left by lra. lra.
Qed.
(*! C104_admm : ADMM on f + g, f and g convex with exact prox, any tau > 0, any guess, either order, finite dimension, no assumption that a solution exists: it never raises, and either x and z converge to one minimiser of f + g, or no point has a
   multiplier and the last updated vector of the pair, together with the accumulated differences x - z, is unbounded: its norm tends to infinity *)
Lemma C104_admm_l : forall (E : IPS) (proxf proxg : Op E) f g x0 z0 x z tau (gfirst : bool), bw E ->
  impl_prox proxf f -> impl_prox proxg g -> convex f -> convex g -> 0 < tau -> x0z0_init x0 z0 = Ok (x, z) ->
  exists xs zs, (forall n, exists tr, ADMM proxf proxg x0 tau n z0 gfirst = Ok (xs n, zs n, tr)) /\
    ((exists l, is_min (eadd f g) l /\ vcv xs l /\ vcv zs l) \/
     ((forall l u, ~ kkt f g l u) /\ escapes (E:=Prod_IPS E E) (fun n => (if gfirst then xs n else zs n, VS n (fun j => xs (S j) [-] zs (S j)))))).
Proof.
  intros E proxf proxg f g x0 z0 x z tau gfirst HB Hf Hg Cf Cg Ht Hi. destruct (classic (exists x u, kkt f g x u)) as [Hk|Hk].
  - destruct (C75_admm_l E proxf proxg f g x0 z0 x z tau gfirst HB Hf Hg Cf Cg Ht Hi Hk) as (xs & zs & l & H1 & H2). exists xs, zs. split; [exact H1|]. left. exists l. exact H2.
  - destruct (prox_map proxf f tau Hf Ht) as (P & EP & HP). destruct (prox_map proxg g tau Hg Ht) as (D & ED & HD).
    destruct (admm_maps proxf proxg P D tau EP ED x0 z0 gfirst x z Hi) as (xs & zs & us & _ & _ & U0 & Hrun & HR). exists xs, zs. split; [exact Hrun|]. right. split; [intros l u K; apply Hk; eauto|].
    assert (Hu : forall n, us n = VS n (fun j => xs (S j) [-] zs (S j))). { induction n as [|n IH]; [exact U0|]. destruct (HR n) as [H _]. rewrite H, IH. cbn [VS]. vring. }
    assert (G : escapes (E:=Prod_IPS E E) (fun n => (if gfirst then xs n else zs n, us n))).
    { destruct gfirst.
      - destruct (dr_cases HB f g tau 1 P D (fun k => xs (S k)) (fun k => zs (S k) [-] us k) Cf Cg Ht ltac:(lra) HP HD) as [(l & u & K & _)|[_ H]]; [|exfalso; apply Hk; eauto|].
        + intro k. destruct (HR k) as (H3 & H1 & H2). destruct (HR (S k)) as (G3 & G1 & G2). split; [exact H2|]. unfold DRmap. rewrite <- H2. replace (2 [*] xs (S k) [-] (zs (S k) [-] us k)) with (xs (S k) [+] us (S k)) by (rewrite H3; vring). rewrite <- G1, H3. vring.
        + apply (escape_pair _ xs us H). intro k. right. destruct (HR k) as (H3 & _). rewrite H3. vring.
      - destruct (dr_cases HB g f tau 1 D P (fun k => zs (S k)) (fun k => xs (S k) [+] us k) Cg Cf Ht ltac:(lra) HD HP) as [(l & u & K & _)|[_ H]]; [|exfalso; apply Hk; exists l, (vopp u); apply kkt_swap; exact K|].
        + intro k. destruct (HR k) as (H3 & H1 & H2). destruct (HR (S k)) as (G3 & G1 & G2). split; [exact H2|]. unfold DRmap. rewrite <- H2. replace (2 [*] zs (S k) [-] (xs (S k) [+] us k)) with (zs (S k) [-] us (S k)) by (rewrite H3; vring). rewrite <- G1, H3. vring.
        + apply (escape_pair _ zs us H). intro k. left. destruct (HR k) as (H3 & _). rewrite H3. vring. }
    intro K. destruct (G K) as [N HN]. exists N. intros n Hn. specialize (HN n Hn). cbv beta in HN. rewrite Hu in HN. exact HN.
Qed.

(** ** a weight that changes from call to call, with an offset *)
Lemma l1_inherits {n} (sig : nat -> nlist R n) (g : Vec n) : inherits (l1_cop sig (Some g)).
Proof. intros c x t Ht. cbn [c_dual c_prox l1_cop]. unfold l1_proxdual. destruct (Rleb_spec t 0) as [[H ->]|[H ->]]; [lra|]. destruct (l1_prox sig (Some g) c (/ t [*] x) (1 / t)) as [c' [p|e]]; reflexivity. Qed.
(*! C104_offset : without offset a callable sigma of L1 is no schedule for PrimalDual (C100_primal_dual_refuted). With an offset b it is one: the dual prox is then inherited and counts. f convex with exact prox, proxg = L1(sigma, g = b) with a
   callable sigma >= 0 whose values approach the weights s >= 0 so fast that the sum of |sigma(k) - s| is finite, kappa < 1, theta = 1, either order: if the problem with the limit weights, min f(x) + sum s_i |A x - b|_i + <z, x>, has a
   solution with a multiplier, x converges to a solution of it and y to a multiplier; the counter ends at c + niter *)
Lemma C104_offset_l : forall (E : IPS) n (A : linop E (Vec n)) (pf : Op E) f (sig : nat -> nlist R n) (s : nlist R n) b cf c alias x0 tau mu kappa y0 z (gfirst : bool), bw E ->
  impl_prox pf f -> convex f -> (forall k, nonneg_list (sig k)) -> nonneg_list s -> summable (fun k => wdist (sig (S (k + c))) s) -> 0 < tau -> 0 < mu -> 0 <= kappa < 1 -> (forall a, tau * mu * norm2 (lapp A a) <= kappa * norm2 a) -> alias = None \/ z = None ->
  (exists xo yo, is_subgrad f xo (vopp (ladj A yo [+] zvec z)) /\ is_subgrad (etot (wl1 s b)) (lapp A xo) yo) ->
  exists xs ys xl yl, (forall k, exists tr, cPrimalDual (plain pf) (l1_cop sig (Some b)) cf c A alias x0 (Scalar tau) (Scalar mu) y0 z 1 k gfirst = Ok (xs k, ys k, tr, (cf, (k + c)%nat))) /\
    is_min (elin (eadd f (etot (fun x => wl1 s b (lapp A x)))) (zvec z)) xl /\ is_subgrad (etot (wl1 s b)) (lapp A xl) yl /\ vcv xs xl /\ vcv ys yl.
Proof.
  intros E n A pf f sig s b cf c alias x0 tau mu kappa y0 z gfirst HE Hf Cf Hsig Hs Hsum Ht Hm Hk HA Hal Ho. assert (Hi : 0 < 1 / mu) by (apply Rdiv_lt_0_compat; lra).
  destruct (C104_count_inherited_l E (Vec n) A (plain pf) (l1_cop sig (Some b)) f (etot (wl1 s b)) (fun _ => cf) (fun k => (k + c)%nat) (fun _ => 0) (fun k => 1 / mu * wdist (sig (S (k + c))) s) alias x0 tau mu kappa y0 z gfirst HE (proj1 (proj2 C75_arrays_l) n)) as (xs & ys & xl & yl & Hrun & [K1 K2] & H2); auto.
  - apply serves_plain; assumption.
  - apply l1_inherits.
  - apply (serves_l1 sig s (Some b) c (1 / mu)); auto.
  - apply summable_zero.
  - apply summable_scal; [lra|exact Hsum].
  - apply wl1_convex. exact Hs.
  - exists xs, ys, xl, yl. split; [exact Hrun|]. split; [|auto]. destruct K1 as [D1 K1]. destruct K2 as [_ K2]. split; [split; [exact D1|exact I]|]. intros y [Dy _]. specialize (K1 y Dy). specialize (K2 (lapp A y) I).
    cbn [eval eadd etot elin] in *. revert K1 K2. rewrite inner_opp_l, inner_add_l, !inner_sub_r. rewrite !(inner_sym (ladj A yl)), <- !ladj_spec, !(inner_sym _ yl). lra.
Qed.

(** ** a solution without a multiplier *)
Definition cL : Vec 2 := vec2 (-1) 0.
Definition cR : Vec 2 := vec2 1 0.
Definition zup : Vec 2 := vec2 0 1.
Lemma get2 a b : get (vec2 a b) 0 = a /\ get (vec2 a b) 1 = b.
Proof. unfold vec2. split; rewrite get_vtab by lia; reflexivity. Qed.
Lemma inB (p c : Vec 2) : norm (p [-] c) <= 1 <-> (get p 0 - get c 0) * (get p 0 - get c 0) + (get p 1 - get c 1) * (get p 1 - get c 1) <= 1.
Proof.
  assert (Q : norm2 (p [-] c) = (get p 0 - get c 0) * (get p 0 - get c 0) + (get p 1 - get c 1) * (get p 1 - get c 1)) by (unfold norm2; rewrite inner2, !get_sub by lia; reflexivity).
  rewrite <- Q. pose proof (norm_sq (p [-] c)) as H. pose proof (norm_nonneg (p [-] c)). split; intro; nra.
Qed.
Lemma parab a b : (forall s, -1 <= s <= 1 -> a * (s * s) + b * s <= 0) -> b = 0.
Proof.
  intro H. destruct (Req_dec b 0) as [|Hb]; [assumption|]. exfalso. set (K := Rabs a + Rabs b). pose proof (Rabs_pos a) as Pa. pose proof (Rabs_pos_lt b Hb) as Pb. assert (HK : 0 < K) by (unfold K; lra).
  assert (I : 0 < / K) by (apply Rinv_0_lt_compat; exact HK). assert (IK : K * / K = 1) by (apply Rinv_r; lra). set (i := / K) in *.
  specialize (H (b * i / 2)). assert (Hb1 : Rabs b <= K) by (unfold K; lra). assert (Ha1 : Rabs a <= K) by (unfold K; lra).
  assert (Hbi : Rabs b * i <= 1) by (rewrite <- IK; apply Rmult_le_compat_r; lra). assert (Hai : Rabs a * i <= 1) by (rewrite <- IK; apply Rmult_le_compat_r; lra).
  assert (B : - (Rabs b) <= b <= Rabs b) by (pose proof (Rle_abs b); pose proof (Rle_abs (- b)) as X; rewrite Rabs_Ropp in X; lra). assert (A' : - (Rabs a) <= a) by (pose proof (Rle_abs (- a)) as X; rewrite Rabs_Ropp in X; lra).
  assert (R1 : -1 <= b * i / 2 <= 1) by nra. specialize (H R1).
  assert (E : a * (b * i / 2 * (b * i / 2)) + b * (b * i / 2) = b * b * i / 4 * (a * i + 2)) by field. rewrite E in H.
  assert (P1 : 0 < b * b * i) by (apply Rmult_lt_0_compat; [nra|exact I]). assert (P2 : 1 <= a * i + 2) by nra. nra.
Qed.
Lemma touch (x : Vec 2) : norm (x [-] cL) <= 1 -> norm (x [-] cR) <= 1 -> x = vzero.
Proof.
  intros H1 H2. apply inB in H1. apply inB in H2. unfold cL, cR in *. destruct (get2 (-1) 0) as [E1 E2]. destruct (get2 1 0) as [E3 E4]. rewrite E1, E2 in H1. rewrite E3, E4 in H2.
  assert (get x 0 * get x 0 + get x 1 * get x 1 <= 0) by nra. apply vec_ext. intros i Hi. rewrite get_zero by exact Hi. destruct i as [|[|i]]; [nra|nra|lia].
Qed.
Lemma zero_in : norm ((vzero : Vec 2) [-] cL) <= 1 /\ norm ((vzero : Vec 2) [-] cR) <= 1.
Proof. split; apply inB; unfold cL, cR; [destruct (get2 (-1) 0) as [-> ->]|destruct (get2 1 0) as [-> ->]]; rewrite !get_zero by lia; lra. Qed.
Lemma normal_R (y : Vec 2) : is_subgrad (indic (fun x => norm (x [-] cR) <= 1)) vzero y -> get y 1 = 0.
Proof.
  intros [_ H]. apply (parab (get y 0)). intros s Hs. specialize (H (vec2 (s * s) s)). cbn [eval indic edom] in H. destruct (get2 (s * s) s) as [E1 E2].
  assert (D : norm (vec2 (s * s) s [-] cR) <= 1). { apply inB. unfold cR. destruct (get2 1 0) as [-> ->]. rewrite E1, E2. assert (0 <= s * s <= 1) by nra. nra. }
  specialize (H D). rewrite inner_sub_r, inner_zero_r, inner2, E1, E2 in H. lra.
Qed.
Lemma normal_L (y : Vec 2) : is_subgrad (indic (fun x => norm (x [-] cL) <= 1)) vzero y -> get y 1 = 0.
Proof.
  intros [_ H]. apply (parab (- get y 0)). intros s Hs. specialize (H (vec2 (- (s * s)) s)). cbn [eval indic edom] in H. destruct (get2 (- (s * s)) s) as [E1 E2].
  assert (D : norm (vec2 (- (s * s)) s [-] cL) <= 1). { apply inB. unfold cL. destruct (get2 (-1) 0) as [-> ->]. rewrite E1, E2. assert (0 <= s * s <= 1) by nra. nra. }
  specialize (H D). rewrite inner_sub_r, inner_zero_r, inner2, E1, E2 in H. lra.
Qed.
Lemma ball_facts (c : Vec 2) fuel : convex (indic (fun x => norm (x [-] c) <= 1)) /\ impl_prox (obj (S fuel) (ball_body c 1)) (indic (fun x => norm (x [-] c) <= 1)).
Proof.
  destruct (projects_impl (obj (S fuel) (ball_body c 1)) (yes (obj (S fuel) (ball_body c 1))) (fun x => norm (x [-] c) <= 1)) as [H1 H2]; [apply (proj1 (proj2 (proj2 (C67_projections_l fuel))) (Vec 2) c 1); lra|]. split; [apply indic_convex; exact H1|exact H2].
Qed.
(*! C104_multiplier_refuted : a solution is not enough. There are two EuclideanBall operators on R^2 and a vector z such that min <z, x> over the intersection of the balls has a solution, but for every start, every order and all steps with tau mu < 1
   PrimalDual (A = identity) produces dual vectors whose norm tends to infinity, while x stays in the first ball: the pair never converges *)
Lemma C104_multiplier_refuted_l : exists (f g : Op (Vec 2)) c1 c2 (z xo : Vec 2), is_ball f c1 1 /\ is_ball g c2 1 /\
  is_min (elin (eadd (indic (fun x => norm (x [-] c1) <= 1)) (indic (fun x => norm (x [-] c2) <= 1))) z) xo /\
  forall x0 y0 tau mu (gfirst : bool), 0 < tau -> 0 < mu -> tau * mu < 1 ->
    exists xs ys, (forall n, exists tr, PrimalDual f g (id_linop (Vec 2)) None x0 (Scalar tau) (Scalar mu) y0 (Some z) 1 n gfirst = Ok (xs n, ys n, tr)) /\ (forall n, norm (xs (S n) [-] c1) <= 1) /\ escapes ys.
Proof.
  exists (obj 2 (ball_body cL 1)), (obj 2 (ball_body cR 1)), cL, cR, zup, vzero. split; [reflexivity|]. split; [reflexivity|]. split.
  - split; [apply zero_in|]. intros y [H1 H2]. rewrite (touch y H1 H2). lra.
  - intros x0 y0 tau mu gfirst Ht Hm Htm. destruct (ball_facts cL 1) as [Cf Hf]. destruct (ball_facts cR 0) as [Cg Hg].
    destruct (prox_map _ _ tau Hf Ht) as (P & EP & HP). assert (Hi : 0 < 1 / mu) by (apply Rdiv_lt_0_compat; lra). destruct (prox_map _ _ (1 / mu) Hg Hi) as (D & ED & HD).
    pose proof (moreau_prox 0 (ball_body cR 1) D mu eq_refl Hm ED) as EQ.
    destruct (pd_maps (id_linop (Vec 2)) (obj 2 (ball_body cL 1)) (obj 2 (ball_body cR 1)) P _ None x0 tau mu y0 (Some zup) gfirst EP EQ) as (xs & ys & Hrun & HR); [auto|].
    destruct (C104_inherited_l (Vec 2) (Vec 2) 0 (id_linop (Vec 2)) (obj 2 (ball_body cL 1)) (ball_body cR 1) (indic (fun x => norm (x [-] cL) <= 1)) (indic (fun x => norm (x [-] cR) <= 1)) None x0 tau mu (tau * mu) y0 (Some zup) gfirst) as (xs' & ys' & Hrun' & Hc); auto; try apply (proj1 (proj2 C75_arrays_l) 2%nat).
    + nra.
    + intro a. cbn [lapp id_linop]. lra.
    + assert (Q : forall n, xs' n = xs n /\ ys' n = ys n). { intro n. destruct (Hrun n) as (tr & E1). destruct (Hrun' n) as (tr' & E2). rewrite E1 in E2. injection E2 as -> -> _. auto. }
      assert (Hball : forall n, norm (xs (S n) [-] cL) <= 1). { intro n. specialize (HR n). destruct gfirst; destruct HR as [-> _]; apply (HP _). }
      exists xs, ys. split; [exact Hrun|]. split; [exact Hball|]. destruct Hc as [(xl & yl & [[D1 K1] [D2 K2]] & _)|[_ Hes]].
      * exfalso. cbn [zvec lapp ladj id_linop] in *. assert (xl = vzero) by (apply touch; [exact D1|exact D2]). subst xl. pose proof (normal_R yl (Logic.conj D2 K2)) as N1. pose proof (normal_L _ (Logic.conj D1 K1)) as N2.
        assert (N3 : get (vopp (yl [+] zup)) 1 = - (get yl 1 + 1)). { unfold vopp. rewrite get_scal, get_add by lia. unfold zup. destruct (get2 0 1) as [_ ->]. ring. } rewrite N3, N1 in N2. lra.
      * intro K. destruct (Hes (Rabs K + (1 + norm cL) + norm (xs 0%nat))) as [N HN]. exists N. intros n Hn. specialize (HN n Hn). cbv beta in HN. destruct (Q n) as [-> ->] in HN.
        assert (Hx : norm (xs n) <= 1 + norm cL + norm (xs 0%nat)).
        { pose proof (norm_nonneg (xs 0%nat)). pose proof (norm_nonneg cL). destruct n as [|n]; [lra|]. pose proof (norm_triangle (xs (S n) [-] cL) cL) as T. replace (xs (S n) [-] cL [+] cL) with (xs (S n)) in T by vring. specialize (Hball n). lra. }
        pose proof (norm_triangle (E:=Prod_IPS (Vec 2) (Vec 2)) ((xs n, vzero) : Prod_IPS (Vec 2) (Vec 2)) ((vzero, ys n) : Prod_IPS (Vec 2) (Vec 2))) as T.
        replace (((xs n, vzero) : Prod_IPS (Vec 2) (Vec 2)) [+] ((vzero, ys n) : Prod_IPS (Vec 2) (Vec 2))) with ((xs n, ys n) : Prod_IPS (Vec 2) (Vec 2)) in T by (change ((xs n, ys n) = (xs n [+] vzero, vzero [+] ys n)); f_equal; vring).
        assert (N1 : norm ((xs n, vzero) : Prod_IPS (Vec 2) (Vec 2)) = norm (xs n)) by (unfold norm; f_equal; change (norm2 (xs n) + norm2 (vzero : Vec 2) = norm2 (xs n)); rewrite norm2_zero; ring).
        assert (N2 : norm ((vzero, ys n) : Prod_IPS (Vec 2) (Vec 2)) = norm (ys n)) by (unfold norm; f_equal; change (norm2 (vzero : Vec 2) + norm2 (ys n) = norm2 (ys n)); rewrite norm2_zero; ring).
        rewrite N1, N2 in T. pose proof (Rle_abs K). lra.
Qed.
(*!ex C104_example : the same two balls without the vector z: a pair of subgradients exists, so PrimalDual with tau = mu = 1/2 converges from every start, in either order, to the point where the balls touch *)
Lemma C104_example_l : forall x0 y0 (gfirst : bool), exists xs ys yl, (forall n, exists tr, PrimalDual (obj 2 (ball_body (vec2 (-1) 0) 1)) (obj 2 (ball_body (vec2 1 0) 1)) (id_linop (Vec 2)) None x0 (Scalar (1 / 2)) (Scalar (1 / 2)) y0 None 1 n gfirst = Ok (xs n, ys n, tr)) /\
  vcv xs (vzero : Vec 2) /\ vcv ys yl.
Proof.
  intros x0 y0 gfirst. destruct (ball_facts cL 1) as [Cf Hf]. destruct (ball_facts cR 0) as [Cg Hg].
  destruct (C104_inherited_l (Vec 2) (Vec 2) 0 (id_linop (Vec 2)) (obj 2 (ball_body cL 1)) (ball_body cR 1) (indic (fun x => norm (x [-] cL) <= 1)) (indic (fun x => norm (x [-] cR) <= 1)) None x0 (1 / 2) (1 / 2) (1 / 4) y0 None gfirst) as (xs & ys & Hrun & Hc); auto; try apply (proj1 (proj2 C75_arrays_l) 2%nat); try lra.
  - intro a. cbn [lapp id_linop]. lra.
  - destruct Hc as [(xl & yl & [[D1 K1] [D2 K2]] & _ & H1 & H2)|[Hno _]].
    + exists xs, ys, yl. split; [exact Hrun|]. cbn [lapp id_linop] in D2. rewrite (touch xl D1 D2) in H1. auto.
    + exfalso. apply (Hno vzero vzero). cbn [lapp ladj id_linop zvec]. destruct zero_in as [Z1 Z2]. split; (split; [assumption|]); intros y _; cbn [eval indic].
      * replace (vopp ((vzero : Vec 2) [+] vzero)) with (vzero : Vec 2) by vring. rewrite inner_zero_l. lra.
      * rewrite inner_zero_l. lra.
Qed.
