(** * Proofs about AdaptivePrimalDual (M_PD.v) *)
From Coq Require Import Psatz.
From Verif Require Import Base Space Spec VSum ConvexFacts Smooth M_ProxOp SpecOps P_ProxOp M_Norms P_Norms M_Loop LoopFacts LoopFacts2 SeqFacts M_PG M_PD SplitMath P_PG2 P_PG3 P_Split2 P_Split3 P_PD P_PD2.
From Verif Require Export S_PD3.
Open Scope result_scope.
Open Scope R_scope.

Section A.
Context {E F : IPS} (A : linop E F).


Local Notation apd_step := (S_PD3.apd_step A).

Lemma apd_body_ok proxf proxg f gs alias z rz eta s delta st : impl_prox proxf f -> impl_proxdual proxg gs -> alias = None \/ z = None ->
  (forall v, z = Some v -> rz v <> None) -> 0 < ap_tau st -> 0 < ap_mu st -> 0 < ap_alpha st < 1 -> 0 < delta ->
  exists st', apd_body proxf proxg A alias z rz eta s delta st = Ok st' /\ apd_step f gs z rz eta s delta st st'.
Proof.
  intros Hf Hg Hal Hrz Ht Hm Ha Hd. unfold apd_body.
  assert (Hz : match z with None => ap_ATy st | Some z => ap_ATy st [+] z end = ap_ATy st [+] zvec z) by (destruct z; [reflexivity|cbn; vring]).
  rewrite Hz. destruct (Hf (ap_x st [-] ap_tau st [*] (ap_ATy st [+] zvec z)) (ap_tau st) Ht) as [x [-> Hx]]. cbn [bind].
  assert (Hy0 : match z, alias with Some _, Some back => (if Nat.eqb (List.length (ap_tr st)) 0 then ap_y st else back (ap_ATy st [+] zvec z)) | _, _ => ap_y st end = ap_y st).
  { destruct Hal as [-> | ->]; [destruct z; reflexivity|reflexivity]. }
  rewrite Hy0. destruct (Hg (ap_y st [+] ap_mu st [*] (2 [*] lapp A x [-] ap_Ax st)) (ap_mu st) Hm) as [y [-> Hy]]. cbn [bind].
  rewrite pydiv_ok by lra. cbn [bind].
  assert (Hp : exists p, apd_p z rz (ap_tau st) (ap_x st) x (ap_ATy st) (ladj A y) = Ok p).
  { unfold apd_p. destruct z as [v|]; [|eauto]. destruct (rz v) eqn:Er; [eauto|]. exfalso. apply (Hrz v); auto. }
  destruct Hp as [p Ep]. rewrite Ep. cbn [bind]. rewrite pydiv_ok by lra. cbn [bind].
  set (d := norm _). rewrite (pydiv_ok _ (1 - ap_alpha st)) by lra.
  destruct (Rltb_spec (s * d * delta) p) as [[H1 ->]|[H1 ->]].
  - cbn [bind]. eexists. split; [reflexivity|]. unfold S_PD3.apd_step. cbn [ap_x ap_y ap_Ax ap_ATy ap_tau ap_mu ap_alpha ap_p ap_d ap_taus ap_mus ap_alphas ap_tr].
    repeat (split; [first [exact Hx|exact Hy|exact Ep|reflexivity|idtac]|]); try reflexivity. left. auto.
  - rewrite (pydiv_ok _ delta) by lra. cbn [bind]. destruct (Rltb_spec p (s * d / delta)) as [[H2 ->]|[H2 ->]].
    + rewrite pydiv_ok by lra. cbn [bind]. eexists. split; [reflexivity|]. unfold S_PD3.apd_step. cbn [ap_x ap_y ap_Ax ap_ATy ap_tau ap_mu ap_alpha ap_p ap_d ap_taus ap_mus ap_alphas ap_tr].
      repeat (split; [first [exact Hx|exact Hy|exact Ep|reflexivity|idtac]|]); try reflexivity. right. left. auto.
    + cbn [bind]. eexists. split; [reflexivity|]. unfold S_PD3.apd_step. cbn [ap_x ap_y ap_Ax ap_ATy ap_tau ap_mu ap_alpha ap_p ap_d ap_taus ap_mus ap_alphas ap_tr].
      repeat (split; [first [exact Hx|exact Hy|exact Ep|reflexivity|idtac]|]); try reflexivity. right. right. auto.
Qed.

Lemma adapt_inv eta s delta p d tau mu alpha tau' mu' alpha' : 0 < eta <= 1 -> 0 < tau -> 0 < mu -> 0 < alpha < 1 ->
  adapt eta s delta p d tau mu alpha tau' mu' alpha' -> 0 < tau' /\ 0 < mu' /\ 0 < alpha' < 1 /\ alpha' <= alpha /\ tau' * mu' = tau * mu.
Proof.
  intros He Ht Hm Ha [[_ [-> [-> ->]]]|[[_ [_ [-> [-> ->]]]]|[_ [-> [-> ->]]]]].
  - split; [apply Rdiv_lt_0_compat; lra|]. split; [nra|]. split; [split; nra|]. split; [nra|field; lra].
  - split; [nra|]. split; [apply Rdiv_lt_0_compat; lra|]. split; [split; nra|]. split; [nra|field; lra].
  - lra.
Qed.

(** the while loop as a sequence of states *)
Lemma apd_while_states proxf proxg f gs alias z rz eta s delta tol n st0 : impl_prox proxf f -> impl_proxdual proxg gs -> alias = None \/ z = None ->
  (forall v, z = Some v -> rz v <> None) -> 0 < delta -> 0 < eta <= 1 -> 0 < ap_tau st0 -> 0 < ap_mu st0 -> 0 < ap_alpha st0 < 1 ->
  exists st k, apd_while proxf proxg A alias z rz eta s delta tol n st0 = Ok (st k) /\ st 0%nat = st0 /\ (k <= n)%nat /\
    (forall j, (j < k)%nat -> tol < ap_p (st j) /\ tol < ap_d (st j) /\ apd_step f gs z rz eta s delta (st j) (st (S j))) /\
    (k = n \/ ap_p (st k) <= tol \/ ap_d (st k) <= tol).
Proof.
  intros Hf Hg Hal Hrz Hd He. revert st0. induction n as [|n IH]; intros st0 Ht Hm Ha.
  - exists (fun _ => st0), 0%nat. simpl. split; auto. split; auto. split; auto. split; [intros; lia|auto].
  - cbn [apd_while]. destruct (Rltb_spec tol (ap_p st0)) as [[H1 ->]|[H1 ->]].
    + destruct (Rltb_spec tol (ap_d st0)) as [[H2 ->]|[H2 ->]].
      * cbn [andb]. destruct (apd_body_ok proxf proxg f gs alias z rz eta s delta st0 Hf Hg Hal Hrz Ht Hm Ha Hd) as [st1 [-> Hs]]. cbn [bind].
        destruct Hs as [Q1 [Q2 [Q3 [Q4 [Q5 [Q6 [Q7 Q8]]]]]]]. destruct (adapt_inv _ _ _ _ _ _ _ _ _ _ _ He Ht Hm Ha Q7) as [Ht1 [Hm1 [Ha1 _]]].
        destruct (IH st1 Ht1 Hm1 Ha1) as [st [k [E1 [S0 [Hk [Hj Hl]]]]]].
        exists (fun j => match j with O => st0 | S j => st j end), (S k). split; [exact E1|]. split; [reflexivity|]. split; [lia|]. split.
        -- intros j Hjk. destruct j as [|j].
           ++ rewrite S0. split; [auto|]. split; [auto|]. repeat (split; [assumption|]). assumption.
           ++ apply Hj. lia.
        -- destruct Hl as [->|Hl]; auto.
      * exists (fun _ => st0), 0%nat. cbn [andb]. split; auto. split; auto. split; [lia|]. split; [intros; lia|auto].
    + exists (fun _ => st0), 0%nat. cbn [andb]. split; auto. split; auto. split; [lia|]. split; [intros; lia|auto].
Qed.
End A.

(*! C58_invariants : 0 < alpha < 1, 0 < eta <= 1, positive tau, mu, delta; rmatvec fresh and A^T z well-shaped (or z None).  The run never
   raises and follows the documented iteration and step adaptation.  For the whole run: tau mu is constant, tau, mu > 0,
   0 < alpha < 1 non-increasing; after k executed iterations each history has k+1 entries and they are exactly the values
   used; the loop continues only while both residuals exceed tol, and stops at niter or when at least one is <= tol *)
Lemma C58_invariants_l : forall (E F : IPS) (A : linop E F) proxf proxg f gs alias x0 tau mu alpha eta s delta z rz niter tol,
  impl_prox proxf f -> impl_proxdual proxg gs -> alias = None \/ z = None -> (forall v, z = Some v -> rz v <> None) ->
  0 < tau -> 0 < mu -> 0 < alpha < 1 -> 0 < eta <= 1 -> 0 < delta ->
  exists (st : nat -> @apd_state E F) k,
    AdaptivePrimalDual proxf proxg A alias x0 tau mu alpha eta s delta z rz niter tol =
      Ok (ap_x (st k), (map (fun j => ap_tau (st j)) (seq 0 (S k)), map (fun j => ap_mu (st j)) (seq 0 (S k)), map (fun j => ap_alpha (st j)) (seq 0 (S k))),
          map (fun j => ap_x (st j)) (seq 1 k)) /\
    ap_x (st 0%nat) = x0 /\ ap_tau (st 0%nat) = tau /\ ap_mu (st 0%nat) = mu /\ ap_alpha (st 0%nat) = alpha /\ ap_y (st 0%nat) = vzero /\
    (k <= niter)%nat /\
    (forall j, (j < k)%nat -> apd_step A f gs z rz eta s delta (st j) (st (S j))) /\
    (forall j, (j <= k)%nat -> 0 < ap_tau (st j) /\ 0 < ap_mu (st j) /\ ap_tau (st j) * ap_mu (st j) = tau * mu /\ 0 < ap_alpha (st j) < 1) /\
    (forall j, (j < k)%nat -> ap_alpha (st (S j)) <= ap_alpha (st j)) /\
    (forall j, (1 <= j < k)%nat -> tol < ap_p (st j) /\ tol < ap_d (st j)) /\
    (k = niter \/ (1 <= k)%nat /\ (ap_p (st k) <= tol \/ ap_d (st k) <= tol)).
Proof.
  intros E F A proxf proxg f gs alias x0 tau mu alpha eta s delta z rz niter tol Hf Hg Hal Hrz Ht Hm Ha He Hd.
  destruct (apd_while_states A proxf proxg f gs alias z rz eta s delta tol niter (APD x0 vzero vzero vzero tau mu alpha (tol + 1) (tol + 1) [tau] [mu] [alpha] []) Hf Hg Hal Hrz Hd He Ht Hm Ha)
    as [st [k [E1 [S0 [Hk [Hj Hl]]]]]].
  assert (Hinv : forall j, (j <= k)%nat -> 0 < ap_tau (st j) /\ 0 < ap_mu (st j) /\ ap_tau (st j) * ap_mu (st j) = tau * mu /\ 0 < ap_alpha (st j) < 1).
  { induction j as [|j IH]; intro Hjk; [rewrite S0; cbn; auto|]. destruct (IH ltac:(lia)) as [I1 [I2 [I3 I4]]]. destruct (Hj j ltac:(lia)) as [_ [_ Hs]].
    destruct Hs as [_ [_ [_ [_ [_ [_ [Q7 _]]]]]]]. destruct (adapt_inv _ _ _ _ _ _ _ _ _ _ _ He I1 I2 I4 Q7) as [J1 [J2 [J3 [_ J5]]]]. split; auto. split; auto. split; [congruence|auto]. }
  assert (Hhist : forall j, (j <= k)%nat -> ap_taus (st j) = map (fun j => ap_tau (st j)) (seq 0 (S j)) /\ ap_mus (st j) = map (fun j => ap_mu (st j)) (seq 0 (S j)) /\
      ap_alphas (st j) = map (fun j => ap_alpha (st j)) (seq 0 (S j)) /\ ap_tr (st j) = map (fun j => ap_x (st j)) (seq 1 j)).
  { induction j as [|j IH]; intro Hjk; [rewrite S0; cbn; rewrite S0; auto|]. destruct (IH ltac:(lia)) as [I1 [I2 [I3 I4]]]. destruct (Hj j ltac:(lia)) as [_ [_ Hs]].
    destruct Hs as [_ [_ [_ [_ [_ [_ [_ [Q8 [Q9 [Q10 Q11]]]]]]]]]]. rewrite Q8, Q9, Q10, Q11, I1, I2, I3, I4.
    rewrite (seq_S (S j) 0), (seq_S j 1), !map_app. cbn [map]. replace (0 + S j)%nat with (S j) by lia. replace (1 + j)%nat with (S j) by lia. auto. }
  exists st, k. split.
  - unfold AdaptivePrimalDual. rewrite E1. cbn [bind]. destruct (Hhist k ltac:(lia)) as [-> [-> [-> ->]]]. reflexivity.
  - split; [rewrite S0; reflexivity|]. split; [rewrite S0; reflexivity|]. split; [rewrite S0; reflexivity|]. split; [rewrite S0; reflexivity|]. split; [rewrite S0; reflexivity|]. split; [exact Hk|].
    split; [intros j Hjk; apply (Hj j Hjk)|]. split; [exact Hinv|]. split.
    + intros j Hjk. destruct (Hinv j ltac:(lia)) as [I1 [I2 [_ I4]]]. destruct (Hj j Hjk) as [_ [_ Hs]]. destruct Hs as [_ [_ [_ [_ [_ [_ [Q7 _]]]]]]].
      destruct (adapt_inv _ _ _ _ _ _ _ _ _ _ _ He I1 I2 I4 Q7) as [_ [_ [_ [J _]]]]. exact J.
    + split; [intros j Hjk; destruct (Hj j ltac:(lia)) as [H1 [H2 _]]; auto|].
      destruct Hl as [Hl|Hl]; [left; exact Hl|]. destruct k as [|k]; [|right; split; [lia|exact Hl]].
      rewrite S0 in Hl. cbn in Hl. destruct Hl; lra.
Qed.

(*! C58_residuals_vanish_no_z : without z, an iteration that leaves x and y unchanged and starts from consistent Ax and A^T y
   has zero residuals (so the run stops there for any tol >= 0); conversely zero residuals of a step make the new (x, y) a saddle point *)
Lemma C58_residuals_vanish_no_z_l : forall (E F : IPS) (A : linop E F) f gs rz eta s delta (st st' : @apd_state E F),
  convex f -> convex gs -> 0 < ap_tau st -> 0 < ap_mu st -> apd_step A f gs None rz eta s delta st st' ->
  ap_Ax st = lapp A (ap_x st) -> ap_ATy st = ladj A (ap_y st) ->
  (ap_x st' = ap_x st -> ap_y st' = ap_y st -> ap_p st' = 0 /\ ap_d st' = 0) /\
  (ap_p st' = 0 -> ap_d st' = 0 -> saddle A f gs vzero (ap_x st') (ap_y st')).
Proof.
  intros E F A f gs rz eta s delta st st' Cf Cg Ht Hm [Q1 [Q2 [Q3 [Q4 [Q5 [Q6 _]]]]]] HA1 HA2. unfold apd_p in Q5. injection Q5 as Q5. split.
  - intros Hx Hy. rewrite <- Q5, Q6, Q3, Q4, HA1, HA2, Hx, Hy. split.
    + replace (/ ap_tau st [*] (ap_x st [-] ap_x st) [-] (ladj A (ap_y st) [-] ladj A (ap_y st))) with (vzero : E) by vring. apply norm_zero.
    + replace (/ ap_mu st [*] (ap_y st [-] ap_y st) [-] (lapp A (ap_x st) [-] lapp A (ap_x st))) with (vzero : F) by vring. apply norm_zero.
  - intros Hp Hd. rewrite Hp in Q5. rewrite Hd in Q6. apply norm_eq0 in Q5. symmetry in Q6. apply norm_eq0 in Q6.
    apply prox_subgrad in Q1; auto. apply prox_subgrad in Q2; auto. split.
    + replace (vopp (ladj A (ap_y st') [+] vzero)) with (/ ap_tau st [*] (ap_x st [-] ap_tau st [*] (ap_ATy st [+] zvec None) [-] ap_x st')); [exact Q1|].
      apply vsub_eq. cbn [zvec]. rewrite <- Q4. etransitivity; [|exact Q5]. vfield. lra.
    + replace (lapp A (ap_x st')) with (/ ap_mu st [*] (ap_y st [+] ap_mu st [*] (2 [*] ap_Ax st' [-] ap_Ax st) [-] ap_y st')); [exact Q2|].
      apply vsub_eq. rewrite <- Q3. etransitivity; [|exact Q6]. vfield. lra.
Qed.

(*! C58_stops_early_refuted : the loop stops as soon as one residual is small, at points that are not solutions:
   f = (x-1)^2/2, g = x^2/2, A = identity, x0 = 1/4, tau = 1/4, mu = 3, any 0 <= tol < 1/5: after one iteration the primal residual is 0,
   the dual residual 1/5 > tol, and 2/5 is returned for every niter >= 1 although the minimiser is 1/2 *)
Lemma C58_stops_early_refuted_l : forall n tol alpha eta s delta rz, 0 <= tol < 1/5 -> 0 < alpha < 1 -> 0 < eta <= 1 -> 0 < s -> 1 < delta ->
  let f := etot (E:=R_IPS) (fun x : R_IPS => 1 / 2 * ((x - 1) * (x - 1))) in
  impl_prox shifted1 f /\ impl_proxdual half1 half1_fun /\ is_conj half1_fun half1_fun /\ (forall a : R_IPS, 1/4 * 3 * norm2 (lapp (id_linop R_IPS) a) <= norm2 a) /\
  (exists h, AdaptivePrimalDual shifted1 half1 (id_linop R_IPS) None (1/4 : R_IPS) (1/4) 3 alpha eta s delta None rz (S n) tol = Ok (2/5, h, [2/5])) /\
  (forall x, is_min (eadd (elin f (vzero : R_IPS)) (epre half1_fun (lapp (id_linop R_IPS)))) x <-> x = 1/2).
Proof.
  intros n tol alpha eta s delta rz Ht Ha He Hs Hdl f. split; [apply shifted1_prox|]. split; [apply half1_proxdual|]. split; [apply half1_conj|]. split.
  { intro a. unfold norm2. cbn. pose proof (Rle_0_sqr a). unfold Rsqr in *. lra. }
  split.
  - unfold AdaptivePrimalDual. cbn [apd_while ap_p ap_d]. destruct (Rltb_spec tol (tol + 1)) as [[_ ->]|[H _]]; [|lra]. cbn [andb].
    unfold apd_body. cbn [ap_x ap_y ap_Ax ap_ATy ap_tau ap_mu ap_alpha o_prox shifted1 bind].
    set (x := ((1/4 : R_IPS) [-] (1/4) [*] (vzero : R_IPS) + 1/4) / (1 + 1/4)). assert (Hx : x = 2/5) by (unfold x; cbn; field). rewrite !Hx. clear Hx x.
    cbn [o_proxdual half1 bind].
    set (y := ((vzero : R_IPS) [+] 3 [*] (2 [*] lapp (id_linop R_IPS) (2/5) [-] vzero)) / (1 + 3 * 1)). assert (Hy : y = 3/5) by (unfold y; cbn; field). rewrite !Hy. clear Hy y.
    rewrite !(pydiv_ok 1) by lra. cbn [bind apd_p].
    assert (Hp : norm (/ (1/4) [*] ((1/4 : R_IPS) [-] (2/5)) [-] ((vzero : R_IPS) [-] ladj (id_linop R_IPS) (3/5))) = 0).
    { etransitivity; [|apply (@norm_zero R_IPS)]. f_equal. cbn. field. }
    rewrite !Hp.
    set (d := norm _). assert (Hd : d = 1/5).
    { unfold d. assert (Hq : / 3 [*] ((vzero : R_IPS) [-] (3/5)) [-] ((vzero : R_IPS) [-] lapp (id_linop R_IPS) (2/5)) = (1/5 : R_IPS)) by (cbn; field).
      rewrite Hq. unfold norm, norm2. cbn. replace (1/5 * (1/5)) with (Rsqr (1/5)) by (unfold Rsqr; ring). apply sqrt_Rsqr. lra. }
    rewrite !Hd. assert (Hsd : 0 < s * (1/5)) by nra. assert (Hsd2 : 0 < s * (1/5) * delta) by nra. assert (Hsd3 : 0 < s * (1/5) / delta) by (apply Rdiv_lt_0_compat; lra).
    destruct (Rltb_spec (s * (1/5) * delta) 0) as [[H _]|[_ ->]]; [lra|]. rewrite (pydiv_ok _ delta) by lra. cbn [bind].
    destruct (Rltb_spec 0 (s * (1/5) / delta)) as [[_ ->]|[H _]]; [|lra]. rewrite pydiv_ok by lra. cbn [bind].
    assert (Hstop : Rltb tol 0 = false) by (destruct (Rltb_spec tol 0) as [[H _]|[_ ->]]; [lra|reflexivity]).
    destruct n as [|n]; cbn [apd_while ap_p ap_d]; [|rewrite Hstop; cbn [andb]]; eexists; reflexivity.
  - intro x. split.
    + intros [_ H]. specialize (H (1/2) (conj I I)). cbn in H. assert (Hq : (x - 1/2) * (x - 1/2) <= 0) by nra.
      assert (x - 1/2 = 0); [|lra]. apply Rsqr_0_uniq. unfold Rsqr. pose proof (Rle_0_sqr (x - 1/2)). unfold Rsqr in *. lra.
    + intros ->. split; [split; exact I|]. intros y _. cbn. pose proof (Rle_0_sqr (y - 1/2)). unfold Rsqr in *. nra.
Qed.

(*! C58_z_residual_refuted : with z the residuals do not vanish at a solution: any iteration that leaves x and y unchanged (from
   consistent Ax, A^T y) has primal residual |z - A^T z|, e.g. |z| for A = 2 I *)
Lemma C58_z_residual_refuted_l : forall (E F : IPS) (A : linop E F) f gs z w rz eta s delta (st st' : @apd_state E F),
  rz z = Some w -> apd_step A f gs (Some z) rz eta s delta st st' ->
  ap_ATy st = ladj A (ap_y st) -> ap_x st' = ap_x st -> ap_y st' = ap_y st -> ap_p st' = norm (z [-] w).
Proof.
  intros E F A f gs z w rz eta s delta st st' Hr [_ [_ [_ [Q4 [Q5 _]]]]] HA Hx Hy. unfold apd_p in Q5. rewrite Hr in Q5. injection Q5 as Q5.
  rewrite <- Q5, Q4, HA, Hx, Hy. f_equal. vring.
Qed.

(*! C58_z_shape_refuted : with z and an operator that is not square the residual computation raises ValueError in the first
   iteration, although the documented problem is well-posed *)
Lemma C58_z_shape_refuted_l : forall (E F : IPS) (A : linop E F) proxf proxg f gs x0 tau mu alpha eta s delta z rz n tol,
  impl_prox proxf f -> impl_proxdual proxg gs -> 0 < tau -> 0 < mu -> rz z = None ->
  AdaptivePrimalDual proxf proxg A None x0 tau mu alpha eta s delta (Some z) rz (S n) tol = Err ValueError.
Proof.
  intros E F A proxf proxg f gs x0 tau mu alpha eta s delta z rz n tol Hf Hg Ht Hm Hr. unfold AdaptivePrimalDual. cbn [apd_while ap_p ap_d].
  destruct (Rltb_spec tol (tol + 1)) as [[_ ->]|[H _]]; [|lra]. cbn [andb]. unfold apd_body. cbn [ap_x ap_y ap_Ax ap_ATy ap_tau ap_mu ap_alpha].
  destruct (Hf (x0 [-] tau [*] (vzero [+] z)) tau Ht) as [x [-> _]]. cbn [bind].
  destruct (Hg (vzero [+] mu [*] (2 [*] lapp A x [-] vzero)) mu Hm) as [y [-> _]]. cbn [bind]. rewrite pydiv_ok by lra. cbn [bind]. unfold apd_p. rewrite Hr. reflexivity.
Qed.

(*!ex C58_example : the quadratic problem of C58_stops_early_refuted meets the hypotheses of C58_invariants, and its documented
   fixed point x = y = 1/2 is a saddle point at which an iteration keeps x and y *)
Lemma C58_example_l : let f := etot (E:=R_IPS) (fun x : R_IPS => 1 / 2 * ((x - 1) * (x - 1))) in
  impl_prox shifted1 f /\ impl_proxdual half1 half1_fun /\ convex f /\ convex half1_fun /\
  saddle (id_linop R_IPS) f half1_fun (vzero : R_IPS) (1/2 : R_IPS) (1/2 : R_IPS) /\
  is_prox f (1/4) ((1/2 : R_IPS) [-] (1/4) [*] ((1/2 : R_IPS) [+] vzero)) (1/2 : R_IPS) /\
  is_prox half1_fun 3 ((1/2 : R_IPS) [+] 3 [*] (2 [*] (1/2 : R_IPS) [-] (1/2 : R_IPS))) (1/2 : R_IPS).
Proof.
  intros f. split; [apply shifted1_prox|]. split; [apply half1_proxdual|]. split; [|split; [apply half1_convex|split; [|split]]].
  - intros x y a _ _ Ha. split; [exact I|]. cbn.
    assert (0 <= a * (1 - a) * ((x - y) * (x - y))). { apply Rmult_le_pos; [apply Rmult_le_pos; lra|apply Rle_0_sqr]. } nra.
  - split; (split; [exact I|]); intros y _; cbn; pose proof (Rle_0_sqr (y - 1/2)); unfold Rsqr in *; nra.
  - destruct (shifted1_prox ((1/2 : R_IPS) [-] (1/4) [*] ((1/2 : R_IPS) [+] vzero)) (1/4) ltac:(lra)) as [p [Hp H]].
    cbn [o_prox shifted1] in Hp. injection Hp as Hp. replace (1/2 : R_IPS) with p at 3; [exact H|]. rewrite <- Hp. cbn. field.
  - destruct (half1_prox ((1/2 : R_IPS) [+] 3 [*] (2 [*] (1/2 : R_IPS) [-] (1/2 : R_IPS))) 3 ltac:(lra)) as [p [Hp H]].
    cbn [o_prox half1] in Hp. injection Hp as Hp. replace (1/2 : R_IPS) with p at 4; [exact H|]. rewrite <- Hp. cbn. field.
Qed.
