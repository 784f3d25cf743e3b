(** * C84: PrimalDual on arrays in memory; what a [__call__] that writes into its argument does to the solvers *)
From Coq Require Import String.
From Verif Require Import Base Space Spec SpecOps VSum MatFacts M_ProxOp M_Norms M_Loop M_PG M_Split M_Multi M_PD M_Heap M_AndShow M_Show LoopFacts P_Heap P_Show.
From Verif Require Export S_Heap S_Show.
Open Scope result_scope.
Open Scope R_scope.

Lemma lin_call {E : IPS} (L : hlin E) A h r x : lin_reads L A -> holds h r x -> exists h' r', L h r = Ok (h', r') /\ holds h' r' (A x) /\ keeps h h'.
Proof. intros HL Hx. apply HL, Hx. Qed.

(** one step on the dual variable *)
Lemma pd_y_step (E : IPS) (g : Op E) (Hgd : hprox E) (A : linop E E) (Am : hlin E) mu (h : heap E) xh y vxh vy :
  confined Hgd (o_proxdual g) -> lin_reads Am (lapp A) -> holds h xh vxh -> holds h y vy ->
  same (fun p w => holds (fst p) (snd p) w /\ keeps h (fst p) /\ (length h <= snd p)%nat) (hpd_y Hgd Am mu h xh y)
       (mu <- mu ;; o_proxdual g (vy [+] mu [*] lapp A vxh) mu).
Proof.
  intros HG HA Hxh Hy. unfold hpd_y. destruct mu as [m|e]; [|reflexivity]. cbn [bind].
  destruct (HA h xh vxh Hxh) as (h1 & a & -> & Ha & K). cbn [bind fst snd]. rewrite (ex2_ok h1 _ _ _ _ _ (K _ _ Hy) Ha). cbn [bind fst snd].
  eapply same_imp; [apply call_temp, HG|]. intros [h2 p] w (B1 & B2 & B3). cbn [fst snd] in *. pose proof (keeps_len _ _ K). repeat split; auto; [eapply keeps_trans; eauto|lia].
Qed.
(** one step on the primal variable; only the array y may change, and only if it is returned by the adjoint *)
Lemma pd_x_step (E : IPS) (f : Op E) (Hf : hprox E) (A : linop E E) (At : hlin E) z tau (h : heap E) x y vx vy :
  confined Hf (o_prox f) -> (makes_new At (ladj A) \/ z = None /\ lin_reads At (ladj A)) -> holds h x vx -> holds h y vy ->
  same (fun p w => holds (fst p) (snd p) w /\ keeps h (fst p) /\ (length h <= snd p)%nat) (hpd_x Hf At z tau h x y)
       (tau <- tau ;; o_prox f (vx [-] tau [*] fst (rmatvec_plus A None z vy)) tau).
Proof.
  intros HF HA Hx Hy. unfold hpd_x, rmatvec_plus.
  assert (HA' : exists h1 a h2 va, At h y = Ok (h1, a) /\ match z with None => Ok h1 | Some z => v <- rd h1 a ;; Ok (wr h1 a (v [+] z)) end = Ok h2 /\
                  holds h2 a va /\ va = match z with None => ladj A vy | Some z => ladj A vy [+] z end /\ keeps h h2 /\ (length h <= length h2)%nat).
  { destruct HA as [HA|[-> HA]].
    - destruct (HA h y vy Hy) as (h1 & a & E1 & H1 & K & Hn). destruct z as [z|].
      + exists h1, a, (wr h1 a (ladj A vy [+] z)), (ladj A vy [+] z). rewrite (rd_holds _ _ _ H1). cbn [bind].
        split; [exact E1|]. split; [reflexivity|]. split; [eapply wr_same; exact H1|]. split; [reflexivity|]. split; [|rewrite wr_len; apply keeps_len, K].
        intros i w Hi. apply wr_other; [|auto]. apply holds_lt in Hi. lia.
      + exists h1, a, h1, (ladj A vy). repeat split; auto. apply keeps_len, K.
    - destruct (HA h y vy Hy) as (h1 & a & E1 & H1 & K). exists h1, a, h1, (ladj A vy). repeat split; auto. apply keeps_len, K. }
  destruct HA' as (h1 & a & h2 & va & -> & E2 & Ha & Eva & K & Hl). cbn [bind fst snd]. rewrite E2. cbn [bind]. destruct tau as [t|e]; [|reflexivity]. cbn [bind].
  rewrite (ex2_ok h2 _ _ _ _ _ (K _ _ Hx) Ha). cbn [bind fst snd]. subst va.
  replace (fst match z with None => (ladj A vy, vy) | Some z0 => (ladj A vy [+] z0, vy) end) with (match z with None => ladj A vy | Some z0 => ladj A vy [+] z0 end) by (destruct z; reflexivity).
  eapply same_imp; [apply call_temp, HF|]. intros [h3 p] w (B1 & B2 & B3). cbn [fst snd] in *. repeat split; auto; [eapply keeps_trans; eauto|lia].
Qed.

(*! C84_primal_dual : PrimalDual on a square operator whose adjoint returns new arrays (or without z), with or without the log, in either order, returns
   the vectors of the silent by-value run, the arrays handed to the callback keep them and the caller's arrays are unchanged;
   the log can only add an exception raised by evaluating f or g or printing a line *)
Lemma spd_sim : forall (E : IPS) (show : bool) (f g : Op E) (Hf Hgd : hprox E) (A : linop E E) (Am At : hlin E) (Cf Cg : hcall E) fmt (h : heap E)
    (x0 : ref) (v : E) tau mu (y0 : option ref) (vy0 : option E) z theta niter (gfirst : bool),
  confined Hf (o_prox f) -> confined Hgd (o_proxdual g) -> lin_reads Am (lapp A) -> (makes_new At (ladj A) \/ z = None /\ lin_reads At (ladj A)) ->
  calls_only Cf (o_call f) -> calls_only Cg (o_call g) -> holds h x0 v -> holds_opt h y0 vy0 ->
  same_or (log_error show [o_call f; o_call g] fmt) (fun p q => let '(h', x, y, tr) := p in let '(vx, vy, vtr) := q in
          holds h' x vx /\ holds h' y vy /\ Forall2 (holds2 h') tr vtr /\ keeps h h')
       (sPrimalDual show Hf Hgd Am At Cf Cg fmt h x0 tau mu y0 z theta niter gfirst)
       (PrimalDual f g A None v tau mu vy0 z theta niter gfirst).
Proof.
  intros E show f g Hf Hgd A Am At Cf Cg fmt h x0 v tau mu y0 vy0 z theta niter gfirst HF HG HA HAt HCf HCg Hx Hy. unfold sPrimalDual, PrimalDual.
  rewrite (copy_ok _ _ _ Hx). cbn [bind fst snd]. set (vy := match vy0 with Some y => y | None => vzero end).
  assert (Y : exists h1 y, match y0 with Some y => copy (h ++ [v]) y | None => Ok (alloc (h ++ [v]) vzero) end = Ok (h1, y) /\ holds h1 y vy /\ keeps (h ++ [v]) h1).
  { destruct y0 as [y|], vy0 as [w|]; cbn in Hy; try contradiction.
    - rewrite (copy_ok _ y w (keeps_app _ _ _ _ Hy)). eexists _, _. split; [reflexivity|]. split; [apply holds_alloc|apply keeps_app].
    - eexists _, _. split; [reflexivity|]. split; [apply holds_alloc|apply keeps_app]. }
  destruct Y as (h1 & y & -> & Hy1 & K1). cbn [bind fst snd].
  rewrite (copy_ok h1 _ v (K1 _ _ (holds_alloc h v))). cbn [bind fst snd].
  set (Q := fun (s : hpd E) (t : @pd_state E E) => keeps h (hp_h s) /\ holds (hp_h s) (hp_x s) (pd_x t) /\ holds (hp_h s) (hp_y s) (pd_y t) /\ holds (hp_h s) (hp_hat s) (pd_hat t) /\
       Forall2 (holds2 (hp_h s)) (hp_tr s) (pd_tr t)).
  eapply so_bind.
  - apply (so_loop _ Q).
    + intros i s t (Q1 & Q2 & Q3 & Q4 & Q5). unfold spd_body, pd_body. rewrite (copy_ok _ _ _ Q2). cbn [bind fst snd].
      set (h2 := hp_h s ++ [pd_x t]). assert (K2 : keeps (hp_h s) h2) by apply keeps_app. assert (X2 : holds h2 (length (hp_h s)) (pd_x t)) by apply holds_alloc.
      match goal with |- same_or _ _ _ (if gfirst then ?a else ?b) => rewrite <- (bind_ok_r (if gfirst then a else b)) end.
      eapply (so_bind _ (fun p q => Q p (fst q) /\ snd q = false)).
      * apply so_same. destruct gfirst.
        -- destruct (getitem (steps_arr mu niter) i) as [m|e]; [|reflexivity]. cbn [bind].
           eapply same_bind; [apply (pd_y_step E g Hgd A Am (Ok m) h2 _ _ (pd_hat t) (pd_y t)); auto|]. intros [h3 y1] vy1 (A1 & A2 & _). cbn [fst snd] in *.
           assert (RP : rmatvec_plus A None z vy1 = (fst (rmatvec_plus A None z vy1), vy1)) by (destruct z; reflexivity). rewrite RP.
           pose proof (pd_x_step E f Hf A At z (getitem (steps_arr tau niter) i) h3 (hp_x s) y1 (pd_x t) vy1 HF HAt (A2 _ _ (K2 _ _ Q2)) A1) as B.
           destruct (getitem (steps_arr tau niter) i) as [tk|e]; cbn [bind] in B |- *; [|destruct (hpd_x _ _ _ _ _ _ _); cbn in B |- *; [contradiction|exact B]].
           eapply same_bind; [exact B|]. intros [h4 x1] vx1 (B1 & B2 & _). cbn [fst snd] in *.
           rewrite (ex2_ok h4 _ _ _ _ _ B1 (B2 _ _ (A2 _ _ X2))). cbn [bind fst snd]. set (h5 := h4 ++ _). assert (K5 : keeps h4 h5) by apply keeps_app.
           assert (K : keeps (hp_h s) h5) by (intros j w Hj; auto).
           cbn. split; [|reflexivity]. split; [cbn; eapply keeps_trans; eauto|]. split; [cbn; auto|]. split; [cbn; auto|]. split; [apply holds_alloc|].
           cbn. apply Forall2_app; [|constructor; [split; cbn; auto|constructor]]. eapply trace_keep; [|exact Q5]. intros a b. apply holds2_keep, K.
        -- assert (RP : rmatvec_plus A None z (pd_y t) = (fst (rmatvec_plus A None z (pd_y t)), pd_y t)) by (destruct z; reflexivity). rewrite RP.
           pose proof (pd_x_step E f Hf A At z (getitem (steps_arr tau niter) i) h2 (hp_x s) (hp_y s) (pd_x t) (pd_y t) HF HAt (K2 _ _ Q2) (K2 _ _ Q3)) as B.
           destruct (getitem (steps_arr tau niter) i) as [tk|e]; cbn [bind] in B |- *; [|destruct (hpd_x _ _ _ _ _ _ _); cbn in B |- *; [contradiction|exact B]].
           eapply same_bind; [exact B|]. intros [h4 x1] vx1 (B1 & B2 & _). cbn [fst snd] in *.
           rewrite (ex2_ok h4 _ _ _ _ _ B1 (B2 _ _ X2)). cbn [bind fst snd]. set (xh := vx1 [+] theta [*] (vx1 [-] pd_x t)). set (h5 := h4 ++ [xh]). assert (K5 : keeps h4 h5) by apply keeps_app.
           pose proof (pd_y_step E g Hgd A Am (getitem (steps_arr mu niter) i) h5 (length h4) (hp_y s) xh (pd_y t) HG HA (holds_alloc _ _) (K5 _ _ (B2 _ _ (K2 _ _ Q3)))) as D.
           destruct (getitem (steps_arr mu niter) i) as [m|e]; cbn [bind] in D |- *; [|destruct (hpd_y _ _ _ _ _ _); cbn in D |- *; [contradiction|exact D]].
           eapply same_bind; [exact D|]. intros [h6 y1] vy1 (A1 & A2 & _). cbn [fst snd] in *.
           assert (K : keeps (hp_h s) h6) by (intros j w Hj; auto).
           cbn. split; [|reflexivity]. split; [cbn; eapply keeps_trans; eauto|]. split; [cbn; auto|]. split; [cbn; auto|]. split; [apply A2, holds_alloc|].
           cbn. apply Forall2_app; [|constructor; [split; cbn; auto|constructor]]. eapply trace_keep; [|exact Q5]. intros a b. apply holds2_keep, K.
      * intros p [q b] [HQ Hb]. cbn [fst snd] in *. subst b. apply so_line; auto. intros Hsh s' t' (P1 & P2 & P3 & P4 & P5).
        pose proof (call_only Cf _ _ _ _ HCf P2) as W. destruct (Cf (hp_h s') (hp_x s')) as [[h3 k3]|e3], (o_call f (pd_x t')) as [k|e'] eqn:Ec; cbn in W; try contradiction.
        2:{ subst e'. cbn. split; [exact Hsh|]. exists (pd_x t'). left. exists (o_call f). cbn. auto. }
        destruct W as [-> K3]. cbn [bind fst snd]. destruct (HA h3 _ _ (K3 _ _ P2)) as (h4 & a & -> & Ha & K4). cbn [bind fst snd].
        pose proof (call_only Cg _ _ _ _ HCg Ha) as W. destruct (Cg h4 a) as [[h5 k5]|e5], (o_call g (lapp A (pd_x t'))) as [kg|e'] eqn:Ec'; cbn in W; try contradiction.
        2:{ subst e'. cbn. split; [exact Hsh|]. exists (lapp A (pd_x t')). left. exists (o_call g). cbn. auto. }
        destruct W as [-> K5]. cbn [bind fst snd]. rewrite (rd_holds _ _ _ (K5 _ _ (K4 _ _ (K3 _ _ P2)))). cbn [bind].
        match goal with |- context [fmt (pd_x t') ?l] => destruct (fmt (pd_x t') l) as [u|e6] eqn:Ef; cbn end.
        2:{ split; [exact Hsh|]. exists (pd_x t'). right. eauto. }
        assert (K : keeps (hp_h s') h5) by (intros j w Hj; auto). split; [cbn; eapply keeps_trans; eauto|]. repeat split; cbn; auto.
        eapply trace_keep; [|exact P5]. intros c b. apply holds2_keep, K.
    + assert (KK : keeps (h ++ [v]) (h1 ++ [v])) by (intros j w Hj; apply keeps_app; auto).
      split; [intros j w Hj; apply KK, keeps_app, Hj|]. split; [apply KK, holds_alloc|]. split; [cbn; apply keeps_app, Hy1|]. split; [apply holds_alloc|constructor].
  - intros [s k] [t k'] [(Q1 & Q2 & Q3 & Q4 & Q5) _]. cbn. eexists. split; [reflexivity|]. cbn. auto.
Qed.
