(** * C84, C57: PrimalDual with an identity that returns the array it is given *)
From Coq Require Import String Psatz.
From Verif Require Import Base Space Spec SpecOps VSum MatFacts ConvexFacts M_ProxOp M_Norms M_Loop M_PG M_Split M_Multi M_PD M_Heap M_AndShow M_Show LoopFacts S_Seq S_PD Compact Fejer P_ProxOp P_PD P_PD2 P_Iter2 P_Heap P_Show P_Show2 P_Show3.
From Verif Require Export S_Heap S_Show.
Open Scope result_scope.
Open Scope R_scope.

Lemma keeps_but_len {E : IPS} r (h h' : heap E) w : holds h' r w -> keeps_but r h h' -> (length h <= length h')%nat.
Proof.
  intros Hw K. destruct h as [|a h]; [cbn; lia|]. destruct (nth_error (a :: h) (length h)) eqn:En.
  - destruct (Nat.eq_dec (length h) r) as [e|Hn]; [subst r; apply holds_lt in Hw; cbn; lia|]. apply (K _ _ Hn), holds_lt in En. cbn. lia.
  - apply nth_error_None in En. cbn in En. lia.
Qed.
Lemma F2_imp {A B} (P Q : A -> B -> Prop) l l' : (forall a b, P a b -> Q a b) -> Forall2 P l l' -> Forall2 Q l l'.
Proof. intros HI; induction 1; constructor; auto. Qed.
(** the step on the primal variable when the adjoint returns y itself *)
Lemma pd_x_self (E : IPS) (f : Op E) (Hf : hprox E) z tau (h : heap E) x y vx vy :
  confined Hf (o_prox f) -> x <> y -> holds h x vx -> holds h y vy ->
  same (fun p w => holds (fst p) (snd p) w /\ keeps_but y h (fst p) /\ holds (fst p) y (vy [+] z) /\ (length h <= snd p)%nat) (hpd_x Hf hl_self (Some z) tau h x y)
       (tau <- tau ;; o_prox f (vx [-] tau [*] (vy [+] z)) tau).
Proof.
  intros HF Hn Hx Hy. unfold hpd_x, hl_self. cbn [bind fst snd]. rewrite (rd_holds _ _ _ Hy). cbn [bind]. set (h1 := wr h y (vy [+] z)).
  assert (Y1 : holds h1 y (vy [+] z)) by (eapply wr_same; exact Hy). assert (K1 : keeps_but y h h1) by apply wr_other.
  destruct tau as [t|e]; [|reflexivity]. cbn [bind]. rewrite (ex2_ok h1 _ _ _ _ _ (K1 _ _ Hn Hx) Y1). cbn [bind fst snd].
  eapply same_imp; [apply call_temp, HF|]. intros [h3 p] w (B1 & B2 & B3). cbn [fst snd] in *. assert (L1 : length h1 = length h) by apply wr_len.
  repeat split; auto; [|lia]. intros i u Hi Hu. apply B2, K1; auto.
Qed.
Lemma self_reads {E : IPS} : lin_reads (E:=E) hl_self (lapp (id_linop E)).
Proof. intros h r x Hx. exists h, r. repeat split; auto. apply keeps_refl. Qed.

(*! C84_primal_dual_identity : PrimalDual with z and an identity operator that returns the array it is given (pylops.Identity by default): the in-place
   sum with z changes the dual variable itself, and the run returns the vectors of the by-value model in which the dual variable
   is replaced by its sum with z; the primal arrays handed to the callback keep the primal iterates, the caller's arrays are
   unchanged *)
Lemma spd_self : forall (E : IPS) (show : bool) (f g : Op E) (Hf Hgd : hprox E) (Cf Cg : hcall E) fmt (h : heap E)
    (x0 : ref) (v : E) tau mu (y0 : option ref) (vy0 : option E) (z : E) theta niter (gfirst : bool),
  confined Hf (o_prox f) -> confined Hgd (o_proxdual g) -> calls_only Cf (o_call f) -> calls_only Cg (o_call g) -> holds h x0 v -> holds_opt h y0 vy0 ->
  same_or (log_error show [o_call f; o_call g] fmt) (fun p q => let '(h', x, y, tr) := p in let '(vx, vy, vtr) := q in
          holds h' x vx /\ holds h' y vy /\ Forall2 (fun a b => holds h' (fst a) (fst b)) tr vtr /\ keeps h h')
       (sPrimalDual show Hf Hgd hl_self hl_self Cf Cg fmt h x0 tau mu y0 (Some z) theta niter gfirst)
       (PrimalDual f g (id_linop E) (Some (fun y => y)) v tau mu vy0 (Some z) theta niter gfirst).
Proof.
  intros E show f g Hf Hgd Cf Cg fmt h x0 v tau mu y0 vy0 z theta niter gfirst HF HG HCf HCg Hx Hy. unfold sPrimalDual, PrimalDual.
  rewrite (copy_ok _ _ _ Hx). cbn [bind fst snd]. set (vy := match vy0 with Some y => y | None => vzero end).
  assert (Y : exists h1 y, match y0 with Some y => copy (h ++ [v]) y | None => Ok (alloc (h ++ [v]) vzero) end = Ok (h1, y) /\ holds h1 y vy /\ keeps (h ++ [v]) h1 /\ y = length (h ++ [v])).
  { destruct y0 as [y|], vy0 as [w|]; cbn in Hy; try contradiction.
    - rewrite (copy_ok _ y w (keeps_app _ _ _ _ Hy)). eexists _, _. split; [reflexivity|]. split; [apply holds_alloc|]. split; [apply keeps_app|reflexivity].
    - eexists _, _. split; [reflexivity|]. split; [apply holds_alloc|]. split; [apply keeps_app|reflexivity]. }
  destruct Y as (h1 & y & -> & Hy1 & K1 & Ey). cbn [bind fst snd].
  rewrite (copy_ok h1 _ v (K1 _ _ (holds_alloc h v))). cbn [bind fst snd].
  set (Q := fun (s : hpd E) (t : @pd_state E E) => (keeps h (hp_h s) /\ (length h <= hp_y s)%nat) /\ (holds (hp_h s) (hp_x s) (pd_x t) /\ hp_x s <> hp_y s) /\ holds (hp_h s) (hp_y s) (pd_y t) /\
       (holds (hp_h s) (hp_hat s) (pd_hat t) /\ hp_hat s <> hp_y s) /\ Forall2 (fun a b => holds (hp_h s) (fst a) (fst b) /\ fst a <> hp_y s) (hp_tr s) (pd_tr t)).
  eapply so_bind.
  - apply (so_loop _ Q).
    + intros i s t ([Q1 Q1'] & [Q2 Q2'] & Q3 & [Q4 Q4'] & Q5). unfold spd_body, pd_body, rmatvec_plus. rewrite (copy_ok _ _ _ Q2). cbn [bind fst snd].
      set (h2 := hp_h s ++ [pd_x t]). assert (K2 : keeps (hp_h s) h2) by apply keeps_app. assert (X2 : holds h2 (length (hp_h s)) (pd_x t)) by apply holds_alloc.
      match goal with |- same_or _ _ _ (if gfirst then ?a else ?b) => rewrite <- (bind_ok_r (if gfirst then a else b)) end.
      eapply (so_bind _ (fun p q => Q p (fst q) /\ snd q = false)).
      * apply so_same. destruct gfirst.
        -- destruct (getitem (steps_arr mu niter) i) as [m|e]; [|reflexivity]. cbn [bind].
           eapply same_bind; [apply (pd_y_step E g Hgd (id_linop E) hl_self (Ok m) h2 _ _ (pd_hat t) (pd_y t)); auto using self_reads|].
           intros [h3 y1] vy1 (A1 & A2 & A3). cbn [fst snd] in *.
           assert (OLD : forall j w, holds h2 j w -> j <> y1) by (intros j w Hj; apply holds_lt in Hj; lia).
           pose proof (pd_x_self E f Hf z (getitem (steps_arr tau niter) i) h3 (hp_x s) y1 (pd_x t) vy1 HF (OLD _ _ (K2 _ _ Q2)) (A2 _ _ (K2 _ _ Q2)) A1) as B.
           change (ladj (id_linop E) vy1) with vy1. cbn [lapp id_linop].
           destruct (getitem (steps_arr tau niter) i) as [tk|e]; cbn [bind] in B |- *; [|destruct (hpd_x _ _ _ _ _ _ _); cbn in B |- *; [contradiction|exact B]].
           eapply same_bind; [exact B|]. intros [h4 x1] vx1 (B1 & B2 & B3 & B4). cbn [fst snd] in *.
           rewrite (ex2_ok h4 _ _ _ _ _ B1 (B2 _ _ (OLD _ _ X2) (A2 _ _ X2))). cbn [bind fst snd]. set (h5 := h4 ++ _). assert (K5 : keeps h4 h5) by apply keeps_app.
           assert (K : keeps h2 h5) by (intros j w Hj; apply K5, B2; [eapply OLD; exact Hj|auto]).
           assert (N1 : x1 <> y1) by (apply holds_lt in A1; lia).
           assert (N2 : length h4 <> y1) by (apply holds_lt in B3; lia).
           assert (N3 : (length h <= y1)%nat) by (apply keeps_len in Q1; apply keeps_len in K2; lia).
           cbn. split; [|reflexivity]. split; [cbn; split; [eapply keeps_trans; [exact Q1|]; eapply keeps_trans; eauto|exact N3]|]. split; [cbn; auto|]. split; [cbn; auto|].
           split; [split; [apply holds_alloc|exact N2]|].
           cbn. apply Forall2_app; [|constructor; [split; cbn; auto|constructor]]. eapply F2_imp; [|exact Q5]. intros a b [D1 D2]. split; [apply K, K2, D1|]. eapply OLD. apply K2, D1.
        -- change (ladj (id_linop E) (pd_y t)) with (pd_y t). cbn [lapp id_linop].
           pose proof (pd_x_self E f Hf z (getitem (steps_arr tau niter) i) h2 (hp_x s) (hp_y s) (pd_x t) (pd_y t) HF Q2' (K2 _ _ Q2) (K2 _ _ Q3)) as B.
           destruct (getitem (steps_arr tau niter) i) as [tk|e]; cbn [bind] in B |- *; [|destruct (hpd_x _ _ _ _ _ _ _); cbn in B |- *; [contradiction|exact B]].
           eapply same_bind; [exact B|]. intros [h4 x1] vx1 (B1 & B2 & B3 & B4). cbn [fst snd] in *.
           assert (N0 : length (hp_h s) <> hp_y s) by (apply holds_lt in Q3; lia).
           rewrite (ex2_ok h4 _ _ _ _ _ B1 (B2 _ _ N0 X2)). cbn [bind fst snd]. set (xh := vx1 [+] theta [*] (vx1 [-] pd_x t)). set (h5 := h4 ++ [xh]). assert (K5 : keeps h4 h5) by apply keeps_app.
           pose proof (pd_y_step E g Hgd (id_linop E) hl_self (getitem (steps_arr mu niter) i) h5 (length h4) (hp_y s) xh (pd_y t [+] z) HG self_reads (holds_alloc _ _) (K5 _ _ B3)) as D.
           destruct (getitem (steps_arr mu niter) i) as [m|e]; cbn [bind] in D |- *; [|destruct (hpd_y _ _ _ _ _ _); cbn in D |- *; [contradiction|exact D]].
           eapply same_bind; [exact D|]. intros [h6 y1] vy1 (A1 & A2 & A3). cbn [fst snd] in *.
           assert (K : forall j w, j <> hp_y s -> holds (hp_h s) j w -> holds h6 j w) by (intros j w Hn Hj; apply A2, K5, B2; auto).
           assert (L2 : (length h2 <= length h4)%nat) by (eapply keeps_but_len; [exact B3|exact B2]).
           assert (L5 : length h5 = (length h4 + 1)%nat) by (unfold h5; rewrite app_length; reflexivity).
           assert (OLD : forall j w, holds h5 j w -> j <> y1) by (intros j w Hj; apply holds_lt in Hj; lia).
           assert (L0 : (length h <= length h2)%nat) by (apply keeps_len in Q1; apply keeps_len in K2; lia).
           cbn. split; [|reflexivity]. split; [cbn; split; [|lia]|].
           { intros j w Hj. apply K; [apply holds_lt in Hj; lia|apply Q1, Hj]. }
           split; [cbn; split; [auto|apply (OLD _ _ (K5 _ _ B1))]|]. split; [cbn; auto|]. split; [split; [apply A2, holds_alloc|apply (OLD _ xh), holds_alloc]|].
           cbn. apply Forall2_app; [|constructor; [split; cbn; [auto|apply (OLD _ _ (K5 _ _ B1))]|constructor]].
           eapply F2_imp; [|exact Q5]. intros a b [D1 D2]. split; [apply K; auto|]. apply (OLD _ (fst b)), K5, B2; auto.
      * intros p [q b] [HQ Hb]. cbn [fst snd] in *. subst b. apply so_line; auto. intros Hsh s' t' ([P1 P1'] & [P2 P2'] & P3 & [P4 P4'] & P5).
        pose proof (call_only Cf _ _ _ _ HCf P2) as W. destruct (Cf (hp_h s') (hp_x s')) as [[h3 k3]|e3], (o_call f (pd_x t')) as [k|e'] eqn:Ec; cbn in W; try contradiction.
        2:{ subst e'. cbn. split; [exact Hsh|]. exists (pd_x t'). left. exists (o_call f). cbn. auto. }
        destruct W as [-> K3]. cbn [bind fst snd]. destruct (self_reads h3 _ _ (K3 _ _ P2)) as (h4 & a & -> & Ha & K4). cbn [bind fst snd].
        pose proof (call_only Cg _ _ _ _ HCg Ha) as W. destruct (Cg h4 a) as [[h5 k5]|e5], (o_call g (lapp (id_linop E) (pd_x t'))) as [kg|e'] eqn:Ec'; cbn in W; try contradiction.
        2:{ subst e'. cbn. split; [exact Hsh|]. exists (lapp (id_linop E) (pd_x t')). left. exists (o_call g). cbn. auto. }
        destruct W as [-> K5]. cbn [bind fst snd]. rewrite (rd_holds _ _ _ (K5 _ _ (K4 _ _ (K3 _ _ P2)))). cbn [bind].
        match goal with |- context [fmt (pd_x t') ?l] => destruct (fmt (pd_x t') l) as [u|e6] eqn:Ef; cbn end.
        2:{ split; [exact Hsh|]. exists (pd_x t'). right. eauto. }
        assert (K : keeps (hp_h s') h5) by (intros j w Hj; auto). split; [cbn; split; [eapply keeps_trans; eauto|auto]|]. repeat split; cbn; auto.
        eapply F2_imp; [|exact P5]. intros c b [D1 D2]. split; auto.
    + assert (KK : keeps (h ++ [v]) (h1 ++ [v])) by (intros j w Hj; apply keeps_app; auto). assert (EL : length (h ++ [v]) = (length h + 1)%nat) by (rewrite app_length; reflexivity).
      split; [split; [intros j w Hj; apply KK, keeps_app, Hj|cbn; lia]|]. split; [split; [apply KK, holds_alloc|cbn; lia]|]. split; [cbn; apply keeps_app, Hy1|].
      split; [split; [apply holds_alloc|cbn; apply holds_lt in Hy1; lia]|constructor].
  - intros [s k] [t k'] [([Q1 _] & [Q2 _] & Q3 & Q4 & Q5) _]. cbn. eexists. split; [reflexivity|]. cbn. repeat split; auto.
    eapply F2_imp; [|exact Q5]. intros a b [D _]. exact D.
Qed.

(** ** What the aliased run converges to *)
Definition shift_op {E : IPS} (g : Op E) (mu : R) (z : E) : Op E :=
  mkOp (o_call g) (o_prox g) (fun v m => o_proxdual g (v [+] (m / mu) [*] z) m) (o_grad g) (o_hasgrad g).
Lemma alias_run (E : IPS) (f g : Op E) (x0 : E) tau mu y0 z theta niter (gfirst : bool) : mu <> 0 ->
  same (fun p q => fst (fst p) = fst (fst q) /\ snd (fst p) = (if gfirst then snd (fst q) [+] z else snd (fst q)))
    (PrimalDual f g (id_linop E) (Some (fun y => y)) x0 tau (Scalar mu) y0 (Some z) theta niter gfirst)
    (PrimalDual f (shift_op g mu z) (id_linop E) None x0 tau (Scalar mu) (Some (if gfirst then y0vec y0 [-] z else y0vec y0)) (Some z) theta niter gfirst).
Proof.
  intro Hmu. unfold PrimalDual. cbn [y0vec].
  set (Q := fun (s t : @pd_state E E) => pd_x s = pd_x t /\ pd_hat s = pd_hat t /\ pd_y s = (if gfirst then pd_y t [+] z else pd_y t)).
  eapply same_bind.
  - apply (same_loop Q).
    + intros i s t (Q1 & Q2 & Q3). unfold pd_body, rmatvec_plus. cbn [lapp ladj id_linop]. rewrite Q1, Q2, Q3. destruct gfirst.
      * assert (EM : (exists e, getitem (steps_arr (Scalar mu) niter) i = Err e) \/ getitem (steps_arr (Scalar mu) niter) i = Ok mu).
        { cbn. unfold getitem. destruct (nth_error (repeat mu niter) i) as [a|] eqn:En; [right|left; eauto]. apply nth_error_In, repeat_spec in En. now subst. }
        destruct EM as [[e ->]| ->]; [reflexivity|]. cbn [bind shift_op o_proxdual].
        replace (pd_y t [+] z [+] mu [*] pd_hat t) with (pd_y t [+] mu [*] pd_hat t [+] (mu / mu) [*] z) by (replace (mu / mu) with 1 by (field; auto); vring).
        destruct (o_proxdual g _ mu) as [w|e]; [|reflexivity]. cbn [bind]. destruct (getitem (steps_arr tau niter) i) as [tk|e]; [|reflexivity]. cbn [bind].
        destruct (o_prox f _ tk) as [u|e]; [|reflexivity]. cbn. unfold Q. cbn. auto.
      * destruct (getitem (steps_arr tau niter) i) as [tk|e]; [|reflexivity]. cbn [bind]. destruct (o_prox f _ tk) as [u|e]; [|reflexivity]. cbn [bind].
        assert (EM : (exists e, getitem (steps_arr (Scalar mu) niter) i = Err e) \/ getitem (steps_arr (Scalar mu) niter) i = Ok mu).
        { cbn. unfold getitem. destruct (nth_error (repeat mu niter) i) as [a|] eqn:En; [right|left; eauto]. apply nth_error_In, repeat_spec in En. now subst. }
        destruct EM as [[e ->]| ->]; [reflexivity|]. cbn [bind shift_op o_proxdual].
        match goal with |- context [pd_y t [+] z [+] mu [*] ?h] => replace (pd_y t [+] z [+] mu [*] h) with (pd_y t [+] mu [*] h [+] (mu / mu) [*] z) by (replace (mu / mu) with 1 by (field; auto); vring) end.
        destruct (o_proxdual g _ mu) as [w|e]; [|reflexivity]. cbn. unfold Q. cbn. auto.
    + unfold Q. cbn. repeat split; auto. destruct gfirst; unfold y0vec; [|reflexivity]. vring.
  - intros [s k] [t k'] [(Q1 & Q2 & Q3) _]. cbn. auto.
Qed.

(*! C57_alias_limit : what PrimalDual with z and an operator returning the array it is given computes: for convex f, g, steps with tau mu <= 1, either
   order, in finite dimension and if a pair (xo, yo) with -(yo + z) in the subdifferential of f at xo and yo in that of g at
   xo + z/mu exists, its x converges to a minimiser of f(x) + <z, x> + g(x + z/mu), that is of another function than
   f(x) + <z, x> + g(x), depending on the step mu *)
Lemma alias_limit : forall (E : IPS) proxf proxg (f g gs : efun E) x0 tau mu y0 z gfirst, bw E ->
  impl_prox proxf f -> impl_proxdual proxg gs -> convex f -> convex g -> is_conj g gs -> (forall u, exists p, is_prox g 1 u p) ->
  0 < tau -> 0 < mu -> tau * mu <= 1 -> (exists xo yo, is_subgrad f xo (vopp (yo [+] z)) /\ is_subgrad g (xo [+] / mu [*] z) yo) ->
  exists xs ys xl, (forall n, exists tr, PrimalDual proxf proxg (id_linop E) (Some (fun y => y)) x0 (Scalar tau) (Scalar mu) y0 (Some z) 1 n gfirst = Ok (xs n, ys n, tr)) /\
    is_min (eadd (elin f z) (epre g (fun x => x [+] / mu [*] z))) xl /\ vcv xs xl.
Proof.
  intros E proxf proxg f g gs x0 tau mu y0 z gfirst BW HF HG Cf Cg HC HP Ht Hm Htm (xo & yo & S1 & S2).
  set (w := / mu [*] z). set (g' := epre g (fun x => x [+] w)). set (gs' := elin gs (vopp w)).
  assert (NW : forall a, << vopp w, a >> = - << w, a >>) by (intro a; unfold vopp; rewrite inner_scal_l; ring).
  assert (HG' : impl_proxdual (shift_op proxg mu z) gs').
  { intros x t Htt. destruct (HG (x [+] (t / mu) [*] z) t Htt) as (p & Ep & Hp). exists p. split; [exact Ep|]. apply prox_lin; [exact Htt|].
    replace (x [-] t [*] vopp w) with (x [+] (t / mu) [*] z); [exact Hp|]. unfold w, vopp. vfield. lra. }
  assert (Cg' : convex g').
  { intros a b t Ha Hb H01. specialize (Cg (a [+] w) (b [+] w) t Ha Hb H01). unfold g'. cbn.
    replace ((1 - t) [*] a [+] t [*] b [+] w) with ((1 - t) [*] (a [+] w) [+] t [*] (b [+] w)) by vring. exact Cg. }
  assert (HC' : is_conj g' gs').
  { destruct HC as [[y Hy] HC]. split; [exists (y [-] w); unfold g'; cbn; replace (y [-] w [+] w) with y by vring; exact Hy|]. intro u. destruct (HC u) as [D1 D2].
    split.
    - change (edom gs' u) with (edom gs u). rewrite D1. split; intros [M HM].
      + exists (M - << u, w >>). intros v Hv. specialize (HM (v [+] w) Hv). rewrite inner_add_r in HM. unfold g'. cbn. lra.
      + exists (M + << u, w >>). intros v Hv. assert (Hv' : edom g' (v [-] w)) by (unfold g'; cbn; replace (v [-] w [+] w) with v by vring; exact Hv).
        specialize (HM _ Hv'). unfold g' in HM. cbn in HM. replace (v [-] w [+] w) with v in HM by vring. rewrite inner_sub_r in HM. lra.
    - intro Hu. destruct (D2 Hu) as [U1 U2]. cbn. rewrite NW, (inner_sym w). split.
      + intros r (v & Hv & ->). specialize (U1 (<< u, v [+] w >> - eval g (v [+] w))). rewrite inner_add_r in U1. unfold g'. cbn. assert (X := U1 (ex_intro _ (v [+] w) (conj Hv (f_equal (fun q => q - eval g (v [+] w)) (eq_sym (inner_add_r u v w)))))). lra.
      + intros M HM. assert (X : eval gs u <= M + << u, w >>); [|lra]. apply U2. intros r (v & Hv & ->).
        assert (Hv' : edom g' (v [-] w)) by (unfold g'; cbn; replace (v [-] w [+] w) with v by vring; exact Hv).
        specialize (HM (<< u, v [-] w >> - eval g' (v [-] w)) (ex_intro _ _ (conj Hv' eq_refl))). unfold g' in HM. cbn in HM. replace (v [-] w [+] w) with v in HM by vring. rewrite inner_sub_r in HM. lra. }
  assert (HP' : forall u, exists p, is_prox g' 1 u p).
  { intro u. destruct (HP (u [+] w)) as (p & Hd & Hp). exists (p [-] w). split; [unfold g'; cbn; replace (p [-] w [+] w) with p by vring; exact Hd|].
    intros y Hy. unfold g'. cbn. replace (p [-] w [+] w) with p by vring. specialize (Hp (y [+] w) Hy). replace (p [-] (u [+] w)) with (p [-] w [-] u) in Hp by vring. replace (y [+] w [-] (u [+] w)) with (y [-] u) in Hp by vring. exact Hp. }
  assert (HS : saddle (id_linop E) f gs' z xo yo).
  { split; [exact S1|]. destruct (subgrad_conj g gs _ _ HC S2) as [S3 _]. cbn [lapp id_linop]. unfold gs'. replace xo with (xo [+] w [+] vopp w) by (unfold vopp; vring). apply subgrad_lin. exact S3. }
  assert (KA : forall a : E, tau * mu * norm2 (lapp (id_linop E) a) <= tau * mu * norm2 a) by (intro a; cbn [lapp id_linop]; lra).
  assert (Hk : 0 <= tau * mu <= 1) by (split; [pose proof (Rmult_lt_0_compat _ _ Ht Hm); lra|exact Htm]).
  destruct (C75_primal_dual_l E E (id_linop E) proxf (shift_op proxg mu z) f g' gs' None x0 tau mu (tau * mu) (Some (if gfirst then y0vec y0 [-] z else y0vec y0)) (Some z) gfirst
    BW BW HF HG' Cf Cg' HC' HP' Ht Hm Hk KA (or_introl eq_refl) (ex_intro _ xo (ex_intro _ yo HS))) as (xs & ys & xl & yl & HR & _ & HM & VX & VY).
  exists xs, (fun n => if gfirst then ys n [+] z else ys n), xl. split; [|split; [|exact VX]].
  - intro n. destruct (HR n) as (tr & En). pose proof (alias_run E proxf proxg x0 (Scalar tau) mu y0 z 1 n gfirst (Rgt_not_eq _ _ Hm)) as A. rewrite En in A.
    destruct (PrimalDual proxf proxg (id_linop E) (Some (fun y => y)) x0 (Scalar tau) (Scalar mu) y0 (Some z) 1 n gfirst) as [[[p q] tr']|e]; cbn in A; [|contradiction]. destruct A as [-> ->]. eauto.
  - exact HM.
Qed.

(*!ex C57_alias_limit_example : f = g = x^2/2, tau = mu = 1/2, z = 1: the hypotheses are met; the limit is -3/2, not -1/2 *)
Lemma alias_limit_ex : bw R_IPS /\ convex half1_fun /\ (forall u, exists p, is_prox half1_fun 1 u p) /\ 1 / 2 * (1 / 2) <= 1 /\
  is_subgrad half1_fun (-(3 / 2) : R_IPS) (vopp ((1 / 2 : R_IPS) [+] (1 : R_IPS))) /\ is_subgrad half1_fun ((-(3 / 2) : R_IPS) [+] / (1 / 2) [*] (1 : R_IPS)) (1 / 2 : R_IPS) /\
  is_min (eadd (elin half1_fun (1 : R_IPS)) (epre half1_fun (fun x : R_IPS => x [+] / (1 / 2) [*] (1 : R_IPS)))) (-(3 / 2) : R_IPS).
Proof.
  split; [apply bw_R|]. split; [apply half1_convex|]. split. { intro u. destruct (half1_prox u 1 Rlt_0_1) as (p & _ & Hp). eauto. } split; [lra|].
  assert (SG : forall x : R, is_subgrad half1_fun (x : R_IPS) (x : R_IPS)).
  { intro x. split; [exact I|]. intros y _. cbn. change R in (type of y). assert (0 <= (y + - 1 * x) * (y + -1 * x)) by apply Rle_0_sqr. lra. }
  split; [|split].
  - match goal with |- is_subgrad _ _ ?a => replace a with (-(3/2) : R_IPS) end; [apply SG|]. cbn. unfold vopp; cbn. lra.
  - match goal with |- is_subgrad _ ?a _ => replace a with (1/2 : R_IPS) end; [apply SG|]. cbn. lra.
  - split; [split; exact I|]. intros y _. cbn. change R in (type of y). assert (0 <= (y + 3/2) * (y + 3/2)) by apply Rle_0_sqr. lra.
Qed.

(*!ex C84_example : f = x^2/2 with a proximal operator returning new arrays, its value computed from values, multiplication by 2 into new arrays and the
   identity returning its argument meet the hypotheses; one logged iteration of ProximalPoint from the array 4 with tau = 1
   returns 2; the value of Orthogonal(f, identity, b=1) does not leave its argument alone *)
Lemma show_ex : let fmt := fun (_ : R_IPS) (_ : list pyval) => Ok tt in let h := [4] : heap R_IPS in
  confined (hp_fresh (o_prox half1)) (o_prox half1) /\ calls_only (hc_reads (o_call half1)) (o_call half1) /\
  makes_new (hl_new (lapp (scal_linop R_IPS 2))) (lapp (scal_linop R_IPS 2)) /\ lin_reads hl_self (lapp (id_linop R_IPS)) /\ holds h 0%nat (4 : R_IPS) /\
  (exists h' x tr, sProximalPoint true (hp_fresh (o_prox half1)) (hc_reads (o_call half1)) fmt h 0%nat 1 1%nat None = Ok (h', x, tr) /\ holds h' x (2 : R_IPS) /\ holds h' 0%nat (4 : R_IPS)) /\
  ~ calls_only (horth_call hl_self (1 : R_IPS) (hc_reads (o_call half1))) (fun x => o_call half1 (x [+] (1 : R_IPS))).
Proof.
  intros fmt h. assert (F1 : confined (hp_fresh (o_prox half1)) (o_prox half1)) by (apply reads_confined, fresh_reads).
  assert (F2 : calls_only (hc_reads (o_call half1)) (o_call half1)) by apply reads_calls.
  split; [exact F1|]. split; [exact F2|]. split; [apply new_makes|]. split; [apply self_reads|]. split; [reflexivity|]. split.
  - unfold sProximalPoint. cbn. eexists _, _, _. split; [reflexivity|]. cbn. split; [|reflexivity].
    unfold holds. cbn. f_equal. lra.
  - intro W. specialize (W h 0%nat (4 : R_IPS) eq_refl). cbn in W. destruct W as (h' & E1 & K). injection E1 as <-. specialize (K 0%nat (4 : R_IPS) eq_refl). unfold holds in K. cbn in K. injection K as K. lra.
Qed.
