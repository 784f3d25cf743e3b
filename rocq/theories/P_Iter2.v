(** * The iterates of the primal-dual solvers converge to a solution (M_PD.v, M_Split.v) *)
From Coq Require Import String Psatz.
From Verif Require Import Base Space Spec Cplx ConvexFacts Smooth VSum M_ProxOp SpecOps P_ProxOp M_Norms P_Norms M_Loop LoopFacts SeqFacts M_PG M_Split M_PD SplitMath P_PG P_PG2 P_PG3 P_Split2 P_Split3 P_PD S_Seq Compact Fejer IterMath IterMath2 P_Iter.
Open Scope result_scope.
Open Scope R_scope.

(*! C75_primal_dual : f, g convex, gs the conjugate of g, theta = 1, constant steps with tau mu |A a|^2 <= kappa |a|^2 for some
   kappa <= 1, any start, either order, finite dimension, and the problem has a saddle point: the pair returned by PrimalDual
   with niter = 0, 1, 2, ... converges to a saddle point (xl, yl), and xl minimises f + <z,.> + g(A .) *)
Lemma C75_primal_dual_l : forall (E F : IPS) (A : linop E F) proxf proxg f g gs alias x0 tau mu kappa y0 z gfirst, bw E -> bw F ->
  impl_prox proxf f -> impl_proxdual proxg gs -> convex f -> convex g -> is_conj g gs -> (forall u, exists p, is_prox g 1 u p) ->
  0 < tau -> 0 < mu -> 0 <= kappa <= 1 -> (forall a, tau * mu * norm2 (lapp A a) <= kappa * norm2 a) -> alias = None \/ z = None ->
  (exists xo yo, saddle A f gs (zvec z) xo yo) ->
  exists xs ys xl yl, (forall n, exists tr, PrimalDual proxf proxg A alias x0 (Scalar tau) (Scalar mu) y0 z 1 n gfirst = Ok (xs n, ys n, tr)) /\
    saddle A f gs (zvec z) xl yl /\ is_min (eadd (elin f (zvec z)) (epre g (lapp A))) xl /\ vcv xs xl /\ vcv ys yl.
Proof.
  intros E F A proxf proxg f g gs alias x0 tau mu kappa y0 z gfirst HE HF Hf Hg Cf Cg Hc Hp Ht Hm Hk HA Hal Hs.
  pose proof (conj_convex _ _ Hc) as Cgs.
  assert (Ef : forall x, exists p, is_prox f tau x p) by (intro v; destruct (Hf v tau Ht) as (p & _ & Hq); eauto).
  assert (Eg : forall x, exists p, is_prox gs mu x p) by (intro v; destruct (Hg v mu Hm) as (p & _ & Hq); eauto).
  set (body := fun (j : nat) (s : @pd_state E F) => if gfirst then
      y <- o_proxdual proxg (pd_y s [+] mu [*] lapp A (pd_hat s)) mu ;;
      let (aty, y) := rmatvec_plus A alias z y in
      x <- o_prox proxf (pd_x s [-] tau [*] aty) tau ;;
      Ok (PD x y (x [+] 1 [*] (x [-] pd_x s)) (pd_tr s ++ [(x, y)]), false)
    else
      let (aty, y) := rmatvec_plus A alias z (pd_y s) in
      x <- o_prox proxf (pd_x s [-] tau [*] aty) tau ;;
      let xhat := x [+] 1 [*] (x [-] pd_x s) in
      y <- o_proxdual proxg (y [+] mu [*] lapp A xhat) mu ;;
      Ok (PD x y xhat (pd_tr s ++ [(x, y)]), false)).
  destruct (loop_seq body (fun _ _ => True) (fun _ s s' => pd_hat s' = pd_x s' [+] 1 [*] (pd_x s' [-] pd_x s) /\
     (if gfirst then is_prox gs mu (pd_y s [+] mu [*] lapp A (pd_hat s)) (pd_y s') /\ is_prox f tau (pd_x s [-] tau [*] (ladj A (pd_y s') [+] zvec z)) (pd_x s')
      else is_prox f tau (pd_x s [-] tau [*] (ladj A (pd_y s) [+] zvec z)) (pd_x s') /\ is_prox gs mu (pd_y s [+] mu [*] lapp A (pd_hat s')) (pd_y s')))
     (PD x0 (y0vec y0) x0 [])) as (st & S0 & Hrun & _ & HR); [exact I| |].
  { intros j s _. unfold body. destruct gfirst.
    - destruct (Hg (pd_y s [+] mu [*] lapp A (pd_hat s)) mu Hm) as (y & -> & Hy). cbn [bind]. rewrite rmatvec_plus_ok by auto.
      destruct (Hf (pd_x s [-] tau [*] (ladj A y [+] zvec z)) tau Ht) as (x & -> & Hx). cbn [bind]. eexists. split; [reflexivity|]. cbn [pd_x pd_y pd_hat]. auto.
    - rewrite rmatvec_plus_ok by auto. destruct (Hf (pd_x s [-] tau [*] (ladj A (pd_y s) [+] zvec z)) tau Ht) as (x & -> & Hx). cbn [bind].
      destruct (Hg (pd_y s [+] mu [*] lapp A (x [+] 1 [*] (x [-] pd_x s))) mu Hm) as (y & -> & Hy). cbn [bind]. eexists. split; [reflexivity|]. cbn [pd_x pd_y pd_hat]. auto. }
  assert (Hret : forall n, exists tr, PrimalDual proxf proxg A alias x0 (Scalar tau) (Scalar mu) y0 z 1 n gfirst = Ok (pd_x (st n), pd_y (st n), tr)).
  { intro n. exists (pd_tr (st n)). unfold PrimalDual. replace (match y0 with Some y => y | None => vzero end) with (y0vec y0) by (destruct y0; reflexivity).
    rewrite (for_loop_ext _ body); [rewrite Hrun; reflexivity|]. intros j s Hj. unfold pd_body, body, getitem. cbn [steps_arr]. rewrite !nth_error_repeat by lia. reflexivity. }
  assert (HH : exists xl yl, saddle A f gs (zvec z) xl yl /\ vcv (fun k => pd_x (st k)) xl /\ vcv (fun k => pd_y (st k)) yl).
  { destruct gfirst.
    - destruct (pd_cv A f gs (zvec z) tau mu kappa (fun k => pd_x (st k)) (fun k => pd_y (st (S k)))) as (xl & yl & H1 & H2 & H3); auto.
      + intro j. destruct (HR j) as (H1 & H2 & H3). destruct (HR (S j)) as (G1 & G2 & G3). split; [exact H3|]. rewrite H1 in G2. exact G2.
      + exists xl, yl. split; [exact H1|]. split; [exact H2|]. apply vcv_unshift. exact H3.
    - apply (pd_cv A f gs (zvec z) tau mu kappa); auto. intro j. destruct (HR j) as (H1 & H2 & H3). split; [exact H2|]. rewrite H1 in H3. exact H3. }
  destruct HH as (xl & yl & Hsad & Lx & Ly). exists (fun k => pd_x (st k)), (fun k => pd_y (st k)), xl, yl. split; [exact Hret|]. split; [exact Hsad|].
  split; [|auto]. apply (saddle_primal A f g gs (zvec z) xl yl); auto.
Qed.

(*! C75_linearized_admm : f, g convex, tau, mu > 0 with mu |A a|^2 <= kappa tau |a|^2 for some kappa <= 1, either guess, finite
   dimension, and some point is a solution with a multiplier: the x returned by LinearizedADMM with niter = 0, 1, 2, ...
   converges to a minimiser xl of f + g(A .) and the returned z converges to A xl *)
Lemma C75_linearized_admm_l : forall (E F : IPS) (proxf : Op E) (proxg : Op F) f g (A : linop E F) tau mu kappa x0 z0 x z, bw E -> bw F ->
  impl_prox proxf f -> impl_prox proxg g -> convex f -> convex g -> 0 < tau -> 0 < mu -> 0 <= kappa <= 1 ->
  (forall a, mu * norm2 (lapp A a) <= kappa * tau * norm2 a) -> x0z0_initA (lapp A) x0 z0 = Ok (x, z) -> (exists xo v, kktA f g A xo v) ->
  exists xs zs xl, (forall n, exists tr, LinearizedADMM proxf proxg A x0 tau mu n z0 = Ok (xs n, zs n, tr)) /\
    is_min (eadd f (epre g (lapp A))) xl /\ vcv xs xl /\ vcv zs (lapp A xl).
Proof.
  intros E F proxf proxg f g A tau mu kappa x0 z0 x z HE HF Hf Hg Cf Cg Ht Hm Hk HA Hi Hs.
  assert (Ef : forall x, exists p, is_prox f mu x p) by (intro v; destruct (Hf v mu Hm) as (p & _ & Hq); eauto).
  assert (Eg : forall x, exists p, is_prox g tau x p) by (intro v; destruct (Hg v tau Ht) as (p & _ & Hq); eauto).
  set (Ax0 := match z0 with None => lapp A x | Some _ => z end).
  destruct (loop_seq (la_body proxf proxg A tau mu) (fun j s => (0 < j)%nat -> la_Ax s = lapp A (la_x s))
     (fun _ s s' => is_prox f mu (la_x s [-] (mu / tau) [*] ladj A (la_Ax s [-] la_z s [+] la_u s)) (la_x s') /\
        is_prox g tau (lapp A (la_x s') [+] la_u s) (la_z s') /\ la_u s' = la_u s [+] lapp A (la_x s') [-] la_z s') (LA x Ax0 z vzero [])) as (st & S0 & Hrun & HI & HR); [intro; lia| |].
  { intros j s _. unfold la_body. rewrite pydiv_ok by lra. cbn [bind]. destruct (Hf (la_x s [-] (mu / tau) [*] ladj A (la_Ax s [-] la_z s [+] la_u s)) mu Hm) as (p & -> & Hp). cbn [bind].
    destruct (Hg (lapp A p [+] la_u s) tau Ht) as (q & -> & Hq). cbn [bind]. eexists. split; [reflexivity|]. cbn [la_x la_z la_u la_Ax]. auto. }
  destruct (la_cv A f g tau mu kappa (fun k => la_x (st (S k))) (fun k => la_z (st (S k))) (fun k => la_u (st (S k)))) as (xl & v & Hkk & Lx & Lz); auto.
  { intro j. destruct (HR (S j)) as (H1 & H2 & H3). rewrite (HI (S j)) in H1 by lia. auto. }
  exists (fun k => la_x (st k)), (fun k => la_z (st k)), xl. split; [|split; [apply (kktA_min A f g xl v Hkk)|split; [apply vcv_unshift; exact Lx|apply vcv_unshift; exact Lz]]].
  intro n. exists (la_tr (st n)). unfold LinearizedADMM. rewrite Hi. cbn [bind fst snd]. fold Ax0. rewrite Hrun. reflexivity.
Qed.

(*! C75_admml2 : g convex, tau > 0, exact inner solves, gfirst=False, either guess, the least-squares problems have unique
   solutions (c |a|^2 <= |B a|^2 + |A a|^2 for some c > 0), finite dimension, and some point is a solution with a multiplier:
   the x returned by ADMML2 with niter = 0, 1, 2, ... converges to a minimiser xl of 1/2|B x - b|^2 + g(A x) and the returned
   z converges to A xl *)
Lemma C75_admml2_l : forall (E F G : IPS) (B : linop E G) b (A : linop E F) proxg reginv g tau c x0 z0 x z, bw F ->
  impl_prox proxg g -> convex g -> exact_reginv B b A reginv -> 0 < tau -> 0 < c -> (forall a, c * norm2 a <= norm2 (lapp B a) + norm2 (lapp A a)) ->
  x0z0_initA (lapp A) x0 z0 = Ok (x, z) -> (exists xo v, kktA (etot (fun y => 1 / 2 * norm2 (lapp B y [-] b))) g A xo v) ->
  exists xs zs xl, (forall n, exists tr, ADMML2 proxg A reginv x0 tau n z0 false = Ok (xs n, zs n, tr)) /\
    is_min (eadd (etot (fun y => 1 / 2 * norm2 (lapp B y [-] b))) (epre g (lapp A))) xl /\ vcv xs xl /\ vcv zs (lapp A xl).
Proof.
  intros E F G B b A proxg reginv g tau c x0 z0 x z HF Hp Cg Hr Ht Hc Hin Hi Hs.
  assert (Eg : forall x, exists p, is_prox g tau x p) by (intro v; destruct (Hp v tau Ht) as (p & _ & Hq); eauto).
  assert (Er : forall d, exists x, al2_x B b A tau d x) by (intro d; destruct (al2_reg B b A reginv tau Hr Ht x d) as (y & _ & Hy); eauto).
  destruct (loop_seq (al2_body proxg A reginv tau false) (fun _ _ => True)
     (fun _ s s' => al2_x B b A tau (la_z s [-] la_u s) (la_x s') /\ is_prox g tau (lapp A (la_x s') [+] la_u s) (la_z s') /\ la_u s' = la_u s [+] lapp A (la_x s') [-] la_z s')
     (LA x vzero z vzero [])) as (st & S0 & Hrun & _ & HR); [exact I| |].
  { intros j s _. unfold al2_body. destruct (al2_reg B b A reginv tau Hr Ht (la_x s) (la_z s [-] la_u s)) as (p & -> & Hx). cbn [bind].
    destruct (Hp (lapp A p [+] la_u s) tau Ht) as (q & -> & Hq). cbn [bind]. eexists. split; [reflexivity|]. cbn [la_x la_z la_u]. auto. }
  destruct (al2_cv B b A g tau c (fun k => la_x (st k)) (fun k => la_z (st k)) (fun k => la_u (st k))) as (xl & v & Hkk & Lx & Lz & _); auto.
  exists (fun k => la_x (st k)), (fun k => la_z (st k)), xl. split; [|split; [apply (kktA_min A _ g xl v Hkk)|auto]].
  intro n. exists (la_tr (st n)). unfold ADMML2. rewrite Hi. cbn [bind fst snd]. destruct (Rltb_spec tau 0) as [[? _]|[_ ->]]; [lra|]. destruct (Reqb_spec tau 0) as [[? _]|[_ ->]]; [lra|].
  rewrite Hrun. reflexivity.
Qed.
