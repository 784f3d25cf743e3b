(** * Inexact proximal operators and gradients inside the solvers: the error stays bounded and the runs still get as close to a solution as wanted *)
From Coq Require Import String Psatz.
From Verif Require Import Base Space Spec Cplx ConvexFacts Smooth VSum M_ProxOp SpecOps P_ProxOp M_Norms P_Norms M_Loop LoopFacts SeqFacts M_PG M_Split M_PD SplitMath P_PG P_PG2 P_PG3 P_Split2 S_Seq Compact Fejer IterMath S_PD P_PD P_PD2 P_Iter P_Iter2 S_Exist InexactMath InexactMath2.
From Verif Require Export S_Inexact.
Open Scope result_scope.
Open Scope R_scope.

(*! C89_moduli : the constants used below. The prox of a convex f is 1-Lipschitz and so is 2 prox - identity; if f - s/2 |.|^2 is
   convex the prox with step t is 1/(1+ts)-Lipschitz; if moreover f has an L-Lipschitz gradient the gradient step x - t df(x) is
   Lipschitz with constant max(|1-ts|, |1-tL|) and 2 prox - identity with constant max((1-ts)/(1+ts), (tL-1)/(tL+1)), both below 1
   when s > 0 (and t < 2/L for the gradient step); 1 + q + ... + q^(n-1) is n for q = 1 and at most 1/(1-q) for q < 1 *)
Lemma C89_moduli_l :
  (forall (E : IPS) (f : efun E) t, convex f -> 0 < t -> prox_lip 1 f t /\ refl_lip 1 f t) /\
  (forall (E : IPS) (f : efun E) s t, strongly_convex s f -> 0 <= s -> 0 < t -> prox_lip (/ (1 + t * s)) f t) /\
  (forall (E : IPS) (f : E -> R) df s L t, 0 <= s < L -> strongly_convex s (etot f) -> L_smooth f df L -> 0 < t ->
     lipschitz (Rmax (Rabs (1 - t * s)) (Rabs (1 - t * L))) (fun x => x [-] t [*] df x) /\
     refl_lip (Rmax ((1 - t * s) / (1 + t * s)) ((t * L - 1) / (1 + t * L))) (etot f) t) /\
  (forall s L t, 0 < s < L -> 0 < t -> / (1 + t * s) < 1 /\ 0 <= Rmax ((1 - t * s) / (1 + t * s)) ((t * L - 1) / (1 + t * L)) < 1 /\ (t < 2 / L -> 0 <= Rmax (Rabs (1 - t * s)) (Rabs (1 - t * L)) < 1)) /\
  (forall n, geom 1 n = INR n) /\ (forall q n, 0 <= q < 1 -> geom q n <= / (1 - q)).
Proof.
  split; [|split; [|split; [|split; [|split]]]].
  - intros E f t Hf Ht. split; [apply prox_lip_convex|apply refl_lip_convex]; auto.
  - intros. apply prox_lip_strong; auto.
  - intros E f df s L t Hs Hc Hl Ht. split; [apply (step_lip_strong f)|apply refl_lip_strong with df]; auto.
  - intros s L t Hs Ht. assert (H1 : 0 < t * s) by (apply Rmult_lt_0_compat; lra). assert (H2 : t * s < t * L) by (apply Rmult_lt_compat_l; lra).
    split; [rewrite <- Rinv_1; apply Rinv_lt_contravar; lra|]. split; [split|].
    + destruct (Rle_lt_dec (t * s) 1) as [H|H]; [apply Rle_trans with (2 := Rmax_l _ _)|apply Rle_trans with (2 := Rmax_r _ _)]; apply Rmult_le_pos; try lra; apply Rlt_le, Rinv_0_lt_compat; lra.
    + apply Rmax_lub_lt; [apply (Rmult_lt_reg_r (1 + t * s))|apply (Rmult_lt_reg_r (1 + t * L))]; try lra; unfold Rdiv; rewrite Rmult_assoc, Rinv_l; lra.
    + intro H. assert (H3 : t * L < 2) by (apply (Rmult_lt_compat_r L) in H; [|lra]; replace (2 / L * L) with 2 in H by (field; lra); exact H).
      split; [apply Rle_trans with (2 := Rmax_l _ _); apply Rabs_pos|]. apply Rmax_lub_lt; apply Rabs_def1; lra.
  - exact geom_one.
  - exact geom_le.
Qed.

Section Runs.
Context {E : IPS}.
Lemma pp_runs (o : Op E) f x0 tau e : approx_prox e tau o f ->
  exists xs, xs 0%nat = x0 /\ (forall n, ProximalPoint o x0 tau n None = Ok (xs n, map xs (seq 1 n))) /\ pp_seq e f tau xs.
Proof.
  intro Ho. destruct (loop_seq (pp_body o tau None) (fun _ _ => True) (fun j s s' => (exists p, is_prox f tau (pp_x s) p /\ norm (pp_x s' [-] p) <= e) /\ pp_tr s' = pp_tr s ++ [pp_x s']) (PP x0 None [])) as (st & S0 & Hrun & _ & HR); [exact I| |].
  { intros j s _. unfold pp_body. destruct (Ho (pp_x s)) as (p & q & -> & Hp & He). cbn [bind]. eexists. split; [reflexivity|]. cbn [pp_x pp_tr]. eauto. }
  exists (fun k => pp_x (st k)). split; [rewrite S0; reflexivity|]. split; [|intro j; apply HR]. intro n. unfold ProximalPoint. rewrite Hrun. cbn [bind fst snd]. do 2 f_equal.
  rewrite (trace_seq st pp_tr (fun k => pp_x (st (S k)))); [|rewrite S0; reflexivity|intro j; apply HR]. rewrite <- seq_shift, map_map. reflexivity.
Qed.

Lemma pg_runs (proxf proxg : Op E) df g eps x0 tau beta eta niterback accel ef eg qg : approx_grad ef proxf df -> approx_prox eg (eps * tau) proxg g -> prox_lip qg g (eps * tau) -> 0 <= qg -> 0 < tau -> 0 <= eta -> unaccelerated accel eta ->
  exists xs, xs 0%nat = x0 /\ (forall n, ProximalGradient proxf proxg x0 [eps] (Some tau) false beta eta (S n) niterback accel None = Ok (xs (S n), map xs (seq 1 (S n)))) /\
    pg_seq (eta * (eg + qg * (tau * ef))) df g (eps * tau) tau eta xs.
Proof.
  intros Hgr Hp Hl Hqg Ht Hn Ha.
  set (body := fun (j : nat) (s : pg_state E) =>
     xt <- pg_prox_step proxf proxg false beta eta niterback eps (pg_x s) (pg_y s) (pg_tau s) ;;
     let x := fst xt in
     let t' := if accel_is accel "fista" then (1 + sqrt (1 + 4 * (pg_t s * pg_t s))) / 2 else pg_t s in
     let omega := if accel_is accel "vandenberghe" then INR j / (INR j + 3) else if accel_is accel "fista" then (pg_t s - 1) / t' else 0 in
     let y := x [+] omega [*] (x [-] pg_x s) in
     Ok (PG x y t' (snd xt) (pg_pfg s) (pg_tr s ++ [x]), false)).
  destruct (loop_seq body (fun _ s => pg_tau s = tau /\ (eta = 1 -> pg_y s = pg_x s))
     (fun _ s s' => (exists p, is_prox g (eps * tau) (pg_x s [-] tau [*] df (pg_x s)) p /\ norm (pg_x s' [-] (pg_x s [+] eta [*] (p [-] pg_x s))) <= eta * (eg + qg * (tau * ef))) /\ pg_tr s' = pg_tr s ++ [pg_x s'])
     (PG x0 x0 1 tau None [])) as (st & S0 & Hrun & _ & HR); [auto| |].
  { intros j s [Hta Hy]. destruct (Hgr (pg_x s)) as (d & Ed & Hd). destruct (Hp (pg_x s [-] tau [*] d)) as (p & q & Ep & Hpp & Hpe). destruct (Hp (pg_x s [-] tau [*] df (pg_x s))) as (_ & q0 & _ & Hq0 & _).
    assert (Hb : norm ((pg_x s [+] eta [*] (p [-] pg_x s)) [-] (pg_x s [+] eta [*] (q0 [-] pg_x s))) <= eta * (eg + qg * (tau * ef))).
    { replace (pg_x s [+] eta [*] (p [-] pg_x s) [-] (pg_x s [+] eta [*] (q0 [-] pg_x s))) with (eta [*] (p [-] q0)) by vring. rewrite norm_scal, Rabs_right by lra. apply Rmult_le_compat_l; [exact Hn|].
      pose proof (Hl _ _ _ _ Hpp Hq0) as H. replace (pg_x s [-] tau [*] d [-] (pg_x s [-] tau [*] df (pg_x s))) with ((- tau) [*] (d [-] df (pg_x s))) in H by vring. rewrite norm_scal, Rabs_Ropp, Rabs_right in H by lra.
      pose proof (tri3 p q q0). assert (qg * (tau * norm (d [-] df (pg_x s))) <= qg * (tau * ef)) by (apply Rmult_le_compat_l; [exact Hqg|]; apply Rmult_le_compat_l; lra). lra. }
    unfold body, pg_prox_step, get_grad.
    destruct (Reqb_spec eta 1) as [[H1 ->]|[H1 ->]].
    - rewrite (Hy H1), Hta, Ed. cbn [bind]. rewrite Ep. cbn [bind fst snd]. eexists. split; [reflexivity|]. cbn [pg_x pg_tr pg_tau pg_y]. split; [split; [|reflexivity]|split; [reflexivity|]].
      + exists q0. split; [exact Hq0|]. replace (pg_x s [+] eta [*] (p [-] pg_x s)) with p in Hb by (rewrite H1; vring). exact Hb.
      + intros _. assert (Hno : accel = None \/ accel = Some "None"%string) by (destruct Ha as [Ha|[Ha|[Ha _]]]; tauto). destruct Hno as [->| ->]; cbn [accel_is]; [vring|]. cbn. vring.
    - rewrite Hta, Ed. cbn [bind]. rewrite Ep. cbn [bind fst snd]. eexists. split; [reflexivity|]. cbn [pg_x pg_tr pg_tau pg_y]. split; [split; [|reflexivity]|split; [reflexivity|tauto]].
      exists q0. split; [exact Hq0|exact Hb]. }
  exists (fun k => pg_x (st k)). split; [rewrite S0; reflexivity|]. split; [|intro j; apply HR]. intro n. unfold ProximalGradient. cbn [pg_epsg bind].
  assert (Hk : accel_known accel = true) by (destruct Ha as [->|[->|[_ [->| ->]]]]; reflexivity). rewrite Hk.
  rewrite (for_loop_ext _ body); [|intros j s Hj; unfold pg_body, getitem; rewrite nth_error_repeat by lia; reflexivity].
  rewrite Hrun. cbn [bind fst snd]. do 2 f_equal.
  rewrite (trace_seq st pg_tr (fun k => pg_x (st (S k)))); [|rewrite S0; reflexivity|intro j; apply HR]. rewrite <- seq_shift, map_map. reflexivity.
Qed.

Lemma dr_runs (proxf proxg : Op E) f g x0 tau eta (gfirst : bool) ef eg : approx_prox ef tau proxf f -> approx_prox eg tau proxg g ->
  exists xs ys, ys 0%nat = x0 /\ (forall n, exists tr, DouglasRachford proxf proxg x0 tau eta (S n) gfirst = Ok (xs n, ys (S n), tr)) /\
    if gfirst then dr_seq eg ef g f tau eta xs ys else dr_seq ef eg f g tau eta xs ys.
Proof.
  intros Hf Hg.
  destruct (loop_seq (dr_body proxf proxg tau eta gfirst) (fun _ _ => True) (fun _ s s' => exists x r, d_x s' = Some x /\ d_y s' = d_y s [+] eta [*] (r [-] x) /\
     if gfirst then o_prox proxg (d_y s) tau = Ok x /\ o_prox proxf (2 [*] x [-] d_y s) tau = Ok r else o_prox proxf (d_y s) tau = Ok x /\ o_prox proxg (2 [*] x [-] d_y s) tau = Ok r) (DR None x0 [])) as (st & S0 & Hrun & _ & HR); [exact I| |].
  { intros j s _. unfold dr_body. destruct gfirst.
    - destruct (Hg (d_y s)) as (x & p & E1 & Hp & He). destruct (Hf (2 [*] x [-] d_y s)) as (r & q & E2 & Hq & He2). rewrite E1. cbn [bind]. rewrite E2. cbn [bind fst snd]. eexists. split; [reflexivity|]. cbn [d_x d_y]. split; [|exact I]. exists x, r. auto.
    - destruct (Hf (d_y s)) as (x & p & E1 & Hp & He). destruct (Hg (2 [*] x [-] d_y s)) as (r & q & E2 & Hq & He2). rewrite E1. cbn [bind]. rewrite E2. cbn [bind fst snd]. eexists. split; [reflexivity|]. cbn [d_x d_y]. split; [|exact I]. exists x, r. auto. }
  exists (fun k => match d_x (st (S k)) with Some x => x | None => vzero end), (fun k => d_y (st k)). split; [rewrite S0; reflexivity|]. split.
  - intro n. exists (d_tr (st (S n))). unfold DouglasRachford. rewrite Hrun. cbn [bind fst snd]. destruct (HR n) as (x & r & -> & _). reflexivity.
  - assert (G : forall (o : Op E) f0 e, approx_prox e tau o f0 -> forall v w : E, o_prox o v tau = Ok w -> exists p, is_prox f0 tau v p /\ norm (w [-] p) <= e).
    { intros o f0 e Ho v w Hw. destruct (Ho v) as (p & q & E1 & Hq & He). rewrite Hw in E1. injection E1 as <-. eauto. }
    destruct gfirst; intro j; destruct (HR j) as (x & r & Ex & Ey & E1 & E2); exists r; rewrite Ex; (split; [eapply G; eauto|]); (split; [eapply G; eauto|exact Ey]).
Qed.

Lemma hqs_runs (proxf proxg : Op E) f g x0 z0 x z tau (gfirst : bool) ef eg : approx_prox ef tau proxf f -> approx_prox eg tau proxg g -> x0z0_init x0 z0 = Ok (x, z) ->
  exists xs zs, xs 0%nat = x /\ zs 0%nat = z /\ (forall n, exists tr, HQS proxf proxg x0 [tau] n z0 gfirst = Ok (xs n, zs n, tr)) /\
    if gfirst then hqs_seq eg ef g f tau zs xs else hqs_seq ef eg f g tau xs zs.
Proof.
  intros Hf Hg Hi.
  set (body := fun (j : nat) (s : hqs_state E) => xz <- (if gfirst then z <- o_prox proxg (h_x s) tau ;; x <- o_prox proxf z tau ;; Ok (x, z)
         else x <- o_prox proxf (h_z s) tau ;; z <- o_prox proxg x tau ;; Ok (x, z)) ;;
         Ok (HQ (fst xz) (snd xz) (h_tr s ++ [xz]), false)).
  destruct (loop_seq body (fun _ _ => True) (fun _ s s' => if gfirst then (exists p, is_prox g tau (h_x s) p /\ norm (h_z s' [-] p) <= eg) /\ (exists p, is_prox f tau (h_z s') p /\ norm (h_x s' [-] p) <= ef)
     else (exists p, is_prox f tau (h_z s) p /\ norm (h_x s' [-] p) <= ef) /\ (exists p, is_prox g tau (h_x s') p /\ norm (h_z s' [-] p) <= eg)) (HQ x z [])) as (st & S0 & Hrun & _ & HR); [exact I| |].
  { intros j s _. unfold body. destruct gfirst.
    - destruct (Hg (h_x s)) as (p & p0 & -> & Hp & He). cbn [bind]. destruct (Hf p) as (q & q0 & -> & Hq & He2). cbn [bind fst snd]. eexists. split; [reflexivity|]. cbn [h_x h_z]. eauto 10.
    - destruct (Hf (h_z s)) as (p & p0 & -> & Hp & He). cbn [bind]. destruct (Hg p) as (q & q0 & -> & Hq & He2). cbn [bind fst snd]. eexists. split; [reflexivity|]. cbn [h_x h_z]. eauto 10. }
  exists (fun k => h_x (st k)), (fun k => h_z (st k)). split; [rewrite S0; reflexivity|]. split; [rewrite S0; reflexivity|]. split; [|destruct gfirst; intro j; exact (HR j)].
  intro n. exists (h_tr (st n)). unfold HQS. rewrite Hi. cbn [bind fst snd].
  rewrite (for_loop_ext _ body); [|intros j s Hj; unfold hqs_body, getitem; rewrite hqs_taus_scalar by lia; reflexivity]. rewrite Hrun. reflexivity.
Qed.

(** ADMM: ss is the sum of the second vector and the (signed) multiplier, which follows Douglas-Rachford *)
Lemma admm_runs (proxf proxg : Op E) f g x0 z0 x z tau (gfirst : bool) ef eg : approx_prox ef tau proxf f -> approx_prox eg tau proxg g -> x0z0_init x0 z0 = Ok (x, z) ->
  exists xs zs ss, xs 0%nat = x /\ zs 0%nat = z /\ (forall n, exists tr, ADMM proxf proxg x0 tau n z0 gfirst = Ok (xs n, zs n, tr)) /\
    if gfirst then dr_seq ef eg f g tau 1 (fun k => xs (S k)) ss /\ (exists p, is_prox g tau x p /\ norm (ss 0%nat [-] p) <= eg) /\ (forall k, exists p, is_prox g tau (2 [*] xs (S k) [-] ss k) p /\ norm (zs (S (S k)) [-] p) <= eg)
    else dr_seq eg ef g f tau 1 (fun k => zs (S k)) ss /\ (exists p, is_prox f tau z p /\ norm (ss 0%nat [-] p) <= ef) /\ (forall k, exists p, is_prox f tau (2 [*] zs (S k) [-] ss k) p /\ norm (xs (S (S k)) [-] p) <= ef).
Proof.
  intros Hf Hg Hi.
  destruct (loop_seq (admm_body proxf proxg tau gfirst) (fun _ _ => True) (fun _ s s' => a_u s' = a_u s [+] a_x s' [-] a_z s' /\
     if gfirst then (exists p, is_prox g tau (a_x s [+] a_u s) p /\ norm (a_z s' [-] p) <= eg) /\ (exists p, is_prox f tau (a_z s' [-] a_u s) p /\ norm (a_x s' [-] p) <= ef)
     else (exists p, is_prox f tau (a_z s [-] a_u s) p /\ norm (a_x s' [-] p) <= ef) /\ (exists p, is_prox g tau (a_x s' [+] a_u s) p /\ norm (a_z s' [-] p) <= eg)) (AD x z vzero [])) as (st & S0 & Hrun & _ & HR); [exact I| |].
  { intros j s _. unfold admm_body. destruct gfirst.
    - destruct (Hg (a_x s [+] a_u s)) as (p & p0 & -> & Hp & He). cbn [bind]. destruct (Hf (p [-] a_u s)) as (q & q0 & -> & Hq & He2). cbn [bind fst snd]. eexists. split; [reflexivity|]. cbn [a_x a_z a_u]. eauto 12.
    - destruct (Hf (a_z s [-] a_u s)) as (p & p0 & -> & Hp & He). cbn [bind]. destruct (Hg (p [+] a_u s)) as (q & q0 & -> & Hq & He2). cbn [bind fst snd]. eexists. split; [reflexivity|]. cbn [a_x a_z a_u]. eauto 12. }
  exists (fun k => a_x (st k)), (fun k => a_z (st k)), (fun k => if gfirst then a_z (st (S k)) [-] a_u (st k) else a_x (st (S k)) [+] a_u (st k)).
  split; [rewrite S0; reflexivity|]. split; [rewrite S0; reflexivity|]. split.
  { intro n. exists (a_tr (st n)). unfold ADMM. rewrite Hi. cbn [bind fst snd]. rewrite Hrun. reflexivity. }
  assert (U0 : a_u (st 0%nat) = vzero) by (rewrite S0; reflexivity). assert (X0 : a_x (st 0%nat) = x) by (rewrite S0; reflexivity). assert (Z0 : a_z (st 0%nat) = z) by (rewrite S0; reflexivity).
  destruct gfirst; (split; [|split]).
  - intro j. destruct (HR j) as (U1 & _ & (p & Hp & Hpe)). destruct (HR (S j)) as (U2 & (r & Hr & Hre) & _). exists (a_z (st (S (S j)))). split; [|split].
    + exists p. split; [exact Hp|exact Hpe].
    + exists r. split; [|exact Hre]. replace (2 [*] a_x (st (S j)) [-] (a_z (st (S j)) [-] a_u (st j))) with (a_x (st (S j)) [+] a_u (st (S j))); [exact Hr|]. rewrite U1. vring.
    + rewrite U1. vring.
  - destruct (HR 0%nat) as (_ & (p & Hp & Hpe) & _). exists p. rewrite U0, X0 in Hp. rewrite U0. replace (x [+] vzero) with x in Hp by vring. replace (a_z (st 1%nat) [-] vzero) with (a_z (st 1%nat)) by vring. auto.
  - intro k. destruct (HR k) as (U1 & _). destruct (HR (S k)) as (U2 & (r & Hr & Hre) & _). exists r. split; [|exact Hre].
    replace (2 [*] a_x (st (S k)) [-] (a_z (st (S k)) [-] a_u (st k))) with (a_x (st (S k)) [+] a_u (st (S k))); [exact Hr|]. rewrite U1. vring.
  - intro j. destruct (HR j) as (U1 & _ & (p & Hp & Hpe)). destruct (HR (S j)) as (U2 & (r & Hr & Hre) & _). exists (a_x (st (S (S j)))). split; [|split].
    + exists p. split; [exact Hp|exact Hpe].
    + exists r. split; [|exact Hre]. replace (2 [*] a_z (st (S j)) [-] (a_x (st (S j)) [+] a_u (st j))) with (a_z (st (S j)) [-] a_u (st (S j))); [exact Hr|]. rewrite U1. vring.
    + rewrite U1. vring.
  - destruct (HR 0%nat) as (_ & (p & Hp & Hpe) & _). exists p. rewrite U0, Z0 in Hp. rewrite U0. replace (z [-] vzero) with z in Hp by vring. replace (a_x (st 1%nat) [+] vzero) with (a_x (st 1%nat)) by vring. auto.
  - intro k. destruct (HR k) as (U1 & _). destruct (HR (S k)) as (U2 & (r & Hr & Hre) & _). exists r. split; [|exact Hre].
    replace (2 [*] a_z (st (S k)) [-] (a_x (st (S k)) [+] a_u (st k))) with (a_z (st (S k)) [-] a_u (st (S k))); [exact Hr|]. rewrite U1. vring.
Qed.
End Runs.

Lemma pd_runs {E F : IPS} (A : linop E F) proxf proxg f gs alias x0 tau mu y0 z (gfirst : bool) e1 e2 : approx_prox e1 tau proxf f -> approx_proxdual e2 mu proxg gs -> alias = None \/ z = None ->
  exists xs ys, xs 0%nat = x0 /\ ys 0%nat = y0vec y0 /\ (forall n, exists tr, PrimalDual proxf proxg A alias x0 (Scalar tau) (Scalar mu) y0 z 1 n gfirst = Ok (xs n, ys n, tr)) /\
    if gfirst then pd_seq A tau mu f gs (zvec z) e1 e2 xs (fun k => ys (S k)) /\ (exists p, is_prox gs mu (y0vec y0 [+] mu [*] lapp A x0) p /\ norm (ys 1%nat [-] p) <= e2)
    else pd_seq A tau mu f gs (zvec z) e1 e2 xs ys.
Proof.
  intros Hf Hg Hal.
  set (body := fun (j : nat) (s : @pd_state E F) => if gfirst then
      y <- o_proxdual proxg (pd_y s [+] mu [*] lapp A (pd_hat s)) mu ;;
      let (aty, y) := rmatvec_plus A alias z y in
      x <- o_prox proxf (pd_x s [-] tau [*] aty) tau ;;
      Ok (PD x y (x [+] 1 [*] (x [-] pd_x s)) (pd_tr s ++ [(x, y)]), false)
    else
      let (aty, y) := rmatvec_plus A alias z (pd_y s) in
      x <- o_prox proxf (pd_x s [-] tau [*] aty) tau ;;
      let xhat := x [+] 1 [*] (x [-] pd_x s) in
      y <- o_proxdual proxg (y [+] mu [*] lapp A xhat) mu ;;
      Ok (PD x y xhat (pd_tr s ++ [(x, y)]), false)).
  destruct (loop_seq body (fun _ _ => True) (fun _ s s' => pd_hat s' = pd_x s' [+] 1 [*] (pd_x s' [-] pd_x s) /\
     (if gfirst then (exists p, is_prox gs mu (pd_y s [+] mu [*] lapp A (pd_hat s)) p /\ norm (pd_y s' [-] p) <= e2) /\ (exists p, is_prox f tau (pd_x s [-] tau [*] (ladj A (pd_y s') [+] zvec z)) p /\ norm (pd_x s' [-] p) <= e1)
      else (exists p, is_prox f tau (pd_x s [-] tau [*] (ladj A (pd_y s) [+] zvec z)) p /\ norm (pd_x s' [-] p) <= e1) /\ (exists p, is_prox gs mu (pd_y s [+] mu [*] lapp A (pd_hat s')) p /\ norm (pd_y s' [-] p) <= e2)))
     (PD x0 (y0vec y0) x0 [])) as (st & S0 & Hrun & _ & HR); [exact I| |].
  { intros j s _. unfold body. destruct gfirst.
    - destruct (Hg (pd_y s [+] mu [*] lapp A (pd_hat s))) as (y & yq & -> & Hy & Hye). cbn [bind]. rewrite rmatvec_plus_ok by auto.
      destruct (Hf (pd_x s [-] tau [*] (ladj A y [+] zvec z))) as (x & xq & -> & Hx & Hxe). cbn [bind]. eexists. split; [reflexivity|]. cbn [pd_x pd_y pd_hat]. eauto 12.
    - rewrite rmatvec_plus_ok by auto. destruct (Hf (pd_x s [-] tau [*] (ladj A (pd_y s) [+] zvec z))) as (x & xq & -> & Hx & Hxe). cbn [bind].
      destruct (Hg (pd_y s [+] mu [*] lapp A (x [+] 1 [*] (x [-] pd_x s)))) as (y & yq & -> & Hy & Hye). cbn [bind]. eexists. split; [reflexivity|]. cbn [pd_x pd_y pd_hat]. eauto 12. }
  exists (fun k => pd_x (st k)), (fun k => pd_y (st k)). split; [rewrite S0; reflexivity|]. split; [rewrite S0; reflexivity|]. split.
  - intro n. exists (pd_tr (st n)). unfold PrimalDual. change (match y0 with Some y => y | None => vzero end) with (match y0 with Some y => y | None => (vzero : F) end).
    replace (match y0 with Some y => y | None => (vzero : F) end) with (y0vec y0) by (destruct y0; reflexivity).
    rewrite (for_loop_ext _ body); [rewrite Hrun; reflexivity|]. intros j s Hj. unfold pd_body, body, steps_arr, getitem. rewrite !nth_error_repeat by lia. cbn [bind]. destruct gfirst; reflexivity.
  - destruct gfirst.
    + split.
      * intro j. destruct (HR j) as (H1 & _ & H2). destruct (HR (S j)) as (_ & H3 & _). rewrite H1 in H3. auto.
      * destruct (HR 0%nat) as (_ & H & _). rewrite S0 in H. exact H.
    + intro j. destruct (HR j) as (H1 & H2 & H3). rewrite H1 in H3. auto.
Qed.

(*! C89_proximal_point : two ProximalPoint runs on the same f, from x0 and x0', with operators whose prox is within e and e' of the
   proximal point of f, the proximal map being q-Lipschitz: after n iterations the two results differ by at most
   q^n |x0'-x0| + (e+e')(1 + q + ... + q^(n-1)); e = 0 is an exact operator *)
Lemma C89_proximal_point_l : forall (E : IPS) (o o' : Op E) f x0 x0' tau e e' q, approx_prox e tau o f -> approx_prox e' tau o' f -> prox_lip q f tau -> 0 <= q ->
  exists xs xs', (forall n, ProximalPoint o x0 tau n None = Ok (xs n, map xs (seq 1 n)) /\ ProximalPoint o' x0' tau n None = Ok (xs' n, map xs' (seq 1 n))) /\
    forall n, norm (xs' n [-] xs n) <= q ^ n * norm (x0' [-] x0) + (e + e') * geom q n.
Proof.
  intros E o o' f x0 x0' tau e e' q Ho Ho' Hl Hq. destruct (pp_runs o f x0 tau e Ho) as (xs & X0 & HX & SX). destruct (pp_runs o' f x0' tau e' Ho') as (ys & Y0 & HY & SY).
  exists xs, ys. split; [auto|]. intro n. rewrite <- X0, <- Y0. apply (pp_cmp e e' f tau q); auto.
Qed.

(*! C89_proximal_gradient : two ProximalGradient runs (fixed step, no acceleration, relaxation eta >= 0) whose gradients are within ef, ef'
   of df and whose prox are within eg, eg' of the proximal point of g, x - tau df(x) being qf-Lipschitz and the prox qg-Lipschitz: the
   results after n iterations differ by at most q^n |x0'-x0| + eta (eg+eg' + qg tau (ef+ef')) (1 + ... + q^(n-1)) with
   q = |1-eta| + eta qg qf *)
Lemma C89_proximal_gradient_l : forall (E : IPS) (proxf proxg proxf' proxg' : Op E) df g eps x0 x0' tau beta eta niterback accel ef eg ef' eg' qf qg,
  approx_grad ef proxf df -> approx_prox eg (eps * tau) proxg g -> approx_grad ef' proxf' df -> approx_prox eg' (eps * tau) proxg' g ->
  lipschitz qf (fun x => x [-] tau [*] df x) -> prox_lip qg g (eps * tau) -> 0 <= qf -> 0 <= qg -> 0 < tau -> 0 <= eta -> unaccelerated accel eta ->
  let q := Rabs (1 - eta) + eta * (qg * qf) in
  exists xs xs', xs 0%nat = x0 /\ xs' 0%nat = x0' /\
    (forall n, ProximalGradient proxf proxg x0 [eps] (Some tau) false beta eta (S n) niterback accel None = Ok (xs (S n), map xs (seq 1 (S n))) /\
      ProximalGradient proxf' proxg' x0' [eps] (Some tau) false beta eta (S n) niterback accel None = Ok (xs' (S n), map xs' (seq 1 (S n)))) /\
    forall n, norm (xs' n [-] xs n) <= q ^ n * norm (x0' [-] x0) + eta * (eg + eg' + qg * (tau * (ef + ef'))) * geom q n.
Proof.
  intros E proxf proxg proxf' proxg' df g eps x0 x0' tau beta eta niterback accel ef eg ef' eg' qf qg Hf Hg Hf' Hg' Lf Lg Hqf Hqg Ht He Ha q.
  destruct (pg_runs proxf proxg df g eps x0 tau beta eta niterback accel ef eg qg) as (xs & X0 & HX & SX); auto. destruct (pg_runs proxf' proxg' df g eps x0' tau beta eta niterback accel ef' eg' qg) as (ys & Y0 & HY & SY); auto.
  exists xs, ys. split; [exact X0|]. split; [exact Y0|]. split; [auto|]. intro n. rewrite <- X0, <- Y0. pose proof (pg_cmp _ _ df g (eps * tau) tau eta qf qg xs ys Lf Lg Hqf Hqg He SX SY n) as H. cbv zeta in H. fold q in H.
  replace (eta * (eg + eg' + qg * (tau * (ef + ef')))) with (eta * (eg + qg * (tau * ef)) + eta * (eg' + qg * (tau * ef'))) by ring. exact H.
Qed.

(*! C89_douglas_rachford : two DouglasRachfordSplitting runs with operators within ef, ef' (f) and eg, eg' (g) of the proximal points,
   f and g convex with 2 prox - identity df- and dg-Lipschitz, eta >= 0, either order: after n+1 iterations the returned y differ by
   at most q^(n+1) |x0'-x0| + eta (3 e1 + e2)(1 + ... + q^n), q = |1-eta/2| + eta/2 df dg, e1 the total error of the operator that is
   applied first, e2 of the other; the returned x differ by at most q^n |x0'-x0| + eta (3 e1 + e2)(1 + ... + q^(n-1)) + e1 *)
Lemma C89_douglas_rachford_l : forall (E : IPS) (proxf proxg proxf' proxg' : Op E) f g x0 x0' tau eta (gfirst : bool) ef eg ef' eg' df dg,
  approx_prox ef tau proxf f -> approx_prox eg tau proxg g -> approx_prox ef' tau proxf' f -> approx_prox eg' tau proxg' g -> convex f -> convex g -> 0 < tau -> 0 <= eta ->
  refl_lip df f tau -> refl_lip dg g tau -> 0 <= df -> 0 <= dg ->
  let q := Rabs (1 - eta / 2) + eta / 2 * (df * dg) in let e1 := if gfirst then eg + eg' else ef + ef' in let e2 := if gfirst then ef + ef' else eg + eg' in
  exists xs ys xs' ys', (forall n, (exists tr, DouglasRachford proxf proxg x0 tau eta (S n) gfirst = Ok (xs n, ys n, tr)) /\ (exists tr, DouglasRachford proxf' proxg' x0' tau eta (S n) gfirst = Ok (xs' n, ys' n, tr))) /\
    forall n, norm (ys' n [-] ys n) <= q ^ S n * norm (x0' [-] x0) + eta * (3 * e1 + e2) * geom q (S n) /\
      norm (xs' n [-] xs n) <= q ^ n * norm (x0' [-] x0) + eta * (3 * e1 + e2) * geom q n + e1.
Proof.
  intros E proxf proxg proxf' proxg' f g x0 x0' tau eta gfirst ef eg ef' eg' df dg Hf Hg Hf' Hg' Cf Cg Ht He Lf Lg Hdf Hdg q e1 e2.
  destruct (dr_runs proxf proxg f g x0 tau eta gfirst ef eg Hf Hg) as (xs & ys & X0 & HX & SX). destruct (dr_runs proxf' proxg' f g x0' tau eta gfirst ef' eg' Hf' Hg') as (xs' & ys' & Y0 & HY & SY).
  exists xs, (fun n => ys (S n)), xs', (fun n => ys' (S n)). split; [auto|].
  assert (Xf : forall x, exists p, is_prox f tau x p) by (intro v; destruct (Hf v) as (p & r & _ & H & _); eauto). assert (Xg : forall x, exists p, is_prox g tau x p) by (intro v; destruct (Hg v) as (p & r & _ & H & _); eauto).
  assert (H : forall n, norm (ys' n [-] ys n) <= q ^ n * norm (ys' 0%nat [-] ys 0%nat) + eta * (3 * e1 + e2) * geom q n /\ norm (xs' n [-] xs n) <= norm (ys' n [-] ys n) + e1).
  { unfold q, e1, e2. destruct gfirst.
    - replace (df * dg) with (dg * df) by ring. apply (dr_cmp eg ef eg' ef' g f tau eta dg df); auto; apply prox_lip_convex; auto.
    - apply (dr_cmp ef eg ef' eg' f g tau eta df dg); auto; apply prox_lip_convex; auto. }
  rewrite <- X0, <- Y0. intro n. split; [apply H|]. destruct (H n) as [H1 H2]. lra.
Qed.

(*! C89_hqs : two HQS runs (one tau) with operators within ef, ef' and eg, eg' of the proximal points, the maps being qf- and
   qg-Lipschitz: the vector computed last in each iteration differs after n iterations by at most
   (qf qg)^n |difference of the starts| + (e2 + q2 e1)(1 + ... + (qf qg)^(n-1)), the one computed first after n+1 iterations by at most q1
   times that plus e1; index 1 is the operator applied first, 2 the other *)
Lemma C89_hqs_l : forall (E : IPS) (proxf proxg proxf' proxg' : Op E) f g x0 z0 x0' z0' x z x' z' tau (gfirst : bool) ef eg ef' eg' qf qg,
  approx_prox ef tau proxf f -> approx_prox eg tau proxg g -> approx_prox ef' tau proxf' f -> approx_prox eg' tau proxg' g ->
  x0z0_init x0 z0 = Ok (x, z) -> x0z0_init x0' z0' = Ok (x', z') -> prox_lip qf f tau -> prox_lip qg g tau -> 0 <= qf -> 0 <= qg ->
  let q := qf * qg in let e1 := if gfirst then eg + eg' else ef + ef' in let e2 := if gfirst then ef + ef' else eg + eg' in
  let q1 := if gfirst then qg else qf in let q2 := if gfirst then qf else qg in
  exists xs zs xs' zs', (forall n, (exists tr, HQS proxf proxg x0 [tau] n z0 gfirst = Ok (xs n, zs n, tr)) /\ (exists tr, HQS proxf' proxg' x0' [tau] n z0' gfirst = Ok (xs' n, zs' n, tr))) /\
    forall n, let d := if gfirst then fun k => norm (xs' k [-] xs k) else fun k => norm (zs' k [-] zs k) in
      let d1 := if gfirst then norm (zs' (S n) [-] zs (S n)) else norm (xs' (S n) [-] xs (S n)) in
      d n <= q ^ n * (if gfirst then norm (x' [-] x) else norm (z' [-] z)) + (e2 + q2 * e1) * geom q n /\ d1 <= q1 * d n + e1.
Proof.
  intros E proxf proxg proxf' proxg' f g x0 z0 x0' z0' x z x' z' tau gfirst ef eg ef' eg' qf qg Hf Hg Hf' Hg' Hi Hi' Lf Lg Hqf Hqg q e1 e2 q1 q2.
  destruct (hqs_runs proxf proxg f g x0 z0 x z tau gfirst ef eg Hf Hg Hi) as (xs & zs & X0 & Z0 & HX & SX). destruct (hqs_runs proxf' proxg' f g x0' z0' x' z' tau gfirst ef' eg' Hf' Hg' Hi') as (xs' & zs' & X0' & Z0' & HX' & SX').
  exists xs, zs, xs', zs'. split; [auto|]. intro n. unfold q, e1, e2, q1, q2. destruct gfirst; cbv zeta beta.
  - rewrite <- X0, <- X0'. replace (qf * qg) with (qg * qf) by ring. exact (hqs_cmp eg ef eg' ef' g f tau qg qf zs xs zs' xs' Lg Lf Hqg Hqf SX SX' n).
  - rewrite <- Z0, <- Z0'. exact (hqs_cmp ef eg ef' eg' f g tau qf qg xs zs xs' zs' Lf Lg Hqf Hqg SX SX' n).
Qed.

(*! C89_admm : two ADMM runs with operators within ef, ef' and eg, eg' of the proximal points, f and g convex with 2 prox - identity df-
   and dg-Lipschitz; let w(n) = q^n (|difference of the starts| + e1) + (3 e2 + e1)(1 + ... + q^(n-1)), q = 1/2 + df dg/2, where e1 is the
   total error of the operator applied first and e2 of the other and the start is the one the first step uses: after n+1 iterations the
   vector computed last differs by at most w(n) + e2, and after n+2 iterations the one computed first by at most w(n) + 2 e2 + e1 *)
Lemma C89_admm_l : forall (E : IPS) (proxf proxg proxf' proxg' : Op E) f g x0 z0 x0' z0' x z x' z' tau (gfirst : bool) ef eg ef' eg' df dg,
  approx_prox ef tau proxf f -> approx_prox eg tau proxg g -> approx_prox ef' tau proxf' f -> approx_prox eg' tau proxg' g ->
  x0z0_init x0 z0 = Ok (x, z) -> x0z0_init x0' z0' = Ok (x', z') -> convex f -> convex g -> 0 < tau ->
  refl_lip df f tau -> refl_lip dg g tau -> 0 <= df -> 0 <= dg ->
  let q := 1 / 2 + 1 / 2 * (df * dg) in let e1 := if gfirst then eg + eg' else ef + ef' in let e2 := if gfirst then ef + ef' else eg + eg' in
  let w := fun n => q ^ n * ((if gfirst then norm (x' [-] x) else norm (z' [-] z)) + e1) + (3 * e2 + e1) * geom q n in
  exists xs zs xs' zs', (forall n, (exists tr, ADMM proxf proxg x0 tau n z0 gfirst = Ok (xs n, zs n, tr)) /\ (exists tr, ADMM proxf' proxg' x0' tau n z0' gfirst = Ok (xs' n, zs' n, tr))) /\
    forall n, (if gfirst then norm (xs' (S n) [-] xs (S n)) else norm (zs' (S n) [-] zs (S n))) <= w n + e2 /\
      (if gfirst then norm (zs' (S (S n)) [-] zs (S (S n))) else norm (xs' (S (S n)) [-] xs (S (S n)))) <= w n + (2 * e2 + e1).
Proof.
  intros E proxf proxg proxf' proxg' f g x0 z0 x0' z0' x z x' z' tau gfirst ef eg ef' eg' df dg Hf Hg Hf' Hg' Hi Hi' Cf Cg Ht Lf Lg Hdf Hdg q e1 e2 w.
  destruct (admm_runs proxf proxg f g x0 z0 x z tau gfirst ef eg Hf Hg Hi) as (xs & zs & ss & X0 & Z0 & HX & SX). destruct (admm_runs proxf' proxg' f g x0' z0' x' z' tau gfirst ef' eg' Hf' Hg' Hi') as (xs' & zs' & ss' & X0' & Z0' & HX' & SX').
  exists xs, zs, xs', zs'. split; [auto|].
  assert (Xf : forall x, exists p, is_prox f tau x p) by (intro v; destruct (Hf v) as (p & r & _ & H & _); eauto). assert (Xg : forall x, exists p, is_prox g tau x p) by (intro v; destruct (Hg v) as (p & r & _ & H & _); eauto).
  (* written once for the operator applied first (f1) and second (f2) *)
  assert (G : forall f1 f2 d1 d2 ea eb ea' eb' (ps qs ps' qs' : nat -> E) (p0 p0' : E), convex f1 -> convex f2 -> refl_lip d1 f1 tau -> refl_lip d2 f2 tau -> 0 <= d1 -> 0 <= d2 -> (forall x, exists p, is_prox f1 tau x p) ->
     dr_seq eb ea f2 f1 tau 1 (fun k => qs (S k)) ss -> dr_seq eb' ea' f2 f1 tau 1 (fun k => qs' (S k)) ss' ->
     (exists p, is_prox f1 tau p0 p /\ norm (ss 0%nat [-] p) <= ea) -> (exists p, is_prox f1 tau p0' p /\ norm (ss' 0%nat [-] p) <= ea') ->
     (forall k, exists p, is_prox f1 tau (2 [*] qs (S k) [-] ss k) p /\ norm (ps (S (S k)) [-] p) <= ea) -> (forall k, exists p, is_prox f1 tau (2 [*] qs' (S k) [-] ss' k) p /\ norm (ps' (S (S k)) [-] p) <= ea') ->
     forall n, let u := (1 / 2 + 1 / 2 * (d1 * d2)) ^ n * (norm (p0' [-] p0) + (ea + ea')) + (3 * (eb + eb') + (ea + ea')) * geom (1 / 2 + 1 / 2 * (d1 * d2)) n in
       norm (qs' (S n) [-] qs (S n)) <= u + (eb + eb') /\ norm (ps' (S (S n)) [-] ps (S (S n))) <= u + (2 * (eb + eb') + (ea + ea'))).
  { clear - Ht. intros f1 f2 d1 d2 ea eb ea' eb' ps qs ps' qs' p0 p0' C1 C2 L1 L2 H1 H2 Xf S1 S2 (a & Ha & Hae) (a' & Ha' & Hae') T1 T2 n. cbv zeta. set (q := 1 / 2 + 1 / 2 * (d1 * d2)).
    pose proof (dr_cmp eb ea eb' ea' f2 f1 tau 1 d2 d1 _ _ _ _ (prox_lip_convex f2 tau C2 Ht) (prox_lip_convex f1 tau C1 Ht) L2 L1 H2 H1 ltac:(lra) Xf S1 S2) as H. cbv zeta in H.
    replace (Rabs (1 - 1 / 2) + 1 / 2 * (d2 * d1)) with q in H by (unfold q; rewrite Rabs_right by lra; field). rewrite Rmult_1_l in H. destruct (H n) as [Hs Hq]. cbv beta in Hq.
    pose proof (prox_nonexp f1 tau _ _ _ _ C1 Ht Ha' Ha) as Hn. pose proof (approx_pair 1 _ _ _ _ _ _ _ Hae' Hae Hn) as H0. rewrite (Rplus_comm ea' ea) in H0.
    assert (Hqn : 0 <= q ^ n). { apply pow_le. unfold q. pose proof (Rmult_le_pos _ _ H1 H2). lra. }
    assert (Hs' : norm (ss' n [-] ss n) <= q ^ n * (norm (p0' [-] p0) + (ea + ea')) + (3 * (eb + eb') + (ea + ea')) * geom q n). { pose proof (Rmult_le_compat_l _ _ _ Hqn H0). lra. }
    split; [lra|].
    destruct (T1 n) as (b & Hb & Hbe). destruct (T2 n) as (b' & Hb' & Hbe'). pose proof (prox_nonexp f1 tau _ _ _ _ C1 Ht Hb' Hb) as Hn2. pose proof (approx_pair 1 _ _ _ _ _ _ _ Hbe' Hbe Hn2) as H3.
    (* 2 q - s is within 2 eb of the reflection of s *)
    destruct (S1 n) as (_ & (c & Hc & Hce) & _). destruct (S2 n) as (_ & (c' & Hc' & Hce') & _). pose proof (refl_lip_convex f2 tau C2 Ht _ _ _ _ Hc' Hc) as Hr. rewrite Rmult_1_l in Hr.
    assert (Hf : norm (2 [*] qs' (S n) [-] ss' n [-] (2 [*] qs (S n) [-] ss n)) <= norm (ss' n [-] ss n) + (2 * eb' + 2 * eb)).
    { eapply (approx_pair 1); [| |exact Hr].
      - replace (2 [*] qs' (S n) [-] ss' n [-] (2 [*] c' [-] ss' n)) with (2 [*] (qs' (S n) [-] c')) by vring. rewrite norm_scal, Rabs_right by lra. lra.
      - replace (2 [*] qs (S n) [-] ss n [-] (2 [*] c [-] ss n)) with (2 [*] (qs (S n) [-] c)) by vring. rewrite norm_scal, Rabs_right by lra. lra. }
    lra. }
  intro n. unfold w, q, e1, e2. destruct gfirst.
  - destruct SX as (A1 & A2 & A3). destruct SX' as (B1 & B2 & B3). replace (df * dg) with (dg * df) by ring.
    exact (G g f dg df eg ef eg' ef' zs xs zs' xs' x x' Cg Cf Lg Lf Hdg Hdf Xg A1 B1 A2 B2 A3 B3 n).
  - destruct SX as (A1 & A2 & A3). destruct SX' as (B1 & B2 & B3).
    exact (G f g df dg ef eg ef' eg' xs zs xs' zs' z z' Cf Cg Lf Lg Hdf Hdg Xf A1 B1 A2 B2 A3 B3 n).
Qed.

(*! C89_primal_dual : two PrimalDual runs (theta = 1, tau mu |A|^2 <= kappa < 1, either order) from (x0, y0) and (x0', y0') with operators within
   ef, ef' of the proximal point of f and eg, eg' of that of g*: after n iterations the x differ by at most sqrt(tau) D and the y by at
   most sqrt(mu) D, where D = c (3 w + (n+1)(3 (ef+ef')/sqrt(tau) + (eg+eg')/sqrt(mu))), w = sqrt(|x0'-x0|^2/tau + |y0'-y0|^2/mu) and
   c^2 = (1 + sqrt kappa)/(1 - sqrt kappa): errors add up, they are not amplified *)
Lemma C89_primal_dual_l : forall (E F : IPS) (A : linop E F) proxf proxg proxf' proxg' f gs alias x0 x0' tau mu kappa y0 y0' z (gfirst : bool) ef eg ef' eg',
  approx_prox ef tau proxf f -> approx_proxdual eg mu proxg gs -> approx_prox ef' tau proxf' f -> approx_proxdual eg' mu proxg' gs -> convex f -> convex gs ->
  0 < tau -> 0 < mu -> 0 <= kappa < 1 -> (forall a, tau * mu * norm2 (lapp A a) <= kappa * norm2 a) -> alias = None \/ z = None ->
  let D := fun n => sqrt ((1 + sqrt kappa) / (1 - sqrt kappa)) * (3 * wnorm tau mu (x0' [-] x0) (y0vec y0' [-] y0vec y0) + INR (S n) * (3 * (ef + ef') / sqrt tau + (eg + eg') / sqrt mu)) in
  exists xs ys xs' ys', (forall n, (exists tr, PrimalDual proxf proxg A alias x0 (Scalar tau) (Scalar mu) y0 z 1 n gfirst = Ok (xs n, ys n, tr)) /\
      (exists tr, PrimalDual proxf' proxg' A alias x0' (Scalar tau) (Scalar mu) y0' z 1 n gfirst = Ok (xs' n, ys' n, tr))) /\
    forall n, norm (xs' n [-] xs n) <= sqrt tau * D n /\ norm (ys' n [-] ys n) <= sqrt mu * D n.
Proof.
  intros E F A proxf proxg proxf' proxg' f gs alias x0 x0' tau mu kappa y0 y0' z gfirst ef eg ef' eg' Hf Hg Hf' Hg' Cf Cg Ht Hm Hk HA Hal D.
  destruct (pd_runs A proxf proxg f gs alias x0 tau mu y0 z gfirst ef eg Hf Hg Hal) as (xs & ys & X0 & Y0 & HX & SX).
  destruct (pd_runs A proxf' proxg' f gs alias x0' tau mu y0' z gfirst ef' eg' Hf' Hg' Hal) as (xs' & ys' & X0' & Y0' & HX' & SX').
  exists xs, ys, xs', ys'. split; [auto|]. assert (Xg : forall x, exists p, is_prox gs mu x p) by (intro v; destruct (Hg v) as (p & r & _ & H & _); eauto).
  assert (St : 0 < sqrt tau) by (apply sqrt_lt_R0; exact Ht). assert (Sm : 0 < sqrt mu) by (apply sqrt_lt_R0; exact Hm). pose proof (sqrtk kappa Hk) as K.
  set (C := sqrt ((1 + sqrt kappa) / (1 - sqrt kappa))) in *. set (W := wnorm tau mu (x0' [-] x0) (y0vec y0' [-] y0vec y0)) in *. set (ee := 3 * (ef + ef') / sqrt tau + (eg + eg') / sqrt mu) in *.
  assert (HC : 1 <= C). { unfold C. apply Rle_trans with (sqrt 1); [rewrite sqrt_1; lra|]. apply sqrt_le_1_alt. apply (Rmult_le_reg_r (1 - sqrt kappa)); [lra|]. unfold Rdiv. rewrite Rmult_assoc, Rinv_l by lra. lra. }
  assert (HW : 0 <= W) by apply sqrt_pos.
  assert (P : forall a b (oo : efun E) (o1 : Op E) t, approx_prox a t o1 oo -> b = a -> 0 <= a). { intros a b oo o1 t H _. destruct (H vzero) as (p & r & _ & _ & He). pose proof (norm_nonneg (p [-] r)). lra. }
  assert (P' : forall a (o1 : Op F), approx_proxdual a mu o1 gs -> 0 <= a). { intros a o1 H. destruct (H vzero) as (p & r & _ & _ & He). pose proof (norm_nonneg (p [-] r)). lra. }
  pose proof (P ef ef f _ _ Hf eq_refl) as Pf. pose proof (P ef' ef' f _ _ Hf' eq_refl) as Pf'. pose proof (P' eg _ Hg) as Pg. pose proof (P' eg' _ Hg') as Pg'.
  pose proof (Rinv_0_lt_compat _ St) as It. pose proof (Rinv_0_lt_compat _ Sm) as Im.
  assert (Hee : 0 <= ee) by (unfold ee, Rdiv; assert (0 <= 3 * (ef + ef') * / sqrt tau) by (apply Rmult_le_pos; lra); assert (0 <= (eg + eg') * / sqrt mu) by (apply Rmult_le_pos; lra); lra).
  assert (Hge : (eg + eg') / sqrt mu <= ee) by (unfold ee, Rdiv; assert (0 <= 3 * (ef + ef') * / sqrt tau) by (apply Rmult_le_pos; lra); lra).
  assert (HD : forall n w, w <= C * (3 * W + ee + INR n * ee) -> w <= D n). { intros n w H. unfold D. rewrite S_INR. lra. }
  destruct gfirst.
  - destruct SX as (A1 & (p & Hp & Hpe)). destruct SX' as (B1 & (p' & Hp' & Hpe')).
    pose proof (pd_cmp A tau mu kappa Ht Hm Hk HA f gs (zvec z) Cf Cg Xg ef eg ef' eg' _ _ _ _ A1 B1) as H. cbv beta in H. fold C in H. change (pd_err tau mu (ef + ef') (eg + eg')) with ee in H.
    assert (Hw : wnorm tau mu (xs' 0%nat [-] xs 0%nat) (ys' 1%nat [-] ys 1%nat) <= 3 * W + ee).
    { eapply Rle_trans; [apply wnorm_le; assumption|]. rewrite X0, X0'.
      assert (H1 : norm (x0' [-] x0) / sqrt tau <= W). { pose proof (wnorm_fst tau mu Ht Hm (x0' [-] x0) (y0vec y0' [-] y0vec y0)) as Hw. fold W in Hw. apply (Rmult_le_reg_l (sqrt tau)); [exact St|]. replace (sqrt tau * (norm (x0' [-] x0) / sqrt tau)) with (norm (x0' [-] x0)) by (field; lra). exact Hw. }
      assert (H2 : norm (y0vec y0' [-] y0vec y0) / sqrt mu <= W). { pose proof (wnorm_snd tau mu Ht Hm (x0' [-] x0) (y0vec y0' [-] y0vec y0)) as Hw. fold W in Hw. apply (Rmult_le_reg_l (sqrt mu)); [exact Sm|]. replace (sqrt mu * (norm (y0vec y0' [-] y0vec y0) / sqrt mu)) with (norm (y0vec y0' [-] y0vec y0)) by (field; lra). exact Hw. }
      pose proof (prox_nonexp gs mu _ _ _ _ Cg Hm Hp' Hp) as Hn. pose proof (approx_pair 1 _ _ _ _ _ _ _ Hpe' Hpe Hn) as H3.
      replace (y0vec y0' [+] mu [*] lapp A x0' [-] (y0vec y0 [+] mu [*] lapp A x0)) with ((y0vec y0' [-] y0vec y0) [+] mu [*] lapp A (x0' [-] x0)) in H3 by (rewrite lapp_sub; vring).
      pose proof (norm_triangle (y0vec y0' [-] y0vec y0) (mu [*] lapp A (x0' [-] x0))) as H4. rewrite norm_scal, (Rabs_right mu) in H4 by lra.
      pose proof (lapp_norm A tau mu kappa Ht Hm Hk HA (x0' [-] x0)) as H5.
      assert (H6 : norm (ys' 1%nat [-] ys 1%nat) / sqrt mu <= norm (y0vec y0' [-] y0vec y0) / sqrt mu + norm (lapp A (x0' [-] x0)) * sqrt mu + (eg + eg') / sqrt mu).
      { apply Rle_trans with ((norm (y0vec y0' [-] y0vec y0) + mu * norm (lapp A (x0' [-] x0)) + (eg + eg')) * / sqrt mu); [apply Rmult_le_compat_r; lra|].
        replace (mu * norm (lapp A (x0' [-] x0))) with (sqrt mu * sqrt mu * norm (lapp A (x0' [-] x0))) by (rewrite sqrt_sqrt by lra; reflexivity). right. field. lra. }
      assert (H7 : sqrt kappa / sqrt tau * norm (x0' [-] x0) <= norm (x0' [-] x0) / sqrt tau).
      { replace (sqrt kappa / sqrt tau * norm (x0' [-] x0)) with (sqrt kappa * (norm (x0' [-] x0) / sqrt tau)) by (field; lra). rewrite <- (Rmult_1_l (norm (x0' [-] x0) / sqrt tau)) at 2. apply Rmult_le_compat_r; [|lra]. apply Rmult_le_pos; [apply norm_nonneg|lra]. }
      lra. }
    assert (Hn : forall n, wnorm tau mu (xs' n [-] xs n) (ys' (S n) [-] ys (S n)) <= C * (3 * W + ee + INR n * ee)).
    { intro n. eapply Rle_trans; [apply H|]. apply Rmult_le_compat_l; lra. }
    intro n. split.
    + eapply Rle_trans; [apply (wnorm_fst tau mu Ht Hm _ (ys' (S n) [-] ys (S n)))|]. apply Rmult_le_compat_l; [lra|]. apply HD, Hn.
    + destruct n as [|n].
      * rewrite Y0, Y0'. eapply Rle_trans; [apply (wnorm_snd tau mu Ht Hm (x0' [-] x0))|]. fold W. apply Rmult_le_compat_l; [lra|]. apply HD. change (INR 0) with 0. rewrite <- (Rmult_1_l W) at 1. apply Rmult_le_compat; lra.
      * eapply Rle_trans; [apply (wnorm_snd tau mu Ht Hm (xs' n [-] xs n))|]. apply Rmult_le_compat_l; [lra|]. apply HD. eapply Rle_trans; [apply Hn|]. apply Rmult_le_compat_l; [lra|]. rewrite S_INR. lra.
  - pose proof (pd_cmp A tau mu kappa Ht Hm Hk HA f gs (zvec z) Cf Cg Xg ef eg ef' eg' _ _ _ _ SX SX') as H. fold C in H. change (pd_err tau mu (ef + ef') (eg + eg')) with ee in H. rewrite X0, Y0, X0', Y0' in H. fold W in H.
    intro n. specialize (H n). assert (Hn : wnorm tau mu (xs' n [-] xs n) (ys' n [-] ys n) <= D n). { apply HD. eapply Rle_trans; [exact H|]. apply Rmult_le_compat_l; lra. }
    split; [eapply Rle_trans; [apply (wnorm_fst tau mu Ht Hm _ (ys' n [-] ys n))|]|eapply Rle_trans; [apply (wnorm_snd tau mu Ht Hm (xs' n [-] xs n))|]]; apply Rmult_le_compat_l; lra.
Qed.

(** ** as close to a solution as wanted *)
Lemma impl_approx {E : IPS} (o : Op E) f t : impl_prox o f -> 0 < t -> approx_prox 0 t o f.
Proof. intros H Ht x. destruct (H x t Ht) as (p & Ep & Hp). exists p, p. split; [exact Ep|]. split; [exact Hp|]. rewrite vsub_diag, norm_zero. lra. Qed.
Lemma impl_approx_dual {E : IPS} (o : Op E) f t : impl_proxdual o f -> 0 < t -> approx_proxdual 0 t o f.
Proof. intros H Ht x. destruct (H x t Ht) as (p & Ep & Hp). exists p, p. split; [exact Ep|]. split; [exact Hp|]. rewrite vsub_diag, norm_zero. lra. Qed.
Lemma strong0 {E : IPS} (f : efun E) : convex f -> strongly_convex 0 f.
Proof. intros H x y t Hx Hy Ht. destruct (H x y t Hx Hy Ht) as [H1 H2]. split; [exact H1|]. cbn [eval]. unfold Rdiv. rewrite !Rmult_0_l, !Rminus_0_r. exact H2. Qed.
Lemma vcv_within {E : IPS} (xs : nat -> E) l d : vcv xs l -> 0 < d -> exists N, forall n, (N <= n)%nat -> norm (xs n [-] l) <= d.
Proof. intros H Hd. destruct (H d Hd) as [N HN]. exists N. intros n Hn. apply Rlt_le. apply HN. exact Hn. Qed.
Lemma small_e K d : 0 <= K -> 0 < d -> 0 < d / (2 * (K + 1)) /\ K * (d / (2 * (K + 1))) <= d / 2.
Proof.
  intros HK Hd. split; [apply Rdiv_lt_0_compat; lra|]. apply (Rmult_le_reg_r (2 * (K + 1))); [lra|]. replace (K * (d / (2 * (K + 1))) * (2 * (K + 1))) with (K * d) by (field; lra). nra.
Qed.

(*! C89_reach_point : f convex with a minimiser, tau > 0, finite dimension, the proximal points of f exist (some exact operator): there is a
   minimiser l such that for every d > 0, every large enough niter and every operator whose prox is accurate enough (within some e > 0 depending
   on d and niter), ProximalPoint returns a point within d of l *)
Lemma C89_reach_point_l : forall (E : IPS) f (x0 : E) tau, bw E -> convex f -> 0 < tau -> (exists o, impl_prox o f) -> (exists m, is_min f m) ->
  exists l, is_min f l /\ forall d, 0 < d -> exists N, forall n, (N <= n)%nat -> exists e, 0 < e /\
    forall o, approx_prox e tau o f -> exists x tr, ProximalPoint o x0 tau n None = Ok (x, tr) /\ norm (x [-] l) <= d.
Proof.
  intros E f x0 tau HB Hf Ht [o0 Ho0] Hm. destruct (C75_proximal_point_l E o0 f x0 tau HB Ho0 Hf Ht Hm) as (xs & l & Hrun & Hl & Hc). exists l. split; [exact Hl|]. intros d Hd.
  destruct (vcv_within xs l (d / 2) Hc ltac:(lra)) as [N HN]. exists N. intros n Hn. specialize (HN n Hn). destruct (small_e (INR n) d (pos_INR n) Hd) as [He1 He2].
  set (e := d / (2 * (INR n + 1))) in *. exists e. split; [exact He1|]. intros o Ho.
  destruct (C89_proximal_point_l E o0 o f x0 x0 tau 0 e 1 (impl_approx o0 f tau Ho0 Ht) Ho (prox_lip_convex f tau Hf Ht) ltac:(lra)) as (ys & ys' & Hr & Hb).
  destruct (Hr n) as [R1 R2]. rewrite Hrun in R1. injection R1 as R1 _. exists (ys' n), (map ys' (seq 1 n)). split; [exact R2|]. specialize (Hb n). rewrite geom_one, vsub_diag, norm_zero, <- R1 in Hb. pose proof (tri3 (ys' n) (xs n) l). lra.
Qed.

(*! C89_reach_gradient : the same for ProximalGradient with a fixed step: f convex with L-Lipschitz gradient df, g convex, eps > 0, tau < 2/L,
   0 < eta <= 1, no acceleration, f + eps g has a minimiser; the gradient and the prox are both within e *)
Lemma C89_reach_gradient_l : forall (E : IPS) (f : E -> R) df L g eps (x0 : E) tau beta eta niterback accel, bw E -> convex (etot f) -> 0 < L -> L_smooth f df L -> convex g -> 0 < eps ->
  0 < tau < 2 / L -> 0 < eta <= 1 -> unaccelerated accel eta -> (exists o, impl_prox o g) -> (exists m, is_min (eadd (etot f) (escal eps g)) m) ->
  exists l, is_min (eadd (etot f) (escal eps g)) l /\ forall d, 0 < d -> exists N, forall n, (N <= n)%nat -> exists e, 0 < e /\
    forall proxf proxg, approx_grad e proxf df -> approx_prox e (eps * tau) proxg g ->
      exists x tr, ProximalGradient proxf proxg x0 [eps] (Some tau) false beta eta (S n) niterback accel None = Ok (x, tr) /\ norm (x [-] l) <= d.
Proof.
  intros E f df L g eps x0 tau beta eta niterback accel HB Hf HL Hsm Hg He Ht Hn Ha [o0 Ho0] Hm.
  assert (HtL : tau * L < 2). { destruct Ht as [_ H]. apply (Rmult_lt_compat_r L) in H; [|lra]. replace (2 / L * L) with 2 in H by (field; lra). exact H. }
  set (f0 := mkOp (E := E) (fun x => Ok (VNum (f x))) (fun x _ => Ok x) (fun x _ => Ok x) (fun x => Ok (Some (df x))) true).
  assert (Hsmo : smooth_op f0 f df L).
  { split; [|split; [|split; [exact Hf|split; [exact HL|exact Hsm]]]]; [|intro x; reflexivity]. intros x _. reflexivity. }
  destruct (C75_proximal_gradient_l E f0 o0 f df L g eps x0 tau beta eta niterback accel HB Hsmo Ho0 Hg He (proj1 Ht) ltac:(lra) Ha Hm) as (xs & l & X0 & Hrun & Hl & Hc). exists l. split; [exact Hl|]. intros d Hd.
  destruct (vcv_within (fun k => xs (S k)) l (d / 2) (vcv_shift xs l Hc) ltac:(lra)) as [N HN]. exists N. intros n Hnn. specialize (HN n Hnn). cbv beta in HN.
  assert (HK : 0 <= eta * (1 + tau) * INR (S n)) by (repeat apply Rmult_le_pos; try lra; apply pos_INR). destruct (small_e _ d HK Hd) as [He1 He2]. set (e := d / (2 * (eta * (1 + tau) * INR (S n) + 1))) in *. exists e. split; [exact He1|].
  intros proxf proxg Hpf Hpg. assert (Het : 0 < eps * tau) by (apply Rmult_lt_0_compat; lra).
  assert (Lf : lipschitz 1 (fun x => x [-] tau [*] df x)).
  { pose proof (step_lip_strong f df 0 L tau ltac:(lra) (strong0 _ Hf) Hsm (proj1 Ht)) as H. replace (Rmax (Rabs (1 - tau * 0)) (Rabs (1 - tau * L))) with 1 in H; [exact H|].
    rewrite Rmult_0_r, Rminus_0_r, Rabs_R1. symmetry. apply Rmax_left. pose proof (Rmult_lt_0_compat _ _ (proj1 Ht) HL). apply Rabs_le. lra. }
  assert (Hgr0 : approx_grad 0 f0 df). { intro x. exists (df x). split; [reflexivity|]. rewrite vsub_diag, norm_zero. lra. }
  destruct (C89_proximal_gradient_l E f0 o0 proxf proxg df g eps x0 x0 tau beta eta niterback accel 0 0 e e 1 1 Hgr0 (impl_approx _ _ _ Ho0 Het) Hpf Hpg Lf (prox_lip_convex g _ Hg Het) ltac:(lra) ltac:(lra) (proj1 Ht) ltac:(lra) Ha) as (ys & ys' & Y0 & Y0' & Hr & Hb).
  destruct (Hr n) as [R1 R2]. rewrite Hrun in R1. injection R1 as R1 _ _. exists (ys' (S n)), (map ys' (seq 1 (S n))). split; [exact R2|]. specialize (Hb (S n)).
  replace (Rabs (1 - eta) + eta * (1 * 1)) with 1 in Hb by (rewrite Rabs_right by lra; ring). rewrite geom_one, vsub_diag, norm_zero, <- R1 in Hb. pose proof (tri3 (ys' (S n)) (xs (S n)) l). lra.
Qed.

(*! C89_reach_splitting : the same for DouglasRachfordSplitting (0 < eta < 2) and ADMM, f and g convex, some solution with a multiplier, either
   order: the returned x (for ADMM both vectors) is within d of one minimiser of f + g *)
Lemma C89_reach_splitting_l : forall (E : IPS) f g tau (gfirst : bool), bw E -> convex f -> convex g -> 0 < tau -> (exists o, impl_prox (E:=E) o f) -> (exists o, impl_prox o g) -> (exists x u, kkt f g x u) ->
  (forall (x0 : E) eta, 0 < eta < 2 -> exists l, is_min (eadd f g) l /\ forall d, 0 < d -> exists N, forall n, (N <= n)%nat -> exists e, 0 < e /\
    forall proxf proxg, approx_prox e tau proxf f -> approx_prox e tau proxg g -> exists x y tr, DouglasRachford proxf proxg x0 tau eta (S n) gfirst = Ok (x, y, tr) /\ norm (x [-] l) <= d) /\
  (forall (x0 z0 : option E) x z, x0z0_init x0 z0 = Ok (x, z) -> exists l, is_min (eadd f g) l /\ forall d, 0 < d -> exists N, forall n, (N <= n)%nat -> exists e, 0 < e /\
    forall proxf proxg, approx_prox e tau proxf f -> approx_prox e tau proxg g -> exists a b tr, ADMM proxf proxg x0 tau n z0 gfirst = Ok (a, b, tr) /\ norm (a [-] l) <= d /\ norm (b [-] l) <= d).
Proof.
  intros E f g tau gfirst HB Hf Hg Ht [of Hof] [og Hog] Hk. split.
  - intros x0 eta He. destruct (C75_douglas_rachford_l E of og f g x0 tau eta gfirst HB Hof Hog Hf Hg Ht He Hk) as (xs & ys & l & u & Hrun & _ & Hl & Hc & _). exists l. split; [exact Hl|]. intros d Hd.
    destruct (vcv_within xs l (d / 2) Hc ltac:(lra)) as [N HN]. exists N. intros n Hn. specialize (HN n Hn).
    assert (HK : 0 <= eta * 4 * INR n + 1) by (assert (0 <= eta * 4 * INR n) by (apply Rmult_le_pos; [lra|apply pos_INR]); lra). destruct (small_e _ d HK Hd) as [He1 He2]. set (e := d / (2 * (eta * 4 * INR n + 1 + 1))) in *. exists e. split; [exact He1|].
    intros proxf proxg Hpf Hpg.
    destruct (C89_douglas_rachford_l E of og proxf proxg f g x0 x0 tau eta gfirst 0 0 e e 1 1 (impl_approx _ _ _ Hof Ht) (impl_approx _ _ _ Hog Ht) Hpf Hpg Hf Hg Ht ltac:(lra) (refl_lip_convex f tau Hf Ht) (refl_lip_convex g tau Hg Ht) ltac:(lra) ltac:(lra)) as (as_ & bs & as' & bs' & Hr & Hb).
    destruct (Hr n) as [[tr1 R1] [tr2 R2]]. destruct (Hrun n) as [tr3 R3]. rewrite R3 in R1. injection R1 as R1 _ _. exists (as' n), (bs' n), tr2. split; [exact R2|]. destruct (Hb n) as [_ Hb1].
    replace (Rabs (1 - eta / 2) + eta / 2 * (1 * 1)) with 1 in Hb1 by (rewrite Rabs_right by lra; field). rewrite geom_one, vsub_diag, norm_zero, <- R1 in Hb1. pose proof (tri3 (as' n) (xs n) l) as T.
    replace (if gfirst then 0 + e else 0 + e) with e in Hb1 by (destruct gfirst; ring). lra.
  - intros x0 z0 x z Hi. destruct (C75_admm_l E of og f g x0 z0 x z tau gfirst HB Hof Hog Hf Hg Ht Hi Hk) as (xs & zs & l & Hrun & Hl & Hcx & Hcz). exists l. split; [exact Hl|]. intros d Hd.
    destruct (vcv_within xs l (d / 2) Hcx ltac:(lra)) as [N1 HN1]. destruct (vcv_within zs l (d / 2) Hcz ltac:(lra)) as [N2 HN2]. exists (2 + N1 + N2)%nat. intros n Hn. specialize (HN1 n ltac:(lia)). specialize (HN2 n ltac:(lia)).
    assert (HK : 0 <= 4 * INR n + 4) by (pose proof (pos_INR n); lra). destruct (small_e _ d HK Hd) as [He1 He2]. set (e := d / (2 * (4 * INR n + 4 + 1))) in *. exists e. split; [exact He1|].
    intros proxf proxg Hpf Hpg.
    destruct (C89_admm_l E of og proxf proxg f g x0 z0 x0 z0 x z x z tau gfirst 0 0 e e 1 1 (impl_approx _ _ _ Hof Ht) (impl_approx _ _ _ Hog Ht) Hpf Hpg Hi Hi Hf Hg Ht (refl_lip_convex f tau Hf Ht) (refl_lip_convex g tau Hg Ht) ltac:(lra) ltac:(lra)) as (as_ & bs & as' & bs' & Hr & Hb).
    destruct (Hr n) as [[tr1 R1] [tr2 R2]]. destruct (Hrun n) as [tr3 R3]. rewrite R3 in R1. injection R1 as R1 R1' _. exists (as' n), (bs' n), tr2. split; [exact R2|].
    destruct n as [|[|m]]; [lia|lia|]. destruct (Hb (S m)) as [B1 _]. destruct (Hb m) as [_ B2]. revert B1 B2. replace (1 / 2 + 1 / 2 * (1 * 1)) with 1 by field. rewrite !geom_one, !pow1, !vsub_diag, !norm_zero. intros B1 B2.
    replace (if gfirst then 0 + e else 0 + e) with e in * by (destruct gfirst; ring). rewrite !S_INR in *. pose proof (Rmult_le_pos _ _ (pos_INR m) (Rlt_le _ _ He1)) as Hme.
    assert (HX : norm (as' (S (S m)) [-] xs (S (S m))) <= d / 2). { rewrite R1. destruct gfirst; lra. }
    assert (HZ : norm (bs' (S (S m)) [-] zs (S (S m))) <= d / 2). { rewrite R1'. destruct gfirst; lra. }
    pose proof (tri3 (as' (S (S m))) (xs (S (S m))) l). pose proof (tri3 (bs' (S (S m))) (zs (S (S m))) l). split; lra.
Qed.

(*! C89_reach_primal_dual : the same for PrimalDual (theta = 1, tau mu |A|^2 <= kappa < 1, a saddle point exists, either order): the returned x is
   within d of a minimiser xl of f + <z,.> + g(A .) and y within d of the dual solution that goes with it *)
Lemma C89_reach_primal_dual_l : forall (E F : IPS) (A : linop E F) f g gs alias (x0 : E) tau mu kappa y0 z (gfirst : bool), bw E -> bw F -> convex f -> convex g -> is_conj g gs -> (forall u, exists p, is_prox g 1 u p) ->
  0 < tau -> 0 < mu -> 0 <= kappa < 1 -> (forall a, tau * mu * norm2 (lapp A a) <= kappa * norm2 a) -> alias = None \/ z = None ->
  (exists o, impl_prox o f) -> (exists o, impl_proxdual o gs) -> (exists xo yo, saddle A f gs (zvec z) xo yo) ->
  exists xl yl, saddle A f gs (zvec z) xl yl /\ is_min (eadd (elin f (zvec z)) (epre g (lapp A))) xl /\ forall d, 0 < d -> exists N, forall n, (N <= n)%nat -> exists e, 0 < e /\
    forall proxf proxg, approx_prox e tau proxf f -> approx_proxdual e mu proxg gs ->
      exists x y tr, PrimalDual proxf proxg A alias x0 (Scalar tau) (Scalar mu) y0 z 1 n gfirst = Ok (x, y, tr) /\ norm (x [-] xl) <= d /\ norm (y [-] yl) <= d.
Proof.
  intros E F A f g gs alias x0 tau mu kappa y0 z gfirst HE HF Hf Hg Hc Hp Ht Hm Hk HA Hal [of Hof] [og Hog] Hs.
  destruct (C75_primal_dual_l E F A of og f g gs alias x0 tau mu kappa y0 z gfirst HE HF Hof Hog Hf Hg Hc Hp Ht Hm (Logic.conj (proj1 Hk) (Rlt_le _ _ (proj2 Hk))) HA Hal Hs) as (xs & ys & xl & yl & Hrun & Hsad & Hmin & Hx & Hy).
  exists xl, yl. split; [exact Hsad|]. split; [exact Hmin|]. intros d Hd.
  destruct (vcv_within xs xl (d / 2) Hx ltac:(lra)) as [N1 HN1]. destruct (vcv_within ys yl (d / 2) Hy ltac:(lra)) as [N2 HN2]. exists (N1 + N2)%nat. intros n Hn. specialize (HN1 n ltac:(lia)). specialize (HN2 n ltac:(lia)).
  assert (St : 0 < sqrt tau) by (apply sqrt_lt_R0; exact Ht). assert (Sm : 0 < sqrt mu) by (apply sqrt_lt_R0; exact Hm).
  set (C := sqrt ((1 + sqrt kappa) / (1 - sqrt kappa))). assert (HC : 0 <= C) by apply sqrt_pos.
  set (K := (sqrt tau + sqrt mu) * (C * (INR (S n) * (3 * / sqrt tau + / sqrt mu)))).
  assert (H0 : 0 <= C * (INR (S n) * (3 * / sqrt tau + / sqrt mu))).
  { apply Rmult_le_pos; [exact HC|]. apply Rmult_le_pos; [apply pos_INR|]. pose proof (Rinv_0_lt_compat _ St). pose proof (Rinv_0_lt_compat _ Sm). lra. }
  assert (HK : 0 <= K) by (apply Rmult_le_pos; [lra|exact H0]).
  destruct (small_e K d HK Hd) as [He1 He2]. set (e := d / (2 * (K + 1))) in *. exists e. split; [exact He1|]. intros proxf proxg Hpf Hpg.
  destruct (C89_primal_dual_l E F A of og proxf proxg f gs alias x0 x0 tau mu kappa y0 y0 z gfirst 0 0 e e (impl_approx _ _ _ Hof Ht) (impl_approx_dual _ _ _ Hog Hm) Hpf Hpg Hf (conj_convex _ _ Hc) Ht Hm Hk HA Hal) as (as_ & bs & as' & bs' & Hr & Hb).
  destruct (Hr n) as [[tr1 R1] [tr2 R2]]. destruct (Hrun n) as [tr3 R3]. rewrite R3 in R1. injection R1 as R1 R1' _. exists (as' n), (bs' n), tr2. split; [exact R2|]. destruct (Hb n) as [B1 B2]. fold C in B1, B2.
  assert (HW : wnorm tau mu (x0 [-] x0) (y0vec y0 [-] y0vec y0) = 0). { unfold wnorm. rewrite !vsub_diag, !norm2_zero, !Rmult_0_r, Rplus_0_r. apply sqrt_0. }
  rewrite HW in B1, B2.
  assert (HD : C * (3 * 0 + INR (S n) * (3 * (0 + e) / sqrt tau + (0 + e) / sqrt mu)) = C * (INR (S n) * (3 * / sqrt tau + / sqrt mu)) * e) by (field; lra).
  rewrite HD in B1, B2. rewrite <- R1 in B1. rewrite <- R1' in B2.
  assert (K1 : sqrt tau * (C * (INR (S n) * (3 * / sqrt tau + / sqrt mu)) * e) <= K * e). { unfold K. rewrite <- Rmult_assoc. apply Rmult_le_compat_r; [lra|]. apply Rmult_le_compat_r; lra. }
  assert (K2 : sqrt mu * (C * (INR (S n) * (3 * / sqrt tau + / sqrt mu)) * e) <= K * e). { unfold K. rewrite <- Rmult_assoc. apply Rmult_le_compat_r; [lra|]. apply Rmult_le_compat_r; lra. }
  pose proof (tri3 (as' n) (xs n) xl). pose proof (tri3 (bs' n) (ys n) yl). split; lra.
Qed.

(*!ex C89_example : the square x^2/2 on the real line with every prox, dual prox and gradient off by e: all hypotheses hold (f = g = x^2/2, A = identity,
   tau = mu = 1/2), and the bound is attained: ProximalPoint with tau = 1 from 0 returns e (1 + 1/2 + ... + 1/2^(n-1)) where an exact operator returns 0 *)
Lemma C89_example_l : let f := etot (E:=R_IPS) (fun x : R_IPS => 1 / 2 * (x * x)) in forall e, 0 <= e ->
  bw R_IPS /\ convex f /\ strongly_convex (1 / 2) f /\ L_smooth (E:=R_IPS) (fun x : R_IPS => 1 / 2 * (x * x)) (fun x : R_IPS => x) 1 /\
  (forall t, 0 < t -> approx_prox e t (off1 e) f /\ approx_proxdual e t (off1 e) f) /\ approx_grad (E:=R_IPS) e (off1 e) (fun x : R_IPS => x) /\ impl_prox (off1 0) f /\ impl_proxdual (off1 0) f /\
  is_min f (0 : R_IPS) /\ kkt f f (0 : R_IPS) (0 : R_IPS) /\ saddle (id_linop R_IPS) f f (zvec None) (0 : R_IPS) (0 : R_IPS) /\ (forall a : R_IPS, 1 / 2 * (1 / 2) * norm2 (lapp (id_linop R_IPS) a) <= 1 / 4 * norm2 a) /\
  (forall n, exists tr tr', ProximalPoint (off1 e) (0 : R_IPS) 1 n None = Ok (e * geom (1 / 2) n, tr) /\ ProximalPoint (off1 0) (0 : R_IPS) 1 n None = Ok (0, tr')).
Proof.
  intros f e He. assert (Hq : forall x t, 0 < t -> is_prox f t x (/ (1 + t) * x)). { intros x t Ht. destruct (quad1_prox 1 ltac:(lra) x t Ht) as (p & Ep & Hp). cbn in Ep. injection Ep as <-. replace (/ (1 + t) * x) with (x / (1 + t * 1)) by (field; lra). exact Hp. }
  assert (Hn : forall x : R_IPS, norm (vsub (E:=R_IPS) (x + e) x) <= e). { intro x. apply norm_le_of_sq; [exact He|]. unfold norm2. cbn. nra. }
  destruct (quad1_smooth 1 ltac:(lra)) as (_ & _ & Hcv & _ & Hls).
  split; [apply bw_R|]. split; [exact half1_convex|]. split.
  { intros x y a _ _ Ha. split; [exact I|]. unfold norm2. cbn. assert (0 <= a * (1 - a) * ((x - y) * (x - y))) by (apply Rmult_le_pos; [apply Rmult_le_pos; lra|apply Rle_0_sqr]). nra. }
  split.
  { destruct Hls as [H1 H2]. split.
    - intro x. pose proof (H1 x) as H3. cbv beta in H3. rewrite Rmult_1_l in H3. exact H3.
    - intros x y. rewrite Rmult_1_l. lra. }
  split. { intros t Ht. split; intro x; (exists (/ (1 + t) * x + e), (/ (1 + t) * x); split; [reflexivity|]; split; [apply Hq; exact Ht|apply Hn]). }
  split. { intro x. exists (x + e). split; [reflexivity|apply Hn]. }
  split. { intros x t Ht. exists (/ (1 + t) * x). split; [cbn; f_equal; ring|apply Hq; exact Ht]. }
  split. { intros x t Ht. exists (/ (1 + t) * x). split; [cbn; f_equal; ring|apply Hq; exact Ht]. }
  split. { split; [exact I|]. intros y _. cbn. pose proof (Rle_0_sqr y). unfold Rsqr in *. nra. }
  split. { split; (split; [exact I|]); intros y _; cbn; pose proof (Rle_0_sqr y); unfold Rsqr in *; nra. }
  split. { split; (split; [exact I|]); intros y _; cbn; pose proof (Rle_0_sqr y); unfold Rsqr in *; nra. }
  split. { intro a. unfold norm2. cbn. lra. }
  assert (G : forall d n, exists tr, ProximalPoint (off1 d) (0 : R_IPS) 1 n None = Ok (d * geom (1 / 2) n, tr)).
  { intros d n. assert (Hg : forall m, geom (1 / 2) (S m) = geom (1 / 2) m + (1 / 2) ^ m). { induction m as [|m IH]; [cbn; ring|]. cbn [geom] in *. rewrite IH at 1. cbn [pow]. lra. }
    assert (G : forall m i (x : R) tr, exists tr' k, for_loop (pp_body (off1 d) 1 None) m i (PP (x : R_IPS) None tr) = Ok (PP ((1 / 2) ^ m * x + d * geom (1 / 2) m : R_IPS) None tr', k)).
    { induction m as [|m IH]; intros i x tr.
      - exists tr, i. cbn. repeat f_equal. match goal with |- ?a = ?b => change (@eq R a b) end. ring.
      - cbn [for_loop]. unfold pp_body at 1. cbn [o_prox off1 pp_x pp_pf pp_tr bind fst snd]. destruct (IH (S i) (/ (1 + 1) * x + d) (tr ++ [/ (1 + 1) * x + d])) as (tr' & k & Hk). exists tr', k. etransitivity; [exact Hk|].
        assert (EQ : (1 / 2) ^ S m * x + d * geom (1 / 2) (S m) = (1 / 2) ^ m * (/ (1 + 1) * x + d) + d * geom (1 / 2) m) by (rewrite Hg; cbn [pow]; field). rewrite EQ. reflexivity. }
    unfold ProximalPoint. destruct (G n 0%nat 0 []) as (tr' & k & Hk). rewrite Hk. cbn [bind fst pp_x pp_tr]. exists tr'. assert (EQ : (1 / 2) ^ n * 0 + d * geom (1 / 2) n = d * geom (1 / 2) n) by ring. rewrite EQ. reflexivity. }
  intro n. destruct (G e n) as [tr T]. destruct (G 0 n) as [tr' T']. exists tr, tr'. split; [exact T|]. rewrite T'. rewrite Rmult_0_l. reflexivity.
Qed.
