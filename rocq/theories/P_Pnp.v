(** * Proofs about plug-and-play with denoisers that are not proximal operators (M_Breg.v) *)
From Coq Require Import String Psatz.
From Verif Require Import Base Space Spec VSum ConvexFacts Smooth MatFacts M_ProxOp SpecOps P_ProxOp M_Norms P_Norms M_Loop LoopFacts LoopFacts2 SeqFacts M_PG M_Split M_Breg SplitMath P_PG P_PG2 P_PG3 P_Split P_Split2 P_Multi3 P_Breg S_Seq Compact Fejer IterMath S_Iter P_Iter S_Exist S_Inexact InexactMath S_Count CountMath ExistMath P_Exist M_L1 M_L2 P_L1 P_L2 M_Objs S_Lasso P_Lasso PnpMath.
From Verif Require Export S_Pnp.
Open Scope result_scope.
Open Scope R_scope.

(** ** the runs of the solvers with two given maps *)
Section Runs.
Context {E : IPS} (proxf proxg : Op E) (P D : E -> E) (tau : R).
Hypothesis HP : forall v, o_prox proxf v tau = Ok (P v).
Hypothesis HD : forall v, o_prox proxg v tau = Ok (D v).

Lemma admm_maps x0 z0 gfirst x z : x0z0_init x0 z0 = Ok (x, z) -> exists xs zs us,
  xs 0%nat = x /\ zs 0%nat = z /\ us 0%nat = vzero /\ (forall n, exists tr, ADMM proxf proxg x0 tau n z0 gfirst = Ok (xs n, zs n, tr)) /\ forall j, us (S j) = us j [+] xs (S j) [-] zs (S j) /\
  (if gfirst then zs (S j) = D (xs j [+] us j) /\ xs (S j) = P (zs (S j) [-] us j) else xs (S j) = P (zs j [-] us j) /\ zs (S j) = D (xs (S j) [+] us j)).
Proof.
  intro Hi. destruct (loop_seq (admm_body proxf proxg tau gfirst) (fun _ _ => True) (fun _ s s' => a_u s' = a_u s [+] a_x s' [-] a_z s' /\
     if gfirst then a_z s' = D (a_x s [+] a_u s) /\ a_x s' = P (a_z s' [-] a_u s)
     else a_x s' = P (a_z s [-] a_u s) /\ a_z s' = D (a_x s' [+] a_u s)) (AD x z vzero [])) as (st & S0 & Hrun & _ & HR); [exact I| |].
  { intros j s _. unfold admm_body. destruct gfirst.
    - rewrite HD. cbn [bind]. rewrite HP. cbn [bind fst snd]. eexists. split; [reflexivity|]. cbn [a_x a_z a_u]. auto.
    - rewrite HP. cbn [bind]. rewrite HD. cbn [bind fst snd]. eexists. split; [reflexivity|]. cbn [a_x a_z a_u]. auto. }
  exists (fun k => a_x (st k)), (fun k => a_z (st k)), (fun k => a_u (st k)). rewrite S0. do 3 (split; [reflexivity|]). split; [|exact HR].
  intro n. exists (a_tr (st n)). unfold ADMM. rewrite Hi. cbn [bind fst snd]. rewrite Hrun. reflexivity.
Qed.

Lemma dr_maps x0 eta gfirst : exists xs ys, ys 0%nat = x0 /\ (forall n, exists tr, DouglasRachford proxf proxg x0 tau eta (S n) gfirst = Ok (xs n, ys (S n), tr)) /\
  forall j, (if gfirst then xs j = D (ys j) /\ ys (S j) = DRmap eta D P (ys j) else xs j = P (ys j) /\ ys (S j) = DRmap eta P D (ys j)).
Proof.
  destruct (loop_seq (dr_body proxf proxg tau eta gfirst) (fun _ _ => True) (fun _ s s' => d_x s' = Some (if gfirst then D (d_y s) else P (d_y s)) /\ d_y s' = if gfirst then DRmap eta D P (d_y s) else DRmap eta P D (d_y s)) (DR None x0 [])) as (st & S0 & Hrun & _ & HR); [exact I| |].
  { intros j s _. unfold dr_body. destruct gfirst.
    - rewrite HD. cbn [bind]. rewrite HP. cbn [bind fst snd]. eexists. split; [reflexivity|]. cbn [d_x d_y]. auto.
    - rewrite HP. cbn [bind]. rewrite HD. cbn [bind fst snd]. eexists. split; [reflexivity|]. cbn [d_x d_y]. auto. }
  exists (fun k => if gfirst then D (d_y (st k)) else P (d_y (st k))), (fun k => d_y (st k)). split; [rewrite S0; reflexivity|]. split.
  - intro n. exists (d_tr (st (S n))). unfold DouglasRachford. rewrite Hrun. cbn [bind fst snd]. destruct (HR n) as [-> _]. destruct gfirst; reflexivity.
  - intro j. destruct (HR j) as [_ H]. destruct gfirst; auto.
Qed.

Lemma hqs_maps x0 z0 gfirst x z : x0z0_init x0 z0 = Ok (x, z) -> exists xs zs,
  (forall n, exists tr, HQS proxf proxg x0 [tau] n z0 gfirst = Ok (xs n, zs n, tr)) /\
  forall j, if gfirst then zs (S j) = D (xs j) /\ xs (S j) = P (zs (S j)) else xs (S j) = P (zs j) /\ zs (S j) = D (xs (S j)).
Proof.
  intro Hi. set (body := fun (j : nat) (s : hqs_state E) => xz <- (if gfirst then z <- o_prox proxg (h_x s) tau ;; x <- o_prox proxf z tau ;; Ok (x, z)
         else x <- o_prox proxf (h_z s) tau ;; z <- o_prox proxg x tau ;; Ok (x, z)) ;;
         Ok (HQ (fst xz) (snd xz) (h_tr s ++ [xz]), false)).
  destruct (loop_seq body (fun _ _ => True) (fun _ s s' => if gfirst then h_z s' = D (h_x s) /\ h_x s' = P (h_z s')
     else h_x s' = P (h_z s) /\ h_z s' = D (h_x s')) (HQ x z [])) as (st & S0 & Hrun & _ & HR); [exact I| |].
  { intros j s _. unfold body. destruct gfirst.
    - rewrite HD. cbn [bind]. rewrite HP. cbn [bind fst snd]. eexists. split; [reflexivity|]. cbn [h_x h_z]. auto.
    - rewrite HP. cbn [bind]. rewrite HD. cbn [bind fst snd]. eexists. split; [reflexivity|]. cbn [h_x h_z]. auto. }
  exists (fun k => h_x (st k)), (fun k => h_z (st k)). split; [|exact HR].
  intro n. exists (h_tr (st n)). unfold HQS. rewrite Hi. cbn [bind fst snd].
  rewrite (for_loop_ext _ body); [|intros j s Hj; unfold hqs_body, getitem; rewrite hqs_taus_scalar by lia; reflexivity]. rewrite Hrun. reflexivity.
Qed.
End Runs.

Lemma pg_maps {E : IPS} (proxf proxg : Op E) df (D : E -> E) eps x0 tau beta eta niterback accel : (forall x, o_grad proxf x = Ok (Some (df x))) -> (forall v, o_prox proxg v (eps * tau) = Ok (D v)) -> unaccelerated accel eta ->
  exists xs, xs 0%nat = x0 /\ (forall n, ProximalGradient proxf proxg x0 [eps] (Some tau) false beta eta (S n) niterback accel None = Ok (xs (S n), map xs (seq 1 (S n)))) /\
    forall j, xs (S j) = xs j [+] eta [*] (D (xs j [-] tau [*] df (xs j)) [-] xs j).
Proof.
  intros Hgr HD Ha.
  set (body := fun (j : nat) (s : pg_state E) =>
     xt <- pg_prox_step proxf proxg false beta eta niterback eps (pg_x s) (pg_y s) (pg_tau s) ;;
     let x := fst xt in
     let t' := if accel_is accel "fista" then (1 + sqrt (1 + 4 * (pg_t s * pg_t s))) / 2 else pg_t s in
     let omega := if accel_is accel "vandenberghe" then INR j / (INR j + 3) else if accel_is accel "fista" then (pg_t s - 1) / t' else 0 in
     let y := x [+] omega [*] (x [-] pg_x s) in
     Ok (PG x y t' (snd xt) (pg_pfg s) (pg_tr s ++ [x]), false)).
  destruct (loop_seq body (fun _ s => pg_tau s = tau /\ (eta = 1 -> pg_y s = pg_x s))
     (fun _ s s' => pg_x s' = pg_x s [+] eta [*] (D (pg_x s [-] tau [*] df (pg_x s)) [-] pg_x s) /\ pg_tr s' = pg_tr s ++ [pg_x s'])
     (PG x0 x0 1 tau None [])) as (st & S0 & Hrun & _ & HR); [auto| |].
  { intros j s [Hta Hy]. unfold body, pg_prox_step, get_grad.
    destruct (Reqb_spec eta 1) as [[H1 ->]|[H1 ->]].
    - rewrite (Hy H1), Hta, Hgr. cbn [bind]. rewrite HD. cbn [bind fst snd]. eexists. split; [reflexivity|]. cbn [pg_x pg_tr pg_tau pg_y]. split; [split; [|reflexivity]|split; [reflexivity|]].
      + rewrite H1. vring.
      + intros _. assert (Hno : accel = None \/ accel = Some "None"%string) by (destruct Ha as [Ha|[Ha|[Ha _]]]; tauto). destruct Hno as [->| ->]; cbn [accel_is]; [vring|]. cbn. vring.
    - rewrite Hta, Hgr. cbn [bind]. rewrite HD. cbn [bind fst snd]. eexists. split; [reflexivity|]. cbn [pg_x pg_tr pg_tau pg_y]. split; [split; [|reflexivity]|split; [reflexivity|tauto]].
      reflexivity. }
  exists (fun k => pg_x (st k)). split; [rewrite S0; reflexivity|]. split; [|intro j; apply HR]. intro n. unfold ProximalGradient. cbn [pg_epsg bind].
  assert (Hk : accel_known accel = true) by (destruct Ha as [->|[->|[_ [->| ->]]]]; reflexivity). rewrite Hk.
  rewrite (for_loop_ext _ body); [|intros j s Hj; unfold pg_body, getitem; rewrite nth_error_repeat by lia; reflexivity].
  rewrite Hrun. cbn [bind fst snd]. do 2 f_equal.
  rewrite (trace_seq st pg_tr (fun k => pg_x (st (S k)))); [|rewrite S0; reflexivity|intro j; apply HR]. rewrite <- seq_shift, map_map. reflexivity.
Qed.

Lemma denoise_prox {m} fuel (den : Vec m -> R -> result (Vec m)) dims t D : 0 < t -> denoises den dims t D -> forall v, o_prox (obj (S fuel) (denoise_body den dims)) v t = Ok (D v).
Proof. intros Ht [Hd HD] v. cbn [o_prox obj d_prox b_prox denoise_body]. rewrite check_tau_pos, Hd, Nat.eqb_refl by auto. apply HD. Qed.
Lemma prox_map {E : IPS} (proxf : Op E) f tau : impl_prox proxf f -> 0 < tau -> exists P : E -> E, (forall v, o_prox proxf v tau = Ok (P v)) /\ forall v, is_prox f tau v (P v).
Proof.
  intros Hf Ht. exists (fun v => match o_prox proxf v tau with Ok p => p | Err _ => v end).
  split; intro v; destruct (Hf v tau Ht) as (p & -> & H); auto.
Qed.
Lemma prox_firmly {E : IPS} (f : efun E) tau P : convex f -> 0 < tau -> (forall v, is_prox f tau v (P v)) -> firm P.
Proof. intros Hf Ht HP x y. eapply prox_firm; eauto. Qed.
Lemma prox_sfirm {E : IPS} (f : efun E) s tau P : strongly_convex s f -> 0 <= s -> 0 < tau -> (forall v, is_prox f tau v (P v)) -> sfirm (/ (1 + tau * s)) P.
Proof.
  intros Hf Hs Ht HP x y. pose proof (prox_firm_strong f s tau x y _ _ Hf Hs Ht (HP x) (HP y)) as H. assert (0 <= tau * s) by (apply Rmult_le_pos; lra).
  apply (Rmult_le_compat_l (/ (1 + tau * s))) in H; [|left; apply Rinv_0_lt_compat; lra]. replace (/ (1 + tau * s) * ((1 + tau * s) * norm2 (P x [-] P y))) with (norm2 (P x [-] P y)) in H by (field; lra). exact H.
Qed.
Lemma strong_convex {E : IPS} (f : efun E) s : 0 <= s -> strongly_convex s f -> convex f.
Proof.
  intros Hs Hst a b t Ha Hb Ht. destruct (Hst a b t Ha Hb Ht) as [H1 H2]. split; [exact H1|]. cbn [eval] in *.
  assert (Id : s / 2 * norm2 ((1 - t) [*] a [+] t [*] b) = (1 - t) * (s / 2 * norm2 a) + t * (s / 2 * norm2 b) - s / 2 * (t * (1 - t)) * norm2 (a [-] b)) by (iexp; field).
  pose proof (norm2_nonneg (a [-] b)). assert (0 <= s / 2 * (t * (1 - t)) * norm2 (a [-] b)) by (repeat apply Rmult_le_pos; lra). lra.
Qed.

(** balanced pairs and fixed points of the two maps *)
Lemma bal_fix {E : IPS} (f : efun E) tau (P D : E -> E) x u : convex f -> 0 < tau -> (forall v, is_prox f tau v (P v)) -> balanced f tau D x u ->
  D (x [+] u) = x /\ P (x [-] u) = x /\ DRmap 1 D P (x [+] u) = x [+] u /\ DRmap 1 P D (x [-] u) = x [-] u /\ forall eta, DRmap eta D P (x [+] u) = x [+] u /\ DRmap eta P D (x [-] u) = x [-] u.
Proof.
  intros Hf Ht HP [H1 H2]. assert (H3 : P (x [-] u) = x) by (eapply prox_unique; eauto).
  assert (G : forall eta, DRmap eta D P (x [+] u) = x [+] u /\ DRmap eta P D (x [-] u) = x [-] u).
  { intro eta. unfold DRmap. rewrite H2, H3. replace (2 [*] x [-] (x [+] u)) with (x [-] u) by vring. replace (2 [*] x [-] (x [-] u)) with (x [+] u) by vring. rewrite H2, H3. split; vring. }
  split; [exact H2|]. split; [exact H3|]. split; [apply G|]. split; [apply G|exact G].
Qed.
Lemma fix_bal_D {E : IPS} (f : efun E) tau (P D : E -> E) eta w : 0 < eta -> (forall v, is_prox f tau v (P v)) -> DRmap eta D P w = w -> balanced f tau D (D w) (w [-] D w) /\ P (2 [*] D w [-] w) = D w.
Proof.
  intros He HP Hw. unfold DRmap in Hw. assert (H : P (2 [*] D w [-] w) = D w).
  { replace (P (2 [*] D w [-] w)) with (/ eta [*] ((w [+] eta [*] (P (2 [*] D w [-] w) [-] D w)) [-] w) [+] D w) by (vext v; field; lra). rewrite Hw. vring. }
  split; [|exact H]. split; [replace (D w [-] (w [-] D w)) with (2 [*] D w [-] w) by vring; rewrite <- H at 2; apply HP|]. f_equal. vring.
Qed.
Lemma fix_bal_P {E : IPS} (f : efun E) tau (P D : E -> E) eta w : 0 < eta -> (forall v, is_prox f tau v (P v)) -> DRmap eta P D w = w -> balanced f tau D (P w) (P w [-] w) /\ D (2 [*] P w [-] w) = P w.
Proof.
  intros He HP Hw. unfold DRmap in Hw. assert (H : D (2 [*] P w [-] w) = P w).
  { replace (D (2 [*] P w [-] w)) with (/ eta [*] ((w [+] eta [*] (D (2 [*] P w [-] w) [-] P w)) [-] w) [+] P w) by (vext v; field; lra). rewrite Hw. vring. }
  split; [|exact H]. split; [replace (P w [-] (P w [-] w)) with w by vring; apply HP|]. rewrite <- H at 3. f_equal. vring.
Qed.

(*! C101_admm : plug-and-play with the default solver (ADMM), in either order and from any start, with a data term f convex whose prox is
   exact and with any denoiser that is firmly non-expansive at tau, whether or not it is the proximal map of a function: as soon as
   one balanced pair exists (x unchanged by the data step started from x - u and by the denoiser started from x + u), the two vectors
   returned with niter = 0, 1, 2, ... both converge to one and the same x which is part of a balanced pair *)
Lemma C101_admm_l : forall m fuel (proxf : Op (Vec m)) f den D dims x0 tau z0 (gfirst : bool),
  impl_prox proxf f -> convex f -> 0 < tau -> denoises den dims tau D -> firm D -> (exists x u, balanced f tau D x u) ->
  exists xs zs x u, (forall n, exists tr, PlugAndPlay_default (S fuel) proxf den dims x0 tau n z0 gfirst = Ok (xs n, zs n, tr)) /\
    balanced f tau D x u /\ vcv xs x /\ vcv zs x.
Proof.
  intros m fuel proxf f den D dims x0 tau z0 gfirst Hpf Hf Ht Hden HD (bx & bu & Hbal). destruct (prox_map proxf f tau Hpf Ht) as (P & EP & HP).
  pose proof (prox_firmly f tau P Hf Ht HP) as FP. destruct (bal_fix f tau P D bx bu Hf Ht HP Hbal) as (_ & _ & B1 & B2 & _).
  destruct (admm_maps proxf (obj (S fuel) (denoise_body den dims)) P D tau EP (denoise_prox fuel den dims tau D Ht Hden) (Some x0) z0 gfirst x0 (match z0 with Some z => z | None => x0 end)) as (xs & zs & us & _ & _ & _ & Hrun & HR); [destruct z0; reflexivity|].
  pose proof (firm_nonexp D HD) as ND. pose proof (firm_nonexp P FP) as NP. pose proof (proj1 (proj2 C75_arrays_l) m) as HB. exists xs, zs. destruct gfirst.
  - destruct (km_cv HB ((2 - 1) / 1) (DRmap 1 P D) (fun k => zs (S k) [-] us k)) as (w & Fw & Lw).
    + apply DRmap_averaged; auto. lra.
    + eauto.
    + intro k. destruct (HR k) as (H3 & H1 & H2). destruct (HR (S k)) as (G3 & G1 & G2). unfold DRmap. rewrite <- H2. replace (2 [*] xs (S k) [-] (zs (S k) [-] us k)) with (xs (S k) [+] us (S k)) by (rewrite H3; vring). rewrite <- G1, H3. vring.
    + destruct (fix_bal_P f tau P D 1 w ltac:(lra) HP Fw) as [Hb Hd]. exists (P w), (P w [-] w). split; [exact Hrun|]. split; [exact Hb|].
      assert (Lx : vcv xs (P w)). { apply vcv_unshift. apply (vcv_ext (fun k => P (zs (S k) [-] us k))); [intro k; symmetry; apply HR|]. apply (vcv_nonexp P _ _ NP Lw). }
      split; [exact Lx|]. apply vcv_unshift, vcv_unshift.
      apply (vcv_ext (fun k => D (2 [*] xs (S k) [-] (zs (S k) [-] us k)))).
      * intro k. destruct (HR k) as (H3 & _ & _). destruct (HR (S k)) as (_ & G1 & _). rewrite G1. f_equal. rewrite H3. vring.
      * rewrite <- Hd. apply (vcv_nonexp D _ _ ND). apply vcv_minus; [apply vcv_scal, vcv_shift, Lx|exact Lw].
  - destruct (km_cv HB ((2 - 1) / 1) (DRmap 1 D P) (fun k => xs (S k) [+] us k)) as (w & Fw & Lw).
    + apply DRmap_averaged; auto. lra.
    + eauto.
    + intro k. destruct (HR k) as (H3 & H1 & H2). destruct (HR (S k)) as (G3 & G1 & G2). unfold DRmap. rewrite <- H2. replace (2 [*] zs (S k) [-] (xs (S k) [+] us k)) with (zs (S k) [-] us (S k)) by (rewrite H3; vring). rewrite <- G1, H3. vring.
    + destruct (fix_bal_D f tau P D 1 w ltac:(lra) HP Fw) as [Hb Hd]. exists (D w), (w [-] D w). split; [exact Hrun|]. split; [exact Hb|].
      assert (Lx : vcv zs (D w)). { apply vcv_unshift. apply (vcv_ext (fun k => D (xs (S k) [+] us k))); [intro k; symmetry; apply HR|]. apply (vcv_nonexp D _ _ ND Lw). }
      split; [|exact Lx]. apply vcv_unshift, vcv_unshift.
      apply (vcv_ext (fun k => P (2 [*] zs (S k) [-] (xs (S k) [+] us k)))).
      * intro k. destruct (HR k) as (H3 & _ & _). destruct (HR (S k)) as (_ & G1 & _). rewrite G1. f_equal. rewrite H3. vring.
      * rewrite <- Hd. apply (vcv_nonexp P _ _ NP). apply vcv_minus; [apply vcv_scal, vcv_shift, Lx|exact Lw].
Qed.

(*! C101_douglas_rachford : the same with DouglasRachfordSplitting as solver, any 0 < eta < 2 and either order: the x returned with niter =
   1, 2, ... converges to an x that is part of a balanced pair (x, u), and the auxiliary vector to x + u (denoiser first) or x - u *)
Lemma C101_douglas_rachford_l : forall m fuel (proxf : Op (Vec m)) f den D dims x0 tau eta (gfirst : bool),
  impl_prox proxf f -> convex f -> 0 < tau -> 0 < eta < 2 -> denoises den dims tau D -> firm D -> (exists x u, balanced f tau D x u) ->
  exists xs ys x u, (forall n, exists tr, PlugAndPlay (S fuel) (fun pf pg x0 => DouglasRachford pf pg x0 tau eta (S n) gfirst) proxf den dims x0 = Ok (xs n, ys n, tr)) /\
    balanced f tau D x u /\ vcv xs x /\ vcv ys (if gfirst then x [+] u else x [-] u).
Proof.
  intros m fuel proxf f den D dims x0 tau eta gfirst Hpf Hf Ht He Hden HD (bx & bu & Hbal). destruct (prox_map proxf f tau Hpf Ht) as (P & EP & HP).
  pose proof (prox_firmly f tau P Hf Ht HP) as FP. destruct (bal_fix f tau P D bx bu Hf Ht HP Hbal) as (_ & _ & _ & _ & B).
  destruct (dr_maps proxf (obj (S fuel) (denoise_body den dims)) P D tau EP (denoise_prox fuel den dims tau D Ht Hden) x0 eta gfirst) as (xs & ys & _ & Hrun & HR).
  pose proof (firm_nonexp D HD) as ND. pose proof (firm_nonexp P FP) as NP. pose proof (proj1 (proj2 C75_arrays_l) m) as HB. exists xs, (fun n => ys (S n)). destruct gfirst.
  - destruct (km_cv HB ((2 - eta) / eta) (DRmap eta D P) ys) as (w & Fw & Lw); [apply DRmap_averaged; auto|exists (bx [+] bu); apply B|apply HR|].
    destruct (fix_bal_D f tau P D eta w ltac:(lra) HP Fw) as [Hb _]. exists (D w), (w [-] D w). split; [exact Hrun|]. split; [exact Hb|]. split.
    + apply (vcv_ext (fun k => D (ys k))); [intro k; symmetry; apply HR|]. apply (vcv_nonexp D _ _ ND Lw).
    + replace (D w [+] (w [-] D w)) with w by vring. apply vcv_shift. exact Lw.
  - destruct (km_cv HB ((2 - eta) / eta) (DRmap eta P D) ys) as (w & Fw & Lw); [apply DRmap_averaged; auto|exists (bx [-] bu); apply B|apply HR|].
    destruct (fix_bal_P f tau P D eta w ltac:(lra) HP Fw) as [Hb _]. exists (P w), (P w [-] w). split; [exact Hrun|]. split; [exact Hb|]. split.
    + apply (vcv_ext (fun k => P (ys k))); [intro k; symmetry; apply HR|]. apply (vcv_nonexp P _ _ NP Lw).
    + replace (P w [-] (P w [-] w)) with w by vring. apply vcv_shift. exact Lw.
Qed.

Lemma pgmap_averaged {E : IPS} (fv : E -> R) df L tau eta (D : E -> E) : convex (etot fv) -> 0 < L -> L_smooth fv df L -> 0 < tau -> 0 < eta < 2 - tau * L / 2 -> firm D ->
  averaged ((2 - tau * L / 2 - eta) / eta) (fun x => x [+] eta [*] (D (x [-] tau [*] df x) [-] x)).
Proof.
  intros Hc HL Hs Ht Hn HD. split; [apply Rdiv_lt_0_compat; lra|]. intros x y. cbv beta. pose proof (L_smooth_convex fv df L Hc Hs) as Hsc.
  pose proof (HD (x [-] tau [*] df x) (y [-] tau [*] df y)) as H1. set (p := D (x [-] tau [*] df x)) in *. set (q := D (y [-] tau [*] df y)) in *. pose proof (cocoercive fv df L y x HL Hsc) as H2.
  set (r := (p [-] x) [-] (q [-] y)). set (w := x [-] y) in *. set (d := df x [-] df y) in *.
  replace (p [-] q) with (r [+] w) in H1 by (unfold r, w; vring). replace (x [-] tau [*] df x [-] (y [-] tau [*] df y)) with (w [-] tau [*] d) in H1 by (unfold w, d; vring).
  replace (x [+] eta [*] (p [-] x) [-] (y [+] eta [*] (q [-] y))) with (w [+] eta [*] r) by (unfold w, r; vring).
  replace (x [-] (x [+] eta [*] (p [-] x)) [-] (y [-] (y [+] eta [*] (q [-] y)))) with ((- eta) [*] r) by (unfold r; vring).
  assert (H3 : 0 <= norm2 (d [+] (L / 2) [*] r)) by apply norm2_nonneg.
  assert (E3 : norm2 (d [+] (L / 2) [*] r) = norm2 d + L * << d, r >> + L * L / 4 * norm2 r) by (unfold norm2; inner_lin_all; rewrite (inner_sym r d); field).
  assert (E1 : << r [+] w, w [-] tau [*] d >> - norm2 (r [+] w) = - norm2 r - << r, w >> - tau * << d, r >> - tau * << d, w >>) by (unfold norm2; inner_lin_all; rewrite (inner_sym r d), (inner_sym w d), (inner_sym w r); ring).
  assert (E2 : norm2 (w [+] eta [*] r) = norm2 w + 2 * eta * << r, w >> + eta * eta * norm2 r) by (unfold norm2; inner_lin_all; rewrite (inner_sym w r); ring).
  assert (E4 : (2 - tau * L / 2 - eta) / eta * norm2 ((- eta) [*] r) = eta * (2 - tau * L / 2 - eta) * norm2 r) by (iexp; field; lra).
  rewrite E2, E4. rewrite E3 in H3.
  assert (K : << r, w >> <= - norm2 r + tau * L / 4 * norm2 r).
  { assert (H4 : 0 <= tau * (L * << d, w >> + L * << d, r >> + L * L / 4 * norm2 r)) by (apply Rmult_le_pos; lra).
    assert (H5 : 0 <= tau * (<< d, w >> + << d, r >> + L / 4 * norm2 r)).
    { apply (Rmult_le_reg_l L); [exact HL|]. rewrite Rmult_0_r. replace (L * (tau * (<< d, w >> + << d, r >> + L / 4 * norm2 r))) with (tau * (L * << d, w >> + L * << d, r >> + L * L / 4 * norm2 r)) by field. exact H4. }
    lra. }
  apply (Rmult_le_compat_l (2 * eta)) in K; [|lra]. lra.
Qed.
Lemma relax_fix {E : IPS} eta (x p : E) : 0 < eta -> x [+] eta [*] (p [-] x) = x -> p = x.
Proof. intros He H. replace p with (x [+] / eta [*] ((x [+] eta [*] (p [-] x)) [-] x)) by (vext w; field; lra). rewrite H. vring. Qed.

(*! C101_proximal_gradient : the same with ProximalGradient as solver, for f convex with an L-Lipschitz gradient, a scalar epsg = eps > 0, a
   fixed step tau > 0, 0 < eta < 2 - tau L/2 (tau < 2/L when eta = 1), no acceleration and a denoiser that is firmly non-expansive at
   eps tau: if x = D(x - tau grad f(x)) has a solution, the vectors returned with niter = 1, 2, ... converge to a solution *)
Lemma C101_proximal_gradient_l : forall m fuel (proxf : Op (Vec m)) f df L den D dims x0 eps tau beta eta niterback accel,
  smooth_op proxf f df L -> 0 < eps -> 0 < tau -> 0 < eta < 2 - tau * L / 2 -> unaccelerated accel eta -> denoises den dims (eps * tau) D -> firm D ->
  (exists x, D (x [-] tau [*] df x) = x) ->
  exists xs x, xs 0%nat = x0 /\ (forall n, PlugAndPlay (S fuel) (fun pf pg x0 => ProximalGradient pf pg x0 [eps] (Some tau) false beta eta (S n) niterback accel None) proxf den dims x0 = Ok (xs (S n), map xs (seq 1 (S n)))) /\
    D (x [-] tau [*] df x) = x /\ vcv xs x.
Proof.
  intros m fuel proxf f df L den D dims x0 eps tau beta eta nb accel (_ & Hgr & Hcv & HL & Hsm) He Ht Hn Ha Hden HD (b & Hb).
  assert (Het : 0 < eps * tau) by (apply Rmult_lt_0_compat; assumption).
  destruct (pg_maps proxf (obj (S fuel) (denoise_body den dims)) df D eps x0 tau beta eta nb accel Hgr (denoise_prox fuel den dims _ D Het Hden) Ha) as (xs & X0 & Hrun & HR).
  destruct (km_cv (proj1 (proj2 C75_arrays_l) m) _ (fun x => x [+] eta [*] (D (x [-] tau [*] df x) [-] x)) xs (pgmap_averaged f df L tau eta D Hcv HL Hsm Ht Hn HD)) as (x & Fx & Lx); [exists b; cbv beta; rewrite Hb; vring|exact HR|].
  exists xs, x. split; [exact X0|]. split; [exact Hrun|]. split; [|exact Lx]. apply (relax_fix eta); [lra|exact Fx].
Qed.

(*! C101_hqs : the same with HQS as solver, one fixed tau and either order: if x = prox_(tau f)(z), z = D(x) has a solution, the pair returned
   with niter = 0, 1, 2, ... converges to such a pair *)
Lemma C101_hqs_l : forall m fuel (proxf : Op (Vec m)) f den D dims x0 tau z0 (gfirst : bool),
  impl_prox proxf f -> convex f -> 0 < tau -> denoises den dims tau D -> firm D -> (exists x z, is_prox f tau z x /\ D x = z) ->
  exists xs zs x z, (forall n, exists tr, PlugAndPlay (S fuel) (fun pf pg x0 => HQS pf pg (Some x0) [tau] n z0 gfirst) proxf den dims x0 = Ok (xs n, zs n, tr)) /\
    is_prox f tau z x /\ D x = z /\ vcv xs x /\ vcv zs z.
Proof.
  intros m fuel proxf f den D dims x0 tau z0 gfirst Hpf Hf Ht Hden HD (bx & bz & B1 & B2). destruct (prox_map proxf f tau Hpf Ht) as (P & EP & HP).
  pose proof (prox_firmly f tau P Hf Ht HP) as FP. assert (B3 : P bz = bx) by (eapply prox_unique; eauto).
  destruct (hqs_maps proxf (obj (S fuel) (denoise_body den dims)) P D tau EP (denoise_prox fuel den dims tau D Ht Hden) (Some x0) z0 gfirst x0 (match z0 with Some z => z | None => x0 end)) as (xs & zs & Hrun & HR); [destruct z0; reflexivity|].
  pose proof (firm_nonexp D HD) as ND. pose proof (firm_nonexp P FP) as NP. pose proof (proj1 (proj2 C75_arrays_l) m) as HB. exists xs, zs. destruct gfirst.
  - destruct (km_cv HB _ (fun x => P (D x)) xs (comp_averaged D P HD FP)) as (x & Fx & Lx); [exists bx; rewrite B2; exact B3|intro k; destruct (HR k) as [H1 H2]; rewrite H2, H1; reflexivity|].
    exists x, (D x). split; [exact Hrun|]. split; [rewrite <- Fx at 2; apply HP|]. split; [reflexivity|]. split; [exact Lx|]. apply vcv_unshift. apply (vcv_ext (fun k => D (xs k))); [intro k; symmetry; apply HR|]. apply (vcv_nonexp D _ _ ND Lx).
  - destruct (km_cv HB _ (fun z => D (P z)) zs (comp_averaged P D FP HD)) as (z & Fz & Lz); [exists bz; rewrite B3; exact B2|intro k; destruct (HR k) as [H1 H2]; rewrite H2, H1; reflexivity|].
    exists (P z), z. split; [exact Hrun|]. split; [apply HP|]. split; [exact Fz|]. split; [|exact Lz]. apply vcv_unshift. apply (vcv_ext (fun k => P (zs k))); [intro k; symmetry; apply HR|]. apply (vcv_nonexp P _ _ NP Lz).
Qed.

Lemma subgrad_is_grad {E : IPS} (f : E -> R) x v d : is_grad f x d -> is_subgrad (etot f) x v -> v = d.
Proof.
  intros Hg [_ Hs]. set (g := etot (fun y => - << v, y >>)).
  assert (Hc : convex g). { intros a b t _ _ Ht. split; [exact I|]. cbn [g etot eval]. rewrite inner_add_r, !inner_scal_r. lra. }
  assert (Hm : is_min (eadd (etot f) g) x). { split; [split; exact I|]. intros y _. cbn [eadd etot eval g]. specialize (Hs y I). cbn [etot eval] in Hs. rewrite inner_sub_r in Hs. lra. }
  destruct (min_sum_subgrad_grad f g x d Hg Hc Hm) as [_ Hw]. specialize (Hw (x [+] (v [-] d)) I). cbn [g etot eval] in Hw.
  assert (H : norm2 (v [-] d) <= 0). { replace (norm2 (v [-] d)) with (- << v, x >> + << vopp d, x [+] (v [-] d) [-] x >> - - << v, x [+] (v [-] d) >>) by iring. lra. }
  pose proof (norm2_nonneg (v [-] d)). assert (N0 : norm2 (v [-] d) = 0) by lra. rewrite <- norm_sq in N0. apply Rmult_integral in N0. assert (N1 : norm (v [-] d) = 0) by tauto. apply norm_eq0 in N1.
  replace v with ((v [-] d) [+] d) by vring. rewrite N1. vring.
Qed.
(*! C101_same : what a balanced pair is. For f convex and differentiable, (x, u) is balanced exactly when u = - tau grad f(x) and x = D(x - tau
   grad f(x)): ADMM, DouglasRachfordSplitting and ProximalGradient have the same limits. And if the denoiser is the proximal map of a
   convex g with step tau, then x belongs to a balanced pair exactly when 0 is the sum of a subgradient of f and one of g at x, and then x
   minimises f + g *)
Lemma C101_same_l :
  (forall (E : IPS) f df (D : E -> E) tau x u, convex (etot f) -> (forall y, is_grad f y (df y)) -> 0 < tau ->
    (balanced (etot f) tau D x u <-> u = (- tau) [*] df x /\ D (x [-] tau [*] df x) = x)) /\
  (forall (E : IPS) f g (D : E -> E) tau x, convex f -> convex g -> 0 < tau -> (forall y, is_prox g tau y (D y)) ->
    ((exists u, balanced f tau D x u) <-> exists v, is_subgrad f x v /\ is_subgrad g x (vopp v)) /\ ((exists u, balanced f tau D x u) -> is_min (eadd f g) x)).
Proof.
  split.
  - intros E f df D tau x u Hf Hg Ht. unfold balanced. rewrite prox_iff_subgrad by auto. split.
    + intros [H1 H2]. apply (subgrad_is_grad f x _ (df x) (Hg x)) in H1. assert (Hu : u = (- tau) [*] df x) by (rewrite <- H1; vext w; field; lra). split; [exact Hu|]. rewrite <- H2 at 3. rewrite Hu. f_equal. vring.
    + intros [-> H2]. split.
      * replace (/ tau [*] (x [-] (- tau) [*] df x [-] x)) with (df x) by (vext w; field; lra). split; [exact I|]. intros y _. cbn [etot eval]. apply convex_grad_ineq; auto.
      * rewrite <- H2 at 3. f_equal. vring.
  - intros E f g D tau x Hf Hg Ht HD.
    assert (Hiff : (exists u, balanced f tau D x u) <-> exists v, is_subgrad f x v /\ is_subgrad g x (vopp v)).
    { unfold balanced. split.
      - intros (u & H1 & H2). exists ((- / tau) [*] u). rewrite prox_iff_subgrad in H1 by auto. split.
        + replace ((- / tau) [*] u) with (/ tau [*] (x [-] u [-] x)) by vring. exact H1.
        + pose proof (HD (x [+] u)) as H3. rewrite H2, prox_iff_subgrad in H3 by auto. replace (vopp ((- / tau) [*] u)) with (/ tau [*] (x [+] u [-] x)) by vring. exact H3.
      - intros (v & H1 & H2). exists ((- tau) [*] v). split.
        + rewrite prox_iff_subgrad by auto. replace (/ tau [*] (x [-] (- tau) [*] v [-] x)) with v by (vext w; field; lra). exact H1.
        + eapply (prox_unique g tau); [exact Hg|exact Ht|apply HD|]. rewrite prox_iff_subgrad by auto. replace (/ tau [*] (x [+] (- tau) [*] v [-] x)) with (vopp v) by (vext w; field; lra). exact H2. }
    split; [exact Hiff|]. intro H. apply Hiff in H. destruct H as (v & H1 & H2). apply (kkt_min f g x v). split; assumption.
Qed.

Lemma geo_max (a b : nat -> R) q : 0 < q -> (exists C, forall n, a n <= C * q ^ n) -> (exists C, forall n, b n <= C * q ^ n) -> exists C, forall n, a n <= C * q ^ n /\ b n <= C * q ^ n.
Proof.
  intros Hq [C HC] [C' HC']. exists (Rmax C C'). intro n. pose proof (pow_le q n ltac:(lra)). split.
  - eapply Rle_trans; [apply HC|]. apply Rmult_le_compat_r; [assumption|apply Rmax_l].
  - eapply Rle_trans; [apply HC'|]. apply Rmult_le_compat_r; [assumption|apply Rmax_r].
Qed.
Lemma residual_lip_D {E : IPS} e (D : E -> E) : residual_lip e D -> lipschitz (1 + e) D.
Proof.
  intros H x y. specialize (H x y). cbv beta in H. pose proof (norm_triangle (x [-] y) ((-1) [*] (x [-] D x [-] (y [-] D y)))) as T. rewrite norm_scal, Rabs_left in T by lra.
  replace (x [-] y [+] (-1) [*] (x [-] D x [-] (y [-] D y))) with (D x [-] D y) in T by vring. lra.
Qed.
(*! C101_residual : a data term f that is s-strongly convex (s > 0) and a denoiser, firmly non-expansive or not, whose residual x - D(x) is
   Lipschitz with constant e < tau s / (1 + tau s), as is arranged when training denoising networks: there is exactly one balanced pair
   (x, u), and both vectors returned by plug-and-play ADMM with niter = n, from any start and in either order, are within C q^n of x, where
   q = 1 / (1 + tau s) + e < 1 *)
Lemma C101_residual_l : forall m fuel (proxf : Op (Vec m)) f s den D dims x0 tau z0 (gfirst : bool) e,
  impl_prox proxf f -> strongly_convex s f -> 0 < s -> 0 < tau -> denoises den dims tau D -> residual_lip e D -> 0 <= e < tau * s / (1 + tau * s) ->
  let q := / (1 + tau * s) + e in 0 < q < 1 /\
  exists xs zs x u C, (forall n, exists tr, PlugAndPlay_default (S fuel) proxf den dims x0 tau n z0 gfirst = Ok (xs n, zs n, tr)) /\
    balanced f tau D x u /\ (forall x' u', balanced f tau D x' u' -> x' = x /\ u' = u) /\
    forall n, norm (xs n [-] x) <= C * q ^ n /\ norm (zs n [-] x) <= C * q ^ n.
Proof.
  intros m fuel proxf f s den D dims x0 tau z0 gfirst e Hpf Hst Hs Ht Hden HD He q. assert (Hts : 0 < tau * s) by (apply Rmult_lt_0_compat; assumption).
  pose proof (strong_convex f s ltac:(lra) Hst) as Hf. destruct (prox_map proxf f tau Hpf Ht) as (P & EP & HP).
  pose proof (prox_sfirm f s tau P Hst ltac:(lra) Ht HP) as SP. set (k := / (1 + tau * s)) in *.
  assert (Hk : 0 < k <= 1). { unfold k. split; [apply Rinv_0_lt_compat; lra|]. rewrite <- Rinv_1. apply Rinv_le_contravar; lra. }
  assert (Hq : 0 < q < 1). { unfold q. split; [lra|]. assert (k + tau * s / (1 + tau * s) = 1) by (unfold k; field; lra). lra. }
  split; [exact Hq|].
  destruct (admm_maps proxf (obj (S fuel) (denoise_body den dims)) P D tau EP (denoise_prox fuel den dims tau D Ht Hden) (Some x0) z0 gfirst x0 (match z0 with Some z => z | None => x0 end)) as (xs & zs & us & _ & _ & _ & Hrun & HR); [destruct z0; reflexivity|].
  pose proof (residual_lip_D e D HD) as LD. pose proof (sfirm_lip k P ltac:(lra) SP) as LP. pose proof (proj1 (proj2 C75_arrays_l) m) as HB. exists xs, zs. destruct gfirst.
  - destruct (contract_cv HB q (DRmap 1 P D) (fun j => zs (S j) [-] us j)) as (w & Fw & Uw & Rw); [lra|apply DR_PD_lip; auto; lra| |].
    { intro j. destruct (HR j) as (H3 & H1 & H2). destruct (HR (S j)) as (G3 & G1 & G2). unfold DRmap. rewrite <- H2. replace (2 [*] xs (S j) [-] (zs (S j) [-] us j)) with (xs (S j) [+] us (S j)) by (rewrite H3; vring). rewrite <- G1, H3. vring. }
    cbv beta in Rw. set (c0 := norm (zs 1%nat [-] us 0%nat [-] w)) in *. assert (Hc0 : 0 <= c0) by apply norm_nonneg.
    destruct (fix_bal_P f tau P D 1 w ltac:(lra) HP Fw) as [Hb Hd]. exists (P w), (P w [-] w).
    destruct (geo_max (fun n => norm (xs n [-] P w)) (fun n => norm (zs n [-] P w)) q) as [C HC]; [lra| | |].
    + apply geo_unshift; [lra|]. exists c0. intro n. destruct (HR n) as (_ & _ & H2). rewrite H2. pose proof (LP (zs (S n) [-] us n) w). pose proof (Rw n). pose proof (norm_nonneg (zs (S n) [-] us n [-] w)). nra.
    + apply geo_unshift; [lra|]. apply geo_unshift; [lra|]. exists ((1 + e) * c0). intro n. destruct (HR n) as (H3 & _ & H2). destruct (HR (S n)) as (_ & G1 & _).
      assert (Hz : zs (S (S n)) = D (2 [*] P (zs (S n) [-] us n) [-] (zs (S n) [-] us n))) by (rewrite G1; f_equal; rewrite <- H2, H3; vring). rewrite Hz. rewrite <- Hd at 1.
      pose proof (LD (2 [*] P (zs (S n) [-] us n) [-] (zs (S n) [-] us n)) (2 [*] P w [-] w)) as G. pose proof (sfirm_refl k P ltac:(lra) SP (zs (S n) [-] us n) w) as G'. pose proof (Rw n) as G3.
      eapply Rle_trans; [exact G|]. rewrite Rmult_assoc. apply Rmult_le_compat_l; lra.
    + exists C. split; [exact Hrun|]. split; [exact Hb|]. split; [|exact HC]. intros x' u' Hb'. destruct (bal_fix f tau P D x' u' Hf Ht HP Hb') as (_ & B1 & _ & B2 & _). apply Uw in B2. rewrite <- B2, B1. split; [reflexivity|vring].
  - destruct (contract_cv HB q (DRmap 1 D P) (fun j => xs (S j) [+] us j)) as (w & Fw & Uw & Rw); [lra|apply DR_DP_lip; auto; lra| |].
    { intro j. destruct (HR j) as (H3 & H1 & H2). destruct (HR (S j)) as (G3 & G1 & G2). unfold DRmap. rewrite <- H2. replace (2 [*] zs (S j) [-] (xs (S j) [+] us j)) with (zs (S j) [-] us (S j)) by (rewrite H3; vring). rewrite <- G1, H3. vring. }
    cbv beta in Rw. set (c0 := norm (xs 1%nat [+] us 0%nat [-] w)) in *. assert (Hc0 : 0 <= c0) by apply norm_nonneg.
    destruct (fix_bal_D f tau P D 1 w ltac:(lra) HP Fw) as [Hb Hd]. exists (D w), (w [-] D w).
    destruct (geo_max (fun n => norm (xs n [-] D w)) (fun n => norm (zs n [-] D w)) q) as [C HC]; [lra| | |].
    + apply geo_unshift; [lra|]. apply geo_unshift; [lra|]. exists ((2 * (1 + e) + 1) * c0). intro n. destruct (HR n) as (H3 & _ & H2). destruct (HR (S n)) as (_ & G1 & _). set (v := xs (S n) [+] us n) in *.
      assert (Hz : xs (S (S n)) = P (2 [*] D v [-] v)) by (rewrite G1; f_equal; rewrite <- H2, H3; unfold v; vring). rewrite Hz. rewrite <- Hd at 1.
      pose proof (LP (2 [*] D v [-] v) (2 [*] D w [-] w)) as G. pose proof (LD v w) as G'. pose proof (Rw n) as G3. fold v in G3. pose proof (norm_triangle (2 [*] (D v [-] D w)) ((-1) [*] (v [-] w))) as G4.
      rewrite !norm_scal, (Rabs_right 2), (Rabs_left (-1)) in G4 by lra. replace (2 [*] (D v [-] D w) [+] (-1) [*] (v [-] w)) with (2 [*] D v [-] v [-] (2 [*] D w [-] w)) in G4 by vring.
      pose proof (norm_nonneg (2 [*] D v [-] v [-] (2 [*] D w [-] w))) as G5. assert (G6 : norm (2 [*] D v [-] v [-] (2 [*] D w [-] w)) <= (2 * (1 + e) + 1) * norm (v [-] w)) by lra.
      assert (G7 : (2 * (1 + e) + 1) * norm (v [-] w) <= (2 * (1 + e) + 1) * (q ^ n * c0)) by (apply Rmult_le_compat_l; lra). nra.
    + apply geo_unshift; [lra|]. exists ((1 + e) * c0). intro n. destruct (HR n) as (_ & _ & H2). rewrite H2. eapply Rle_trans; [apply LD|]. rewrite Rmult_assoc. apply Rmult_le_compat_l; [lra|]. pose proof (Rw n). lra.
    + exists C. split; [exact Hrun|]. split; [exact Hb|]. split; [|exact HC]. intros x' u' Hb'. destruct (bal_fix f tau P D x' u' Hf Ht HP Hb') as (B1 & _ & B2 & _). apply Uw in B2. rewrite <- B2, B1. split; [reflexivity|vring].
Qed.

(*! C101_lipschitz : denoisers that may even expand distances, with constant r > 0, when f is s-strongly convex. HQS as solver: if r < 1 + tau s
   there is exactly one pair x = prox_(tau f)(z), z = D(x), and the vectors returned with niter = n are within C q^n of it, q = r / (1 + tau s).
   ProximalGradient as solver, gradient L-Lipschitz, s < L, relaxation eta > 0: if q = |1 - eta| + eta r max(|1 - tau s|, |1 - tau L|) < 1 there is
   exactly one solution x of x = D(x - tau grad f(x)), and the vector returned with niter = n is within q^n |x0 - x| of it *)
Lemma C101_lipschitz_l :
  (forall m fuel (proxf : Op (Vec m)) f s den D dims x0 tau z0 (gfirst : bool) r,
    impl_prox proxf f -> strongly_convex s f -> 0 <= s -> 0 < tau -> denoises den dims tau D -> lipschitz r D -> 0 < r < 1 + tau * s ->
    exists xs zs x z C, (forall n, exists tr, PlugAndPlay (S fuel) (fun pf pg x0 => HQS pf pg (Some x0) [tau] n z0 gfirst) proxf den dims x0 = Ok (xs n, zs n, tr)) /\
      (forall x' z', is_prox f tau z' x' /\ D x' = z' <-> x' = x /\ z' = z) /\
      forall n, norm (xs n [-] x) <= C * (r / (1 + tau * s)) ^ n /\ norm (zs n [-] z) <= C * (r / (1 + tau * s)) ^ n) /\
  (forall m fuel (proxf : Op (Vec m)) f df s L den D dims x0 eps tau beta eta niterback accel r,
    smooth_op proxf f df L -> strongly_convex s (etot f) -> 0 <= s < L -> 0 < eps -> 0 < tau -> 0 < eta -> unaccelerated accel eta -> denoises den dims (eps * tau) D -> lipschitz r D -> 0 <= r ->
    let q := Rabs (1 - eta) + eta * (r * Rmax (Rabs (1 - tau * s)) (Rabs (1 - tau * L))) in q < 1 ->
    exists xs x, xs 0%nat = x0 /\ (forall n, PlugAndPlay (S fuel) (fun pf pg x0 => ProximalGradient pf pg x0 [eps] (Some tau) false beta eta (S n) niterback accel None) proxf den dims x0 = Ok (xs (S n), map xs (seq 1 (S n)))) /\
      (forall x', D (x' [-] tau [*] df x') = x' <-> x' = x) /\ forall n, norm (xs n [-] x) <= q ^ n * norm (x0 [-] x)).
Proof.
  split.
  - intros m fuel proxf f s den D dims x0 tau z0 gfirst r Hpf Hst Hs Ht Hden LD Hr. assert (Hts : 0 <= tau * s) by (apply Rmult_le_pos; lra).
    pose proof (strong_convex f s Hs Hst) as Hf. destruct (prox_map proxf f tau Hpf Ht) as (P & EP & HP).
    set (q := r / (1 + tau * s)). assert (Hq : 0 < q < 1). { unfold q. split; [apply Rdiv_lt_0_compat; lra|]. apply (Rmult_lt_reg_r (1 + tau * s)); [lra|]. unfold Rdiv. rewrite Rmult_assoc, Rinv_l by lra. lra. }
    assert (Hk : 0 < / (1 + tau * s)) by (apply Rinv_0_lt_compat; lra).
    pose proof (sfirm_lip (/ (1 + tau * s)) P ltac:(lra) (prox_sfirm f s tau P Hst Hs Ht HP)) as LP.
    assert (LP1 : nonexp P). { intros x y. pose proof (LP x y). pose proof (norm_nonneg (x [-] y)). assert (/ (1 + tau * s) <= 1) by (rewrite <- Rinv_1; apply Rinv_le_contravar; lra). nra. }
    destruct (hqs_maps proxf (obj (S fuel) (denoise_body den dims)) P D tau EP (denoise_prox fuel den dims tau D Ht Hden) (Some x0) z0 gfirst x0 (match z0 with Some z => z | None => x0 end)) as (xs & zs & Hrun & HR); [destruct z0; reflexivity|].
    assert (Hfix : forall x z, (is_prox f tau z x /\ D x = z) <-> P z = x /\ D x = z). { intros x z. split; intros [H1 H2]; (split; [|exact H2]); [apply (prox_unique f tau z _ _ Hf Ht (HP z) H1)|rewrite <- H1; apply HP]. }
    pose proof (proj1 (proj2 C75_arrays_l) m) as HB. exists xs, zs. destruct gfirst.
    + destruct (contract_cv HB q (fun x => P (D x)) xs) as (x & Fx & Ux & Rx); [lra| |intro j; destruct (HR j) as [H1 H2]; rewrite H2, H1; reflexivity|].
      { intros x y. pose proof (LP (D x) (D y)). pose proof (LD x y). assert (/ (1 + tau * s) * norm (D x [-] D y) <= / (1 + tau * s) * (r * norm (x [-] y))) by (apply Rmult_le_compat_l; lra). unfold q, Rdiv. lra. }
      exists x, (D x). destruct (geo_max (fun n => norm (xs n [-] x)) (fun n => norm (zs n [-] D x)) q) as [C HC]; [lra| | |].
      * exists (norm (xs 0%nat [-] x)). intro n. pose proof (Rx n). lra.
      * apply geo_unshift; [lra|]. exists (r * norm (xs 0%nat [-] x)). intro n. destruct (HR n) as [-> _]. eapply Rle_trans; [apply LD|]. rewrite Rmult_assoc. apply Rmult_le_compat_l; [lra|]. pose proof (Rx n). lra.
      * exists C. split; [exact Hrun|]. split; [|exact HC]. intros x' z'. rewrite Hfix. split; [|intros [-> ->]; auto]. intros [H1 H2]. assert (G : x' = x) by (apply Ux; rewrite H2; exact H1). split; [exact G|rewrite <- G; symmetry; exact H2].
    + destruct (contract_cv HB q (fun z => D (P z)) zs) as (z & Fz & Uz & Rz); [lra| |intro j; destruct (HR j) as [H1 H2]; rewrite H2, H1; reflexivity|].
      { intros x y. pose proof (LP x y). pose proof (LD (P x) (P y)). assert (r * norm (P x [-] P y) <= r * (/ (1 + tau * s) * norm (x [-] y))) by (apply Rmult_le_compat_l; lra). unfold q, Rdiv. lra. }
      exists (P z), z. destruct (geo_max (fun n => norm (xs n [-] P z)) (fun n => norm (zs n [-] z)) q) as [C HC]; [lra| | |].
      * apply geo_unshift; [lra|]. exists (norm (zs 0%nat [-] z)). intro n. destruct (HR n) as [-> _]. eapply Rle_trans; [apply LP1|]. pose proof (Rz n). lra.
      * exists (norm (zs 0%nat [-] z)). intro n. pose proof (Rz n). lra.
      * exists C. split; [exact Hrun|]. split; [|exact HC]. intros x' z'. rewrite Hfix. split; [|intros [-> ->]; auto]. intros [H1 H2]. assert (G : z' = z) by (apply Uz; rewrite H1; exact H2). split; [rewrite <- G; symmetry; exact H1|exact G].
  - intros m fuel proxf f df s L den D dims x0 eps tau beta eta nb accel r (_ & Hgr & Hcv & HL & Hsm) Hst Hs He Ht Heta Ha Hden LD Hr q Hq.
    assert (Het : 0 < eps * tau) by (apply Rmult_lt_0_compat; assumption).
    destruct (pg_maps proxf (obj (S fuel) (denoise_body den dims)) df D eps x0 tau beta eta nb accel Hgr (denoise_prox fuel den dims _ D Het Hden) Ha) as (xs & X0 & Hrun & HR).
    pose proof (step_lip_strong f df s L tau Hs Hst Hsm Ht) as LS. set (p := Rmax (Rabs (1 - tau * s)) (Rabs (1 - tau * L))) in *. assert (Hp : 0 <= p) by (apply Rle_trans with (1 := Rabs_pos (1 - tau * s)); apply Rmax_l).
    assert (Hq0 : 0 <= q). { unfold q. pose proof (Rabs_pos (1 - eta)). assert (0 <= eta * (r * p)) by (repeat apply Rmult_le_pos; lra). lra. }
    destruct (contract_cv (proj1 (proj2 C75_arrays_l) m) q (fun x => x [+] eta [*] (D (x [-] tau [*] df x) [-] x)) xs) as (x & Fx & Ux & Rx); [lra| |exact HR|].
    { intros x y. cbv beta. pose proof (LD (x [-] tau [*] df x) (y [-] tau [*] df y)) as H1. pose proof (LS x y) as H2. cbv beta in H2. set (a := D (x [-] tau [*] df x)) in *. set (b := D (y [-] tau [*] df y)) in *.
      replace (x [+] eta [*] (a [-] x) [-] (y [+] eta [*] (b [-] y))) with ((1 - eta) [*] (x [-] y) [+] eta [*] (a [-] b)) by vring. eapply Rle_trans; [apply norm_triangle|]. rewrite !norm_scal, (Rabs_right eta) by lra.
      assert (H3 : norm (a [-] b) <= r * (p * norm (x [-] y))) by (eapply Rle_trans; [exact H1|]; apply Rmult_le_compat_l; assumption). apply (Rmult_le_compat_l eta) in H3; [|lra]. unfold q. lra. }
    exists xs, x. split; [exact X0|]. split; [exact Hrun|]. split; [|rewrite <- X0; exact Rx]. intro x'. split.
    + intro H. apply Ux. cbv beta. rewrite H. vring.
    + intros ->. apply (relax_fix eta); [lra|exact Fx].
Qed.


(** ** which denoisers qualify *)
(*! C101_denoisers : D is firmly non-expansive exactly when 2 D - identity is non-expansive, and exactly when the noise x - D(x) it removes is; the
   proximal map of a convex function is; the mean of the identity and of any non-expansive N is; a linear filter W is exactly when |W x|^2 <=
   <W x, x> for every x; a weighted mean of two of them is. A firmly non-expansive D has a residual with Lipschitz constant 1, and removing the
   fraction e of the output of a non-expansive N leaves a denoiser whose residual has constant e *)
Lemma C101_denoisers_l : forall (E : IPS),
  (forall D : E -> E, firm D <-> lipschitz 1 (fun x => 2 [*] D x [-] x)) /\
  (forall D : E -> E, firm D <-> firm (fun x => x [-] D x)) /\
  (forall (D : E -> E) g t, convex g -> 0 < t -> (forall x, is_prox g t x (D x)) -> firm D) /\
  (forall N : E -> E, lipschitz 1 N -> firm (fun x => (1 / 2) [*] (x [+] N x))) /\
  (forall W : E -> E, (forall x y, W (x [-] y) = W x [-] W y) -> (firm W <-> forall x, norm2 (W x) <= << W x, x >>)) /\
  (forall (D D' : E -> E) t, firm D -> firm D' -> 0 <= t <= 1 -> firm (fun x => (1 - t) [*] D x [+] t [*] D' x)) /\
  (forall D : E -> E, firm D -> residual_lip 1 D) /\
  (forall (N : E -> E) e, lipschitz 1 N -> 0 <= e -> residual_lip e (fun x => x [-] e [*] N x)).
Proof.
  intro E.
  assert (H1 : forall D : E -> E, firm D <-> lipschitz 1 (fun x => 2 [*] D x [-] x)).
  { intro D. split; intros H x y; specialize (H x y); cbv beta in *.
    - rewrite Rmult_1_l. apply norm_le_of2. replace (norm2 (2 [*] D x [-] x [-] (2 [*] D y [-] y))) with (norm2 (x [-] y) + 4 * (norm2 (D x [-] D y) - << D x [-] D y, x [-] y >>)) by iring. lra.
    - rewrite Rmult_1_l in H. apply norm_le_iff in H. replace (norm2 (2 [*] D x [-] x [-] (2 [*] D y [-] y))) with (norm2 (x [-] y) + 4 * (norm2 (D x [-] D y) - << D x [-] D y, x [-] y >>)) in H by iring. lra. }
  assert (H2 : forall D : E -> E, firm D -> firm (fun x => x [-] D x)).
  { intros D H x y. specialize (H x y). cbv beta. assert (Id : << x [-] D x [-] (y [-] D y), x [-] y >> - norm2 (x [-] D x [-] (y [-] D y)) = << D x [-] D y, x [-] y >> - norm2 (D x [-] D y)) by iring. lra. }
  split; [exact H1|]. split; [|split; [|split; [|split; [|split; [|split]]]]].
  - intro D. split; [apply H2|]. intro H. apply H2 in H. intros x y. specialize (H x y). cbv beta in H. replace (x [-] (x [-] D x)) with (D x) in H by vring. replace (y [-] (y [-] D y)) with (D y) in H by vring. exact H.
  - intros D g t Hg Ht HD x y. eapply prox_firm; eauto.
  - intros N HN. apply H1. intros x y. specialize (HN x y). replace (2 [*] ((1 / 2) [*] (x [+] N x)) [-] x) with (N x) by (vext w; field). replace (2 [*] ((1 / 2) [*] (y [+] N y)) [-] y) with (N y) by (vext w; field). exact HN.
  - intros W HW. split.
    + intros H x. specialize (H x vzero). rewrite <- HW in H. replace (x [-] vzero) with x in H by vring. exact H.
    + intros H x y. rewrite <- HW. apply H.
  - intros D D' t HD HD' Ht. rewrite H1 in *. intros x y. specialize (HD x y). specialize (HD' x y). cbv beta in *.
    replace (2 [*] ((1 - t) [*] D x [+] t [*] D' x) [-] x [-] (2 [*] ((1 - t) [*] D y [+] t [*] D' y) [-] y)) with ((1 - t) [*] (2 [*] D x [-] x [-] (2 [*] D y [-] y)) [+] t [*] (2 [*] D' x [-] x [-] (2 [*] D' y [-] y))) by vring.
    eapply Rle_trans; [apply norm_triangle|]. rewrite !norm_scal, (Rabs_right (1 - t)), (Rabs_right t) by lra. apply (Rmult_le_compat_l (1 - t)) in HD; [|lra]. apply (Rmult_le_compat_l t) in HD'; [|lra]. lra.
  - intros D HD x y. cbv beta. rewrite Rmult_1_l. apply (firm_nonexp _ (H2 D HD)).
  - intros N e HN He x y. cbv beta. specialize (HN x y). replace (x [-] (x [-] e [*] N x) [-] (y [-] (y [-] e [*] N y))) with (e [*] (N x [-] N y)) by vring. rewrite norm_scal, Rabs_right by lra. apply Rmult_le_compat_l; lra.
Qed.

(** a non-expansive map with bounded values has a fixed point *)
Lemma bounded_fix {E : IPS} (T : E -> E) M : bw E -> described E -> nonexp T -> (forall x, norm (T x) <= M) -> exists l, T l = l.
Proof.
  intros HB HDsc HT HM. set (c := fun k : nat => (INR k + 1) / (INR k + 2)). set (Tk := fun k x => c k [*] T x).
  assert (Hc : forall k, 0 <= c k < 1 /\ 1 - c k = / (INR k + 2)).
  { intro k. pose proof (pos_INR k). unfold c. split; [split; [left; apply Rdiv_lt_0_compat; lra|]|field; lra]. apply (Rmult_lt_reg_r (INR k + 2)); [lra|]. unfold Rdiv. rewrite Rmult_assoc, Rinv_l by lra. lra. }
  destruct (HDsc (fun k x => Tk k x = x)) as [u Hu].
  { intro k. destruct (contract_cv HB (c k) (Tk k) (fun j => Nat.iter j (Tk k) vzero)) as (l & Fl & Ul & _); [apply Hc| |intro j; reflexivity|].
    - intros x y. unfold Tk. replace (c k [*] T x [-] c k [*] T y) with (c k [*] (T x [-] T y)) by vring. rewrite norm_scal, Rabs_right by (apply Rle_ge, Hc). apply Rmult_le_compat_l; [apply Hc|apply HT].
    - exists l. split; [exact Fl|exact Ul]. }
  assert (Hn : forall k, norm (u k) <= M).
  { intro k. rewrite <- (Hu k). unfold Tk. rewrite norm_scal, Rabs_right by (apply Rle_ge, Hc). pose proof (HM (u k)). pose proof (norm_nonneg (T (u k))). destruct (Hc k) as [? _]. nra. }
  destruct (HB u M Hn) as (l & phi & Hphi & Hl). exists l. apply (fix_limit T u phi l HT); auto.
  assert (HM0 : 0 <= M) by (pose proof (HM vzero); pose proof (norm_nonneg (T vzero)); lra).
  apply vanish_cv; [intro; apply norm2_nonneg|]. intros eps He. destruct (archimed_cor1 (eps / (M * M + 1))) as (N & HN & HN0); [apply Rdiv_lt_0_compat; nra|]. exists N. intros n Hnn.
  assert (Hr : u n [-] T (u n) = (- / (INR n + 2)) [*] T (u n)). { rewrite <- (Hu n) at 1. unfold Tk. replace (c n [*] T (u n) [-] T (u n)) with ((- (1 - c n)) [*] T (u n)) by vring. destruct (Hc n) as [_ ->]. reflexivity. }
  rewrite Hr, <- norm_sq, norm_scal. pose proof (pos_INR n) as Hp. rewrite Rabs_left by (pose proof (Rinv_0_lt_compat (INR n + 2) ltac:(lra)); lra).
  apply le_INR in Hnn. set (i := INR n + 2) in *. assert (Hi : 1 <= i) by (unfold i; lra). pose proof (HM (u n)) as G. pose proof (norm_nonneg (T (u n))) as G0.
  assert (G1 : M * M < eps * i). { apply lt_INR in HN0. cbn [INR] in HN0. apply (Rmult_lt_compat_r (INR N * (M * M + 1))) in HN; [|apply Rmult_lt_0_compat; nra]. replace (/ INR N * (INR N * (M * M + 1))) with (M * M + 1) in HN by (field; lra). replace (eps / (M * M + 1) * (INR N * (M * M + 1))) with (eps * INR N) in HN by (field; nra). assert (eps * INR N <= eps * i) by (apply Rmult_le_compat_l; unfold i; lra). lra. }
  replace (- - / i * norm (T (u n)) * (- - / i * norm (T (u n)))) with (norm (T (u n)) * norm (T (u n)) * (/ i * / i)) by (field; lra).
  apply (Rmult_lt_reg_r (i * i)); [nra|]. replace (norm (T (u n)) * norm (T (u n)) * (/ i * / i) * (i * i)) with (norm (T (u n)) * norm (T (u n))) by (field; lra).
  apply Rle_lt_trans with (M * M); [apply Rmult_le_compat; lra|]. nra.
Qed.
Lemma step_nonexp {E : IPS} (f : E -> R) df L tau : convex (etot f) -> 0 < L -> L_smooth f df L -> 0 < tau -> tau * L <= 2 -> nonexp (fun x => x [-] tau [*] df x).
Proof.
  intros Hc HL Hs Ht Hb x y. apply norm_le_of2. pose proof (cocoercive f df L y x HL (L_smooth_convex f df L Hc Hs)) as H. set (d := df x [-] df y) in *. set (w := x [-] y) in *.
  replace (x [-] tau [*] df x [-] (y [-] tau [*] df y)) with (w [-] tau [*] d) by (unfold w, d; vring).
  assert (Id : norm2 (w [-] tau [*] d) = norm2 w - 2 * tau * << d, w >> + tau * tau * norm2 d) by (iexp; ring). rewrite Id.
  pose proof (norm2_nonneg d) as Hd. assert (Hdw : 0 <= << d, w >>) by (apply (Rmult_le_reg_l L); lra).
  assert (tau * tau * norm2 d <= tau * tau * (L * << d, w >>)) by (apply Rmult_le_compat_l; [nra|exact H]). assert (0 <= tau * (2 - tau * L) * << d, w >>) by (repeat apply Rmult_le_pos; lra). lra.
Qed.
(*! C101_bounded : when is there a limit at all? f convex with an L-Lipschitz gradient, tau <= 2/L, a non-expansive denoiser whose output is bounded
   (as when it clips to the range of an image): x = D(x - tau grad f(x)) has a solution and (x, - tau grad f(x)) is a balanced pair *)
Lemma C101_bounded_l : forall n (f : Vec n -> R) df L tau D M, convex (etot f) -> 0 < L -> L_smooth f df L -> 0 < tau -> tau * L <= 2 -> lipschitz 1 D -> (forall x, norm (D x) <= M) ->
  exists x, D (x [-] tau [*] df x) = x /\ balanced (etot f) tau D x ((- tau) [*] df x).
Proof.
  intros n f df L tau D M Hc HL Hs Ht Hb HD HM. pose proof (step_nonexp f df L tau Hc HL Hs Ht Hb) as HN.
  destruct (bounded_fix (fun x => D (x [-] tau [*] df x)) M (proj1 (proj2 C75_arrays_l) n) (proj2 (proj1 (proj2 C85_arrays_l) n))) as [x Hx].
  - intros x y. cbv beta. eapply Rle_trans; [apply HD|]. rewrite Rmult_1_l. apply HN.
  - intro x. apply HM.
  - exists x. split; [exact Hx|]. apply C101_same_l with (df := df); auto. intro y. apply Hs.
Qed.
(*! C101_tutorial : plug-and-play on L2(Op=A, b=b, sigma=s) with s |A v|^2 <= L |v|^2 and tau < 2/L (the tutorial takes tau = 1/L for both solvers), any
   denoiser that is firmly non-expansive at tau with a bounded output, any start: ProximalGradient (epsg = 1, no acceleration) and ADMM, in either
   order, never raise, and both converge to solutions of the same equation x = D(x - tau s A^T (A x - b)) *)
Lemma C101_tutorial_l : forall n (F : IPS) fuel (proxf : Op (Vec n)) (A : linop (Vec n) F) b s L den D M dims x0 tau beta niterback z0 (gfirst : bool),
  is_L2 proxf A b s -> 0 < s -> 0 < L -> (forall v, s * norm2 (A v) <= L * norm2 v) -> 0 < tau -> tau * L < 2 ->
  denoises den dims tau D -> firm D -> (forall x, norm (D x) <= M) ->
  let eqn := fun x => D (x [-] tau [*] (s [*] ladj A (A x [-] b))) = x in
  (exists xs x, (forall k, PlugAndPlay (S fuel) (fun pf pg x0 => ProximalGradient pf pg x0 [1] (Some tau) false beta 1 (S k) niterback None None) proxf den dims x0 = Ok (xs (S k), map xs (seq 1 (S k)))) /\ eqn x /\ vcv xs x) /\
  (exists xs zs x, (forall k, exists tr, PlugAndPlay_default (S fuel) proxf den dims x0 tau k z0 gfirst = Ok (xs k, zs k, tr)) /\ eqn x /\ vcv xs x /\ vcv zs x).
Proof.
  intros n F fuel proxf A b s L den D M dims x0 tau beta nb z0 gfirst Hf Hs HL HA Ht HtL Hden HD HM eqn.
  pose proof (L2_smooth_op proxf A b s L Hs HL Hf HA) as Hsm. destruct (L2_facts proxf A b s Hs Hf) as (Hp & _ & _). pose proof Hsm as (_ & _ & Hcv & _ & HLs).
  assert (Heq : forall x, eqn x <-> D (x [-] tau [*] dsfit A b s x) = x) by (intro x; unfold eqn, dsfit; tauto).
  destruct (C101_bounded_l n (sfit A b s) (dsfit A b s) L tau D M Hcv HL HLs Ht ltac:(lra)) as (x & Hx & Hb); [intros u v; rewrite Rmult_1_l; apply (firm_nonexp D HD)|exact HM|]. split.
  - destruct (C101_proximal_gradient_l n fuel proxf (sfit A b s) (dsfit A b s) L den D dims x0 1 tau beta 1 nb None Hsm) as (xs & l & _ & Hr & Hl & Hc); auto; try lra; [left; reflexivity|rewrite Rmult_1_l; exact Hden|eauto|].
    exists xs, l. split; [exact Hr|]. split; [apply Heq; exact Hl|exact Hc].
  - destruct (C101_admm_l n fuel proxf (etot (sfit A b s)) den D dims x0 tau z0 gfirst Hp Hcv Ht Hden HD) as (xs & zs & l & u & Hr & Hl & Hc & Hc'); [eauto|].
    exists xs, zs, l. split; [exact Hr|]. split; [|auto]. apply Heq. apply (proj1 C101_same_l (Vec n) (sfit A b s) (dsfit A b s) D tau l u Hcv) in Hl; [apply Hl|intro y; apply HLs|exact Ht].
Qed.

(** ** a denoiser that is not a proximal map, and one that is only non-expansive *)
Definition vec2 (a b : R) : Vec 2 := vtab 2 (fun i => match i with O => a | _ => b end).
Lemma inner2 (x y : Vec 2) : << x, y >> = get x 0 * get y 0 + get x 1 * get y 1.
Proof. rewrite vec_inner. cbn [RS]. ring. Qed.
Lemma turn2_firm : firm turn2.
Proof.
  intros x y. unfold norm2. rewrite !inner2, !get_sub by lia. unfold turn2. rewrite !get_vtab by lia. cbv beta iota. nra.
Qed.
Lemma turn2_vec a b : turn2 (vec2 a b) = vec2 ((a - b) / 2) ((a + b) / 2).
Proof. unfold turn2, vec2. rewrite !get_vtab by lia. reflexivity. Qed.
(*! C101_more : these results are not covered by the convergence of ADMM on min f + g: there is a firmly non-expansive map of the plane that is not the
   proximal map of any convex function, for any step *)
Lemma C101_more_l : exists D : Vec 2 -> Vec 2, firm D /\ forall g t, convex g -> 0 < t -> ~ (forall x, is_prox g t x (D x)).
Proof.
  exists turn2. split; [exact turn2_firm|]. intros g t Hg Ht H.
  assert (K : forall a b c d, eval g (vec2 ((a - b) / 2) ((a + b) / 2)) + / t * ((a - (a - b) / 2) * ((c - d) / 2 - (a - b) / 2) + (b - (a + b) / 2) * ((c + d) / 2 - (a + b) / 2)) <= eval g (vec2 ((c - d) / 2) ((c + d) / 2))).
  { intros a b c d. pose proof (H (vec2 a b)) as H1. pose proof (H (vec2 c d)) as [H2 _]. rewrite turn2_vec in *. rewrite prox_iff_subgrad in H1 by auto. destruct H1 as [_ H1]. specialize (H1 _ H2).
    rewrite inner_scal_l, inner2, !get_sub in H1 by lia. unfold vec2 in H1 at 2 3 4 5 6 7 8 9. rewrite !get_vtab in H1 by lia. exact H1. }
  pose proof (K 0 0 1 (-1)) as K1. pose proof (K 1 (-1) (-1) (-1)) as K2. pose proof (K (-1) (-1) 0 0) as K3. pose proof (Rinv_0_lt_compat t Ht). lra.
Qed.

(*! C101_refuted : non-expansive is not enough: with the denoiser D(x) = -x, which is non-expansive, and f = 0, which make (0, 0) a balanced pair, the z
   returned by plug-and-play ADMM with niter = n is (-1)^n x0, in either order, for every x0; for x0 <> 0 it does not converge *)
Lemma C101_refuted_l : forall m fuel (proxf : Op (Vec m)) (x0 : Vec m) tau (gfirst : bool), impl_prox proxf (etot (fun _ => 0)) -> 0 < tau ->
  let D := fun x : Vec m => (-1) [*] x in
  lipschitz 1 D /\ balanced (etot (fun _ => 0)) tau D vzero vzero /\
  (forall n, exists x tr, PlugAndPlay_default (S fuel) proxf (fun x _ => Ok (D x)) [m] x0 tau n None gfirst = Ok (x, (-1) ^ n [*] x0, tr)) /\
  (x0 <> vzero -> ~ exists l, vcv (fun n => (-1) ^ n [*] x0) l).
Proof.
  intros m fuel proxf x0 tau gfirst Hpf Ht D. assert (Hz : forall v p : Vec m, is_prox (etot (fun _ => 0)) tau v p -> p = v).
  { intros v p [_ H]. specialize (H v I). cbn [etot eval] in H. replace (v [-] v) with (vzero : Vec m) in H by vring. assert (N0 : norm2 (p [-] v) = 0).
    { unfold norm2 at 2 in H. rewrite inner_zero_l, Rmult_0_r in H. pose proof (norm2_nonneg (p [-] v)). assert (0 < / (2 * tau)) by (apply Rinv_0_lt_compat; lra). assert (/ (2 * tau) * norm2 (p [-] v) <= 0) by lra. nra. }
    rewrite <- norm_sq in N0. apply Rmult_integral in N0. assert (N1 : norm (p [-] v) = 0) by tauto. apply norm_eq0 in N1. replace p with ((p [-] v) [+] v) by vring. rewrite N1. vring. }
  assert (Hden : denoises (fun (x : Vec m) (_ : R) => Ok (D x)) [m] tau D) by (split; [cbn [fold_right]; lia|reflexivity]).
  destruct (prox_map proxf _ tau Hpf Ht) as (P & EP & HP). assert (Pid : forall v, P v = v) by (intro v; apply Hz, HP).
  split; [|split; [|split]].
  - intros x y. unfold D. replace ((-1) [*] x [-] (-1) [*] y) with ((-1) [*] (x [-] y)) by vring. rewrite norm_scal, Rabs_left by lra. lra.
  - split; [|unfold D; vring]. pose proof (HP (vzero [-] vzero)) as H. rewrite Pid in H. replace (vzero [-] vzero) with (vzero : Vec m) in * by vring. exact H.
  - destruct (admm_maps proxf (obj (S fuel) (denoise_body (fun x _ => Ok (D x)) [m])) P D tau EP (denoise_prox fuel _ [m] tau D Ht Hden) (Some x0) None gfirst x0 x0 eq_refl) as (xs & zs & us & X0 & Z0 & U0 & Hrun & HR).
    assert (Hzs : forall n, zs n = (-1) ^ n [*] x0).
    { destruct gfirst.
      - assert (G : forall n, us n = vzero /\ xs n = (-1) ^ n [*] x0 /\ zs n = (-1) ^ n [*] x0).
        { induction n as [|n (I1 & I2 & I3)]; [rewrite X0, Z0, U0; cbn [pow]; repeat split; vring|]. destruct (HR n) as (H3 & H1 & H2). rewrite Pid in H2. unfold D in H1. rewrite I1, I2 in *. cbn [pow].
          assert (Ez : zs (S n) = (-1 * (-1) ^ n) [*] x0) by (rewrite H1; vring). rewrite Ez in *. assert (Ex : xs (S n) = (-1 * (-1) ^ n) [*] x0) by (rewrite H2; vring). rewrite Ex in *. split; [rewrite H3; vring|auto]. }
        intro n. apply G.
      - induction n as [|n IH]; [rewrite Z0; cbn [pow]; vring|]. destruct (HR n) as (H3 & H1 & H2). rewrite Pid in H1. rewrite H2, H1, IH. unfold D. cbn [pow]. vring. }
    intro n. destruct (Hrun n) as [tr Hr]. exists (xs n), tr. rewrite <- Hzs. exact Hr.
  - intros Hx [l Hl]. assert (Hp : 0 < norm x0). { pose proof (norm_nonneg x0). destruct (Req_dec (norm x0) 0) as [H0|H0]; [apply norm_eq0 in H0; contradiction|lra]. }
    destruct (Hl (norm x0) Hp) as [N HN]. pose proof (HN N (Nat.le_refl N)) as H1. pose proof (HN (S N) (Nat.le_succ_diag_r N)) as H2. cbv beta in *.
    pose proof (tri3 ((-1) ^ N [*] x0) l ((-1) ^ S N [*] x0)) as H3. rewrite (norm_sub_sym l) in H3. replace ((-1) ^ N [*] x0 [-] (-1) ^ S N [*] x0) with ((2 * (-1) ^ N) [*] x0) in H3 by (cbn [pow]; vring).
    rewrite norm_scal, Rabs_mult, pow_1_abs, (Rabs_right 2) in H3 by lra. lra.
Qed.
(*!ex C101_example : the hypotheses are satisfiable. A turn of the plane by 45 degrees that divides lengths by sqrt 2 is a firmly non-expansive denoiser, and
   an object L2(b=0) with it has the balanced pair (0, 0); the residual of x - turn(x)/4 is small enough for C101_residual with tau = 1; clipping to [0, 1] is
   firmly non-expansive and bounded, and there is an object L2 with an operator A and data b for C101_tutorial; f = 0 has an operator *)
Lemma C101_example_l : denoises (fun x (_ : R) => Ok (turn2 x)) [2%nat] 1 turn2 /\ firm turn2 /\
  (exists o, is_L2b o (vzero : Vec 2) 1 /\ impl_prox o (etot (fun x => 1 / 2 * norm2 x)) /\ strongly_convex 1 (etot (fun x : Vec 2 => 1 / 2 * norm2 x)) /\
     convex (etot (fun x : Vec 2 => 1 / 2 * norm2 x)) /\ balanced (etot (fun x => 1 / 2 * norm2 x)) 1 turn2 vzero vzero) /\
  residual_lip (1 / 4) (fun x => x [-] (1 / 4) [*] turn2 x) /\ 0 <= 1 / 4 < 1 * 1 / (1 + 1 * 1) /\
  (forall n, firm (@clip01 n) /\ forall x : Vec n, norm (clip01 x) <= INR n) /\
  (forall b : Vec 1, exists f : Op (Vec 2), is_L2 f sumop b 1 /\ forall v, 1 * norm2 (sumop v) <= 2 * norm2 v) /\
  (forall m, exists o : Op (Vec m), impl_prox o (etot (fun _ => 0))).
Proof.
  assert (Hn2 : forall x : Vec 2, bfit vzero 1 x = 1 / 2 * norm2 x) by (intro x; unfold bfit; replace (x [-] vzero) with x by vring; reflexivity).
  split; [split; [reflexivity|intros; reflexivity]|]. split; [exact turn2_firm|]. split; [|split; [|split; [lra|split; [|split]]]].
  - assert (Hobj : exists o, is_L2b o (vzero : Vec 2) 1).
    { set (cfg := mkL2 (E:=Vec 2) (F:=Vec 2) (OnlyB vzero) None 1 true (fun _ => 10%nat) true Legacy DenseDefault).
      exists (obj 2 (l2_body (gs_ext 2 (Vec 2)) cfg (l2_init _ cfg 1 None) (fun _ _ => l2_init _ cfg 1 None))), (gs_ext 2 (Vec 2)), cfg, None, (l2_init _ cfg 1 None), (fun _ _ => l2_init _ cfg 1 None).
      split; [apply gs_ext_exact|]. split; [reflexivity|]. split; [reflexivity|]. split; [apply reached_init|]. split; [intros; apply reached_init|reflexivity]. }
    destruct Hobj as [o Ho]. exists o. split; [exact Ho|]. destruct (L2b_facts o vzero 1 ltac:(lra) Ho) as [Hp _].
    assert (Hp' : impl_prox o (etot (fun x => 1 / 2 * norm2 x))).
    { intros x t Ht. destruct (Hp x t Ht) as (p & Ep & [Hd Hm]). exists p. split; [exact Ep|]. split; [exact I|]. intros y _. specialize (Hm y I). cbn [etot eval] in *. rewrite !Hn2 in Hm. exact Hm. }
    assert (Hsc : strongly_convex 1 (etot (fun x : Vec 2 => 1 / 2 * norm2 x))). { intros x y t _ _ Ht. split; [exact I|]. cbn [eval etot]. lra. }
    split; [exact Hp'|]. split; [exact Hsc|]. split; [apply (strong_convex _ 1); [lra|exact Hsc]|]. split.
    + split; [exact I|]. intros y _. cbn [etot eval]. replace (vzero [-] vzero) with (vzero : Vec 2) by vring. replace (vzero [-] vzero) with (vzero : Vec 2) by vring. pose proof (norm2_nonneg y). pose proof (norm2_nonneg (y [-] vzero)).
      assert (Z : norm2 (vzero : Vec 2) = 0) by (unfold norm2; apply inner_zero_l). rewrite Z. assert (0 <= / (2 * 1) * norm2 (y [-] vzero)) by (apply Rmult_le_pos; [left; apply Rinv_0_lt_compat; lra|assumption]). lra.
    + apply vec_ext. intros i Hi. unfold turn2. rewrite get_vtab by exact Hi. replace (vzero [+] vzero) with (vzero : Vec 2) by vring. replace (vzero : Vec 2) with (0 [*] (vzero : Vec 2)) by vring. rewrite !get_scal by lia. destruct i; lra.
  - apply (proj2 (proj2 (proj2 (proj2 (proj2 (proj2 (proj2 (C101_denoisers_l (Vec 2))))))))). { intros x y. rewrite Rmult_1_l. apply (firm_nonexp _ turn2_firm). } lra.
  - intro n. split.
    + intros x y. unfold norm2. rewrite !vec_inner. apply RS_le. intros i Hi. rewrite !get_sub by exact Hi. unfold clip01. rewrite !get_vtab by exact Hi. generalize (get x i) (get y i). intros a b.
      unfold Rmax, Rmin. repeat destruct (Rle_dec _ _); nra.
    + intro x. apply Rsqr_incr_0; [|apply norm_nonneg|apply pos_INR]. unfold Rsqr. rewrite norm_sq. unfold norm2. rewrite vec_inner. apply Rle_trans with (RS n (fun _ => 1)).
      * apply RS_le. intros i Hi. unfold clip01. rewrite !get_vtab by exact Hi. generalize (get x i). intro a. unfold Rmax, Rmin. repeat destruct (Rle_dec _ _); nra.
      * rewrite RS_const. destruct n as [|n]; [cbn [INR]; lra|]. rewrite S_INR. pose proof (pos_INR n). nra.
  - intro b. eexists. split; [apply (L2_exists 2 (Vec 1) sumop b 1 (mkL2 (WithOp sumop true b) None 1 true (fun _ => 10%nat) true Legacy DenseDefault) None); reflexivity|].
    intro v. rewrite !vec_norm2. cbn [RS sumop lapp]. rewrite !get_vtab by lia. pose proof (Rle_0_sqr (get v 0 - get v 1)). unfold Rsqr in *. lra.
  - intro m. exists (mkOp (fun _ => Ok (VNum 0)) (fun x _ => Ok x) (fun x _ => Ok x) (fun _ => Ok None) false). intros x t Ht. exists x. split; [reflexivity|]. split; [exact I|]. intros y _. cbn [etot eval].
    replace (x [-] x) with (vzero : Vec m) by vring. assert (Z : norm2 (vzero : Vec m) = 0) by (unfold norm2; apply inner_zero_l). rewrite Z. pose proof (norm2_nonneg (y [-] x)). assert (0 <= / (2 * t) * norm2 (y [-] x)) by (apply Rmult_le_pos; [left; apply Rinv_0_lt_compat; lra|assumption]). lra.
Qed.
