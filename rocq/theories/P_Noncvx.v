(** * Non-convex penalties: the solvers descend and their limit points are stationary *)
From Coq Require Import String ZArith Psatz FunctionalExtensionality.
From Verif Require Import Base Space Spec Cplx ConvexFacts Smooth VSum MatFacts M_ProxOp SpecOps P_ProxOp M_Norms P_Norms M_L1 M_L2 M_Pen S_Pen S_Pen2 S_Pen3 P_L1 P_L2 P_Pen P_Pen2 P_Pen3 M_L0 S_L0 P_L0 P_QE P_Cx2 M_PALM S_PALM P_PALM S_Lasso P_Lasso M_Loop LoopFacts SeqFacts SeqConv M_PG M_Split SplitMath P_PG P_PG2 P_PG3 P_Split2 P_Breg S_Seq Compact Fejer IterMath S_Iter S_PGB P_Iter S_Exist ExistMath P_Exist S_Breg2 P_Breg2 NoncvxMath.
From Verif Require Export S_Noncvx.
Open Scope result_scope.
Open Scope R_scope.

(*! C94_stationary : stationary points (first-order optimality without convexity of g, at step t): a global minimiser of f + g is stationary for
   every t <= 1/L; stationarity at t implies it at every smaller t; if f and g are convex a point is stationary exactly when it is a global
   minimiser of f + g *)
Lemma C94_stationary_l : forall (E : IPS) f (df : E -> E) L (g : efun E) t x, 0 < t ->
  (L_smooth f df L -> t * L <= 1 -> is_min (eadd (etot f) g) x -> stationary df g t x) /\
  (forall s, 0 < s <= t -> stationary df g t x -> stationary df g s x) /\
  (convex (etot f) -> convex g -> is_grad f x (df x) -> (stationary df g t x <-> is_min (eadd (etot f) g) x)).
Proof.
  intros E f df L g t x Ht. split; [|split].
  - intros Hf HL [[_ Hx] Hm]. split; [exact Hx|]. intros y Hy. specialize (Hm y (Logic.conj I Hy)). cbn [eval eadd etot] in Hm. pose proof (descent_lemma f df L x y Hf).
    assert (L / 2 * norm2 (y [-] x) <= / (2 * t) * norm2 (y [-] x)). { apply Rmult_le_compat_r; [apply norm2_nonneg|]. apply (Rmult_le_reg_l (2 * t)); [lra|]. rewrite Rinv_r by lra. lra. }
    lra.
  - intros s Hs [Hx H]. split; [exact Hx|]. intros y Hy. specialize (H y Hy). assert (/ (2 * t) * norm2 (y [-] x) <= / (2 * s) * norm2 (y [-] x)). { apply Rmult_le_compat_r; [apply norm2_nonneg|]. apply Rinv_le_contravar; lra. }
    lra.
  - intros Hf Hg Hd. rewrite stationary_prox by exact Ht. split.
    + intro H. apply (prox_subgrad g t _ _ Hg Ht) in H. replace (/ t [*] (x [-] t [*] df x [-] x)) with (vopp (df x)) in H by (vext w; field; lra). apply (min_sum_subgrad f g x (df x)); auto.
    + intro H. apply (min_sum_subgrad_grad f g x (df x) Hd Hg) in H. apply (subgrad_prox g t); [exact Ht|]. replace (/ t [*] (x [-] t [*] df x [-] x)) with (vopp (df x)) by (vext w; field; lra). exact H.
Qed.

Lemma norm1 (a b : R) : norm (vsub (E:=R_IPS) a b) = Rabs (a - b).
Proof. unfold norm, norm2, vsub. cbn. rewrite <- sqrt_Rsqr_abs. f_equal. unfold Rsqr. ring. Qed.
Lemma pgnc_run {E : IPS} (proxf proxg : Op E) df g eps x0 tau beta nb accel : (forall x, o_grad proxf x = Ok (Some (df x))) -> prox_at proxg g (eps * tau) -> no_accel accel ->
  exists xs, xs 0%nat = x0 /\ (forall n, ProximalGradient proxf proxg x0 [eps] (Some tau) false beta 1 (S n) nb accel None = Ok (xs (S n), map xs (seq 1 (S n)))) /\
    forall k, o_prox proxg (xs k [-] tau [*] df (xs k)) (eps * tau) = Ok (xs (S k)) /\ is_prox g (eps * tau) (xs k [-] tau [*] df (xs k)) (xs (S k)).
Proof.
  intros Hgr Hp Ha.
  set (body := fun (j : nat) (s : pg_state E) =>
     xt <- pg_prox_step proxf proxg false beta 1 nb eps (pg_x s) (pg_y s) (pg_tau s) ;;
     let x := fst xt in
     let t' := if accel_is accel "fista" then (1 + sqrt (1 + 4 * (pg_t s * pg_t s))) / 2 else pg_t s in
     let omega := if accel_is accel "vandenberghe" then INR j / (INR j + 3) else if accel_is accel "fista" then (pg_t s - 1) / t' else 0 in
     let y := x [+] omega [*] (x [-] pg_x s) in
     Ok (PG x y t' (snd xt) (pg_pfg s) (pg_tr s ++ [x]), false)).
  destruct (loop_seq body (fun _ s => pg_tau s = tau /\ pg_y s = pg_x s)
     (fun _ s s' => (o_prox proxg (pg_x s [-] tau [*] df (pg_x s)) (eps * tau) = Ok (pg_x s') /\ is_prox g (eps * tau) (pg_x s [-] tau [*] df (pg_x s)) (pg_x s')) /\ pg_tr s' = pg_tr s ++ [pg_x s'])
     (PG x0 x0 1 tau None [])) as (st & S0 & Hrun & _ & HR); [auto| |].
  { intros j s [Hta Hy]. destruct (Hp (pg_x s [-] tau [*] df (pg_x s))) as (p & Ep & Hpp). unfold body, pg_prox_step, get_grad.
    destruct (Reqb_spec 1 1) as [[_ ->]|[H1 _]]; [|lra]. rewrite Hy, Hta, Hgr. cbn [bind]. rewrite Ep. cbn [bind fst snd]. eexists. split; [reflexivity|]. cbn [pg_x pg_tr pg_tau pg_y]. split; [split; [split; [reflexivity|exact Hpp]|reflexivity]|split; [reflexivity|]].
    destruct Ha as [->| ->]; cbn [accel_is]; [vring|]. cbn. vring. }
  set (xs := fun k => pg_x (st k)). exists xs. split; [unfold xs; rewrite S0; reflexivity|]. split; [|intro k; apply HR].
  intro n. unfold ProximalGradient. cbn [pg_epsg bind]. assert (Hk : accel_known accel = true) by (destruct Ha as [->| ->]; reflexivity). rewrite Hk.
  rewrite (for_loop_ext _ body); [|intros j s Hj; unfold pg_body, getitem; rewrite nth_error_repeat by lia; reflexivity].
  rewrite Hrun. cbn [bind fst snd]. do 2 f_equal. rewrite (trace_seq st pg_tr (fun k => pg_x (st (S k)))); [|rewrite S0; reflexivity|intro j; apply HR]. rewrite <- seq_shift, map_map. reflexivity.
Qed.

(*! C94_proximal_gradient : f any function with L-Lipschitz gradient (convex or not), g any function, convex or not, whose prox is exact at the
   step epsg tau used, tau < 1/L, epsg > 0, eta = 1, no acceleration: ProximalGradient returns for every niter, f + epsg g drops by at
   least (1/(2 tau) - L/2) times the squared step in every iteration; if f + epsg g is bounded below by m, among any n consecutive
   iterations one moves by at most the square root of (F(x_i) - m) / (n (1/(2 tau) - L/2)) and the steps vanish; if moreover g is closed every limit point of the iterates is
   stationary, and in finite dimension with bounded level sets the iterates approach the set of stationary points *)
Lemma C94_proximal_gradient_l : forall (E : IPS) (proxf proxg : Op E) f df L g eps x0 tau beta niterback accel,
  L_smooth f df L -> (forall x, o_grad proxf x = Ok (Some (df x))) -> 0 < eps -> 0 < tau -> tau * L < 1 -> prox_at proxg g (eps * tau) -> no_accel accel ->
  let F := fun x => f x + eps * eval g x in let c := / (2 * tau) - L / 2 in
  0 < c /\
  exists xs, xs 0%nat = x0 /\ (forall n, ProximalGradient proxf proxg x0 [eps] (Some tau) false beta 1 (S n) niterback accel None = Ok (xs (S n), map xs (seq 1 (S n)))) /\
    (forall n, edom g (xs (S n))) /\
    (forall n, edom g (xs n) -> F (xs (S n)) + c * norm2 (xs (S n) [-] xs n) <= F (xs n)) /\
    (forall m, (forall y, edom g y -> m <= F y) ->
      (forall i n, edom g (xs i) -> (n <> 0)%nat -> exists j, (i <= j < i + n)%nat /\ c * INR n * norm2 (xs (S j) [-] xs j) <= F (xs i) - m) /\
      Un_cv (fun n => norm (xs (S n) [-] xs n)) 0 /\
      (closed g -> (forall l, cluster xs l -> stationary df (escal eps g) tau l) /\
        (bw E -> level_bounded (eadd (etot f) (escal eps g)) -> approaches (stationary df (escal eps g) tau) xs))).
Proof.
  intros E proxf proxg f df L g eps x0 tau beta nb accel Hf Hgr He Ht HL Hp Ha F c. split; [apply pgnc_c; assumption|].
  destruct (pgnc_run proxf proxg df g eps x0 tau beta nb accel Hgr Hp Ha) as (xs & X0 & Xr & Xs). exists xs.
  assert (Hx : forall k, is_prox (escal eps g) tau (xs k [-] tau [*] df (xs k)) (xs (S k))) by (intro k; apply prox_escal; auto; apply Xs).
  split; [exact X0|]. split; [exact Xr|split; [|split]].
  - intro n. apply (Hx n).
  - intros n Hd. exact (pgnc_step f df L tau (escal eps g) xs Hf Ht Hx n Hd).
  - intros m Hm. pose proof (pgnc_vanish f df L tau (escal eps g) xs Hf Ht HL Hx m Hm) as Hv. split; [|split].
    + intros i n Hi Hn. exact (pgnc_small f df L tau (escal eps g) xs Hf Ht HL Hx m Hm i n Hi Hn).
    + assert (Z : vcv (fun n => xs (S n) [-] xs n) vzero). { apply vcv_iff2. eapply Un_cv_ext; [|exact Hv]. intro k. cbn beta. f_equal. vring. }
      intros e He'. destruct (Z e He') as [N HN]. exists N. intros n Hn. specialize (HN n Hn). unfold R_dist. rewrite Rminus_0_r, Rabs_right by (apply Rle_ge, norm_nonneg). replace (xs (S n) [-] xs n) with (xs (S n) [-] xs n [-] vzero) by vring. exact HN.
    + intro Hc. assert (Hcl : forall l, cluster xs l -> stationary df (escal eps g) tau l) by (intros l Hl; apply (pgnc_cluster f df L tau (escal eps g) xs Hf Ht Hx l); auto; apply closed_scal; auto).
      split; [exact Hcl|]. intros HB Hlev. destruct (pgnc_bounded f df L tau (escal eps g) xs Hf Ht HL Hx Hlev) as [M HM]. apply (approach_cluster _ xs M); auto.
Qed.

Lemma signs_prox : forall t (x : R), 0 < t -> is_prox signs t x (if Rltb x 0 then -1 else 1).
Proof.
  intros t x Hp. apply (proj_prox (E:=R_IPS)); [exact Hp|]. unfold is_proj.
  destruct (Rltb_spec x 0) as [[H ->]|[H ->]]; (split; [auto|]); intros y Hy; change R in (type of y); unfold norm, norm2, vsub; cbn; apply sqrt_le_1_alt; destruct Hy as [-> | ->]; nra.
Qed.
Lemma signs_closed : closed signs.
Proof.
  intros l c H. assert (D : edom signs l).
  { change (l = 1 \/ l = -1). change R in (type of l). destruct (Req_dec l 1) as [|N1]; [auto|]. destruct (Req_dec l (-1)) as [|N2]; [auto|]. exfalso.
    destruct (H (Rmin (Rabs (l - 1)) (Rabs (l - -1)))) as (x & X1 & X2 & _); [apply Rmin_pos; apply Rabs_pos_lt; lra|]. rewrite (norm1 x l) in X1.
    change R in (type of x). pose proof (Rmin_l (Rabs (l - 1)) (Rabs (l - -1))). pose proof (Rmin_r (Rabs (l - 1)) (Rabs (l - -1))).
    destruct X2 as [X2|X2]; rewrite X2, Rabs_minus_sym in X1; lra. }
  split; [exact D|]. destruct (H 1 ltac:(lra)) as (x & _ & _ & X3). exact X3.
Qed.

(*! C94_step_refuted : the range tau < 2/L of the convex case is lost: for f = x^2/2 (L = 1), g the indicator of the two points -1 and 1 with
   exact prox, and every tau > 1, ProximalGradient started at 1 returns the points (-1)^n for ever: its steps have length 2 and it never
   settles *)
Lemma C94_step_refuted_l : forall tau beta niterback, 1 < tau ->
  smooth_op (quad1 1) (fun x : R_IPS => 1 / 2 * (x * x)) (fun x : R_IPS => 1 * x) 1 /\ prox_at signs_op signs (1 * tau) /\ closed signs /\
  forall n, ProximalGradient (quad1 1) signs_op (1 : R) [1] (Some tau) false beta 1 (S n) niterback None None = Ok ((-1) ^ S n, map (fun k => (-1) ^ k) (seq 1 (S n))).
Proof.
  intros tau beta nb Ht. pose proof signs_prox as Hp.
  split; [apply quad1_smooth; lra|]. split; [|split].
  - intro x. exists (if Rltb x 0 then -1 else 1). split; [reflexivity|]. apply Hp. lra.
  - apply signs_closed.
  - destruct (pgnc_run (quad1 1) signs_op (fun x : R_IPS => 1 * x) signs 1 (1 : R) tau beta nb None) as (xs & X0 & Xr & Xs); [reflexivity| |left; reflexivity|].
    { intro x. exists (if Rltb x 0 then -1 else 1). split; [reflexivity|]. apply Hp. lra. }
    assert (K : forall k, xs k = (-1) ^ k /\ ((-1) ^ k = 1 \/ (-1) ^ k = -1)).
    { induction k as [|k [IH1 IH2]]; [split; [exact X0|left; reflexivity]|]. destruct (Xs k) as [A _]. cbn [o_prox signs_op] in A. injection A as A. cbn beta in A. cbn [pow]. rewrite <- A.
      rewrite IH1. destruct IH2 as [-> | ->].
      - destruct (Rltb_spec (1 + -1 * (tau * (1 * 1))) 0) as [[_ ->]|[H _]]; [|lra]. split; [change (-1 = -1 * 1)%R; ring|right; ring].
      - destruct (Rltb_spec (-1 + -1 * (tau * (1 * -1))) 0) as [[H _]|[_ ->]]; [lra|]. split; [change (1 = -1 * -1)%R; ring|left; ring]. }
    intro n. rewrite Xr. do 2 f_equal; [apply K|]. apply map_ext. intro k. apply K.
Qed.

(** ** ADMM and Douglas-Rachford *)
Lemma Un_cv_norm {E : IPS} (w : nat -> E) : Un_cv (fun k => norm2 (w k)) 0 -> Un_cv (fun k => norm (w k)) 0.
Proof.
  intros H e He. destruct (H (e * e) ltac:(apply Rmult_lt_0_compat; auto)) as [N HN]. exists N. intros n Hn. specialize (HN n Hn). unfold R_dist in *. rewrite Rminus_0_r in *. rewrite Rabs_right in * by (apply Rle_ge; first [apply norm2_nonneg|apply norm_nonneg]). apply norm_small; assumption.
Qed.
Lemma approaches_close {E : IPS} (P : E -> Prop) (u v : nat -> E) : approaches P u -> Un_cv (fun k => norm (u k [-] v k)) 0 -> approaches P v.
Proof.
  intros H Hc e He. destruct (H (e / 2) ltac:(lra)) as [N1 H1]. destruct (Hc (e / 2) ltac:(lra)) as [N2 H2]. exists (N1 + N2)%nat. intros n Hn. destruct (H1 n ltac:(lia)) as (z & Z1 & Z2). exists z. split; [exact Z1|].
  specialize (H2 n ltac:(lia)). unfold R_dist in H2. rewrite Rminus_0_r, Rabs_right in H2 by (apply Rle_ge, norm_nonneg). replace (v n [-] z) with ((u n [-] z) [+] vopp (u n [-] v n)) by vring.
  pose proof (norm_triangle (u n [-] z) (vopp (u n [-] v n))) as T. replace (norm (vopp (u n [-] v n))) with (norm (u n [-] v n)) in T by (unfold norm; rewrite norm2_opp_nc; reflexivity). lra.
Qed.
Lemma approaches_unshift {E : IPS} (P : E -> Prop) (u : nat -> E) : approaches P (fun k => u (S k)) -> approaches P u.
Proof. intros H e He. destruct (H e He) as [N HN]. exists (S N). intros [|n] Hn; [lia|]. apply HN. lia. Qed.
Lemma cluster_shift {E : IPS} (u : nat -> E) l : cluster u l -> cluster (fun k => u (S k)) l.
Proof.
  intros (phi & Hp & Hl). exists (fun k => pred (phi (S k))). pose proof (strict_inc_ge phi Hp) as Hg. split.
  - intro k. pose proof (Hp (S k)). specialize (Hg (S k)). lia.
  - apply (vcv_ext (fun k => u (phi (S k)))); [intro k; f_equal; specialize (Hg (S k)); lia|]. apply (vcv_shift (fun k => u (phi k))). exact Hl.
Qed.
(** everything about the recursion, from its second state on *)
Lemma sp_all {E : IPS} (f : E -> R) df L tau g (xs zs us : nat -> E) m : L_smooth f df L -> 0 < tau -> 0 <= L -> tau * L < 1 / 2 ->
  (forall k, is_prox g tau (xs k [+] us k) (zs (S k))) -> (forall k, is_prox (etot f) tau (zs (S k) [-] us k) (xs (S k))) -> (forall k, us (S k) = us k [+] xs (S k) [-] zs (S k)) ->
  (forall y, edom g y -> m <= f y + eval g y) ->
  (forall n, edom g (zs (S n))) /\
  (forall n, merit f df g tau (xs (S (S n))) (zs (S (S n))) + ((/ tau - L) / 2 - tau * (L * L)) * norm2 (xs (S (S n)) [-] xs (S n)) <= merit f df g tau (xs (S n)) (zs (S n))) /\
  Un_cv (fun n => norm (xs (S n) [-] xs n)) 0 /\ Un_cv (fun n => norm (xs n [-] zs n)) 0 /\
  (closed g -> (forall l, cluster xs l -> stationary df g tau l) /\
    (bw E -> level_bounded (eadd (etot f) g) -> approaches (stationary df g tau) xs /\ approaches (stationary df g tau) zs)).
Proof.
  intros Hf Ht HL0 HL Hz Hx Hu Hm. assert (HL' : 2 * (tau * L) < 1) by lra.
  set (X := fun k => xs (S k)). set (Z := fun k => zs (S k)). set (U := fun k => us (S k)).
  assert (U0 : U 0%nat = vopp (tau [*] df (X 0%nat))).
  { unfold U, X. pose proof (prox_grad f tau _ _ (df (xs 1%nat)) Ht (proj1 Hf _) (Hx 0%nat)) as G. rewrite Hu. set (d := df (xs 1%nat)) in *. rewrite G. vring. }
  assert (A1 : forall k, is_prox g tau (X k [+] U k) (Z (S k))) by (intro; apply Hz). assert (A2 : forall k, is_prox (etot f) tau (Z (S k) [-] U k) (X (S k))) by (intro; apply Hx). assert (A3 : forall k, U (S k) = U k [+] X (S k) [-] Z (S k)) by (intro; apply Hu).
  split; [intro n; apply (Hz n)|]. split.
  - intro n. apply (sp_step f df L tau g X Z U Hf Ht A1 A2 A3 U0 n). apply (Hz n).
  - destruct (sp_vanish f df L tau g X Z U Hf Ht HL0 HL' A1 A2 A3 U0 m Hm) as [V1 V2].
    assert (V1' : Un_cv (fun n => norm (xs (S n) [-] xs n)) 0). { apply Un_cv_norm. intros e He. destruct (V1 e He) as [N HN]. exists (S N). intros [|n] Hn; [lia|]. apply HN. lia. }
    assert (V2' : Un_cv (fun n => norm (xs n [-] zs n)) 0). { apply Un_cv_norm. intros e He. destruct (V2 e He) as [N HN]. exists (S N). intros [|n] Hn; [lia|]. rewrite norm2_sub_sym. apply HN. lia. }
    split; [exact V1'|]. split; [exact V2'|]. intro Hc.
    assert (Hcl : forall l, cluster X l -> stationary df g tau l) by (intros l Hl; apply (sp_cluster f df L tau g X Z U Hf Ht A1 A2 A3 U0 l); auto).
    split; [intros l Hl; apply Hcl; apply cluster_shift; exact Hl|]. intros HB Hlev. destruct (sp_bounded f df L tau g X Z U Hf Ht HL0 HL' A1 A2 A3 U0 Hlev V2) as [M HM].
    assert (Ax : approaches (stationary df g tau) xs) by (apply approaches_unshift; apply (approach_cluster _ X M); auto; intro k; apply HM).
    split; [exact Ax|]. apply (approaches_close _ xs zs); auto.
Qed.

(*! C94_admm : f any function with L-Lipschitz gradient (convex or not), g any function, convex or not; both prox exact at tau; tau < 1/(2L); f + g
   bounded below; ADMM, in either order, with f given to the argument that is updated second: it returns for every niter, from the first
   iteration on the merit f(x) + <grad f(x), z-x> + g(z) + |x-z|^2/(2 tau) drops by a fixed multiple of the squared step, x_n - z_n tends to 0,
   the steps vanish; if g is closed every limit point is a stationary point of f + g, and in finite dimension with bounded level sets both
   returned vectors approach the set of stationary points *)
Lemma C94_admm_l : forall (E : IPS) (proxs proxn : Op E) f df L g x0 z0 x z tau (gfirst : bool) m,
  L_smooth f df L -> 0 <= L -> 0 < tau -> tau * L < 1 / 2 -> prox_at proxs (etot f) tau -> prox_at proxn g tau ->
  (forall y, edom g y -> m <= f y + eval g y) -> x0z0_init x0 z0 = Ok (x, z) ->
  exists xs zs, (forall n, exists tr, ADMM (if gfirst then proxs else proxn) (if gfirst then proxn else proxs) x0 tau n z0 gfirst = Ok (if gfirst then (xs n, zs n, tr) else (zs n, xs n, tr))) /\
    (forall n, edom g (zs (S n))) /\
    (forall n, merit f df g tau (xs (S (S n))) (zs (S (S n))) + ((/ tau - L) / 2 - tau * (L * L)) * norm2 (xs (S (S n)) [-] xs (S n)) <= merit f df g tau (xs (S n)) (zs (S n))) /\
    Un_cv (fun n => norm (xs (S n) [-] xs n)) 0 /\ Un_cv (fun n => norm (xs n [-] zs n)) 0 /\
    (closed g -> (forall l, cluster xs l -> stationary df g tau l) /\
      (bw E -> level_bounded (eadd (etot f) g) -> approaches (stationary df g tau) xs /\ approaches (stationary df g tau) zs)).
Proof.
  intros E proxs proxn f df L g x0 z0 x z tau gfirst m Hf HL0 Ht HL Hps Hpn Hm Hi.
  destruct (loop_seq (admm_body (if gfirst then proxs else proxn) (if gfirst then proxn else proxs) tau gfirst) (fun _ _ => True) (fun _ s s' => a_u s' = a_u s [+] a_x s' [-] a_z s' /\
     if gfirst then is_prox g tau (a_x s [+] a_u s) (a_z s') /\ is_prox (etot f) tau (a_z s' [-] a_u s) (a_x s')
     else is_prox g tau (a_z s [-] a_u s) (a_x s') /\ is_prox (etot f) tau (a_x s' [+] a_u s) (a_z s')) (AD x z vzero [])) as (st & S0 & Hrun & _ & HR); [exact I| |].
  { intros j s _. unfold admm_body. destruct gfirst.
    - destruct (Hpn (a_x s [+] a_u s)) as (p & -> & Hp). cbn [bind]. destruct (Hps (p [-] a_u s)) as (q & -> & Hq). cbn [bind fst snd]. eexists. split; [reflexivity|]. cbn [a_x a_z a_u]. auto.
    - destruct (Hpn (a_z s [-] a_u s)) as (p & -> & Hp). cbn [bind]. destruct (Hps (p [+] a_u s)) as (q & -> & Hq). cbn [bind fst snd]. eexists. split; [reflexivity|]. cbn [a_x a_z a_u]. auto. }
  destruct gfirst.
  - exists (fun k => a_x (st k)), (fun k => a_z (st k)). split; [intro n; exists (a_tr (st n)); unfold ADMM; rewrite Hi; cbn [bind fst snd]; rewrite Hrun; reflexivity|].
    apply (sp_all f df L tau g (fun k => a_x (st k)) (fun k => a_z (st k)) (fun k => a_u (st k)) m); auto; intro k; destruct (HR k) as (R1 & R2 & R3); auto.
  - exists (fun k => a_z (st k)), (fun k => a_x (st k)). split; [intro n; exists (a_tr (st n)); unfold ADMM; rewrite Hi; cbn [bind fst snd]; rewrite Hrun; reflexivity|].
    apply (sp_all f df L tau g (fun k => a_z (st k)) (fun k => a_x (st k)) (fun k => vopp (a_u (st k))) m); auto; intro k; destruct (HR k) as (R1 & R2 & R3).
    + replace (a_z (st k) [+] vopp (a_u (st k))) with (a_z (st k) [-] a_u (st k)) by vring. exact R2.
    + replace (a_x (st (S k)) [-] vopp (a_u (st k))) with (a_x (st (S k)) [+] a_u (st k)) by vring. exact R3.
    + rewrite R1. vring.
Qed.

(*! C94_douglas_rachford : the same functions and step for DouglasRachfordSplitting with eta = 1, f given to the argument that is updated first
   (proxg when gfirst): the vectors y of successive iterations differ by less and less, every limit point of the returned x is a stationary
   point of f + g, and in finite dimension with bounded level sets the returned x approaches the set of stationary points *)
Lemma C94_douglas_rachford_l : forall (E : IPS) (proxs proxn : Op E) f df L g x0 tau (gfirst : bool) m,
  L_smooth f df L -> 0 <= L -> 0 < tau -> tau * L < 1 / 2 -> prox_at proxs (etot f) tau -> prox_at proxn g tau ->
  (forall y, edom g y -> m <= f y + eval g y) ->
  exists xs ys, (forall n, exists tr, DouglasRachford (if gfirst then proxn else proxs) (if gfirst then proxs else proxn) x0 tau 1 (S n) gfirst = Ok (xs n, ys n, tr)) /\
    Un_cv (fun n => norm (xs (S n) [-] xs n)) 0 /\ Un_cv (fun n => norm (ys (S n) [-] ys n)) 0 /\
    (closed g -> (forall l, cluster xs l -> stationary df g tau l) /\
      (bw E -> level_bounded (eadd (etot f) g) -> approaches (stationary df g tau) xs)).
Proof.
  intros E proxs proxn f df L g x0 tau gfirst m Hf HL0 Ht HL Hps Hpn Hm.
  set (val := fun o v => match o_prox o v tau with Ok p => p | Err _ => (vzero : E) end).
  assert (H1 : forall v, o_prox proxs v tau = Ok (val proxs v) /\ is_prox (etot f) tau v (val proxs v)) by (intro v; unfold val; destruct (Hps v) as (p & -> & Hq); auto).
  assert (H2 : forall v, o_prox proxn v tau = Ok (val proxn v) /\ is_prox g tau v (val proxn v)) by (intro v; unfold val; destruct (Hpn v) as (p & -> & Hq); auto).
  set (X := fun y => val proxs y). set (P := fun y => val proxn (2 [*] X y [-] y)).
  destruct (loop_seq (dr_body (if gfirst then proxn else proxs) (if gfirst then proxs else proxn) tau 1 gfirst) (fun _ _ => True) (fun _ s s' => d_x s' = Some (X (d_y s)) /\ d_y s' = d_y s [+] 1 [*] (P (d_y s) [-] X (d_y s))) (DR None x0 [])) as (st & S0 & Hrun & _ & HR); [exact I| |].
  { intros j s _. unfold dr_body. unfold X, P. pose proof (H1 (d_y s)) as [A _]. pose proof (H2 (2 [*] X (d_y s) [-] d_y s)) as [B _]. unfold X in B. destruct gfirst; rewrite A; cbn [bind]; rewrite B; cbn [bind fst snd];
      (eexists; split; [reflexivity|]; cbn [d_x d_y]; auto). }
  set (y := fun k => d_y (st k)). set (xs := fun k => X (y k)). set (zs := fun k => match k with O => X (y 0%nat) | S q => P (y q) end). set (us := fun k => xs k [-] y k).
  assert (Hy : forall k, y (S k) = y k [+] P (y k) [-] X (y k)) by (intro k; unfold y; destruct (HR k) as [_ ->]; vring).
  destruct (sp_all f df L tau g xs zs us m) as (B1 & B2 & B3 & B4 & B5); auto.
  { intro k. cbn [zs]. unfold us. replace (xs k [+] (xs k [-] y k)) with (2 [*] X (y k) [-] y k) by (unfold xs; vring). apply H2. }
  { intro k. cbn [zs]. replace (P (y k) [-] us k) with (y (S k)) by (rewrite Hy; unfold us, xs; vring). apply H1. }
  { intro k. cbn [zs]. unfold us. rewrite Hy. unfold xs. vring. }
  exists xs, (fun k => y (S k)). split; [|split; [exact B3|split]].
  - intro n. exists (d_tr (st (S n))). unfold DouglasRachford. rewrite Hrun. cbn [bind fst snd]. destruct (HR n) as [-> _]. reflexivity.
  - assert (Hyy : forall n, y (S (S n)) [-] y (S n) = (zs (S (S n)) [-] xs (S (S n))) [+] (xs (S (S n)) [-] xs (S n))) by (intro n; rewrite (Hy (S n)); cbn [zs]; unfold xs; vring).
    intros e He. destruct (B3 (e / 2) ltac:(lra)) as [N1 G1]. destruct (B4 (e / 2) ltac:(lra)) as [N2 G2]. exists (N1 + N2)%nat. intros n Hn. specialize (G1 (S n) ltac:(lia)). specialize (G2 (S (S n)) ltac:(lia)). unfold R_dist in *. rewrite Rminus_0_r in *. rewrite Rabs_right in * by (apply Rle_ge, norm_nonneg).
    rewrite Hyy. pose proof (norm_triangle (zs (S (S n)) [-] xs (S (S n))) (xs (S (S n)) [-] xs (S n))) as T.
    replace (norm (zs (S (S n)) [-] xs (S (S n)))) with (norm (xs (S (S n)) [-] zs (S (S n)))) in T by (unfold norm; f_equal; apply norm2_sub_sym). lra.
  - intro Hc. destruct (B5 Hc) as [C1 C2]. split; [exact C1|]. intros HB Hl. apply (C2 HB Hl).
Qed.

(*! C94_hqs : f and g any closed functions, convex or not, with exact prox at the one step tau: HQS returns for every niter, its penalised
   objective f(x) + g(z) + |x-z|^2/(2 tau) never increases, and every limit point (a, b) of the returned pairs is optimal in each block: a is the
   proximal point of f at b and b that of g at a; in finite dimension with bounded level sets the pairs approach the set of such pairs *)
Lemma C94_hqs_l : forall (E : IPS) (proxf proxg : Op E) f g x0 z0 x z tau (gfirst : bool),
  0 < tau -> prox_at proxf f tau -> prox_at proxg g tau -> closed f -> closed g -> x0z0_init x0 z0 = Ok (x, z) ->
  let J := mkEfun (E := Prod_IPS E E) (fun p => edom f (fst p) /\ edom g (snd p)) (fun p => eval f (fst p) + eval g (snd p) + / (2 * tau) * norm2 (fst p [-] snd p)) in
  let best := fun p : Prod_IPS E E => is_prox f tau (snd p) (fst p) /\ is_prox g tau (fst p) (snd p) in
  exists ps : nat -> Prod_IPS E E, (forall n, exists tr, HQS proxf proxg x0 [tau] n z0 gfirst = Ok (fst (ps n), snd (ps n), tr)) /\
    (forall n, edom J (ps (S n))) /\ (forall n, edom J (ps n) -> eval J (ps (S n)) <= eval J (ps n)) /\
    (forall l, cluster ps l -> best l) /\ (bw E -> level_bounded J -> approaches best ps).
Proof.
  intros E proxf proxg f g x0 z0 x z tau gfirst Ht Hpf Hpg Cf Cg Hi J best.
  set (body := fun (j : nat) (s : hqs_state E) => xz <- (if gfirst then z <- o_prox proxg (h_x s) tau ;; x <- o_prox proxf z tau ;; Ok (x, z)
         else x <- o_prox proxf (h_z s) tau ;; z <- o_prox proxg x tau ;; Ok (x, z)) ;;
         Ok (HQ (fst xz) (snd xz) (h_tr s ++ [xz]), false)).
  destruct (loop_seq body (fun _ _ => True) (fun _ s s' => if gfirst then is_prox g tau (h_x s) (h_z s') /\ is_prox f tau (h_z s') (h_x s')
     else is_prox f tau (h_z s) (h_x s') /\ is_prox g tau (h_x s') (h_z s')) (HQ x z [])) as (st & S0 & Hrun & _ & HR); [exact I| |].
  { intros j s _. unfold body. destruct gfirst.
    - destruct (Hpg (h_x s)) as (p & -> & Hp). cbn [bind]. destruct (Hpf p) as (q & -> & Hq). cbn [bind fst snd]. eexists. split; [reflexivity|]. cbn [h_x h_z]. auto.
    - destruct (Hpf (h_z s)) as (p & -> & Hp). cbn [bind]. destruct (Hpg p) as (q & -> & Hq). cbn [bind fst snd]. eexists. split; [reflexivity|]. cbn [h_x h_z]. auto. }
  set (xs := fun k => h_x (st k)). set (zs := fun k => h_z (st k)). set (ps := fun k => ((xs k, zs k) : Prod_IPS E E)).
  assert (Hd : forall n, edom J (ps (S n))) by (intro n; specialize (HR n); cbn [edom J ps fst snd]; destruct gfirst; destruct HR as [[D1 _] [D2 _]]; split; assumption).
  assert (Hdec : forall n, edom J (ps n) -> eval J (ps (S n)) <= eval J (ps n)).
  { intros n [D1 D2]. cbn [eval J ps fst snd]. destruct gfirst.
    - pose proof (am_dec g f tau zs xs (fun k => proj1 (HR k)) (fun k => proj2 (HR k)) n D2 D1) as A. rewrite (norm2_sub_sym (xs (S n)) (zs (S n))), (norm2_sub_sym (xs n) (zs n)). lra.
    - exact (am_dec f g tau xs zs (fun k => proj1 (HR k)) (fun k => proj2 (HR k)) n D1 D2). }
  assert (Hcl : forall l, cluster ps l -> best l).
  { intros [a b] (phi & Hp & Hl). apply (prod_vcv (fun k => ps (phi k)) a b) in Hl. destruct Hl as [La Lb]. cbn [fst ps] in La. cbn [snd ps] in Lb. unfold best. cbn [fst snd]. destruct gfirst.
    - destruct (am_cluster g f tau zs xs Ht (fun k => proj1 (HR k)) (fun k => proj2 (HR k)) phi b a) as [A B]; auto.
    - destruct (am_cluster f g tau xs zs Ht (fun k => proj1 (HR k)) (fun k => proj2 (HR k)) phi a b) as [A B]; auto. }
  exists ps. split; [|split; [exact Hd|split; [exact Hdec|split; [exact Hcl|]]]].
  - intro n. exists (h_tr (st n)). unfold HQS. rewrite Hi. cbn [bind fst snd].
    rewrite (for_loop_ext _ body); [|intros j s Hj; unfold hqs_body, getitem; rewrite hqs_taus_scalar by lia; reflexivity]. rewrite Hrun. reflexivity.
  - intros HB Hlev. destruct (Hlev (eval J (ps 1%nat))) as [M HM]. assert (D : forall k, eval J (ps (S k)) <= eval J (ps 1%nat)) by (induction k as [|k IH]; [lra|]; specialize (Hdec (S k) (Hd k)); lra).
    apply (approach_cluster best ps (Rmax M (norm (ps 0%nat)))); auto; [apply bw_prod; auto|]. intros [|k]; [apply Rmax_r|]. eapply Rle_trans; [|apply Rmax_l]. apply HM; auto.
Qed.

(** ** the penalties of the library *)
Definition slsc (h : R -> R) : Prop := forall a eps, 0 < eps -> exists d, 0 < d /\ forall b, Rabs (b - a) < d -> h a <= h b + eps.
Lemma slsc_lip h K : (forall a b, h a <= h b + K * Rabs (b - a)) -> slsc h.
Proof.
  intros H a eps He. exists (eps / (Rabs K + 1)). pose proof (Rabs_pos K). split; [apply Rdiv_lt_0_compat; lra|]. intros b Hb. specialize (H a b). pose proof (Rle_abs K). pose proof (Rabs_pos (b - a)).
  assert (K * Rabs (b - a) <= (Rabs K + 1) * Rabs (b - a)) by (apply Rmult_le_compat_r; lra). assert ((Rabs K + 1) * Rabs (b - a) <= (Rabs K + 1) * (eps / (Rabs K + 1))) by (apply Rmult_le_compat_l; lra). replace ((Rabs K + 1) * (eps / (Rabs K + 1))) with eps in * by (field; lra). lra.
Qed.
(** functions of |a| that do not decrease and grow at most at rate K *)
Lemma slsc_abs h K : 0 <= K -> (forall p q, 0 <= p <= q -> h p <= h q <= h p + K * (q - p)) -> slsc (fun a => h (Rabs a)).
Proof.
  intros HK H. apply (slsc_lip _ K). intros a b. pose proof (Rabs_pos a). pose proof (Rabs_pos b). pose proof (Rabs_triang_inv a b). rewrite (Rabs_minus_sym b a). pose proof (Rabs_pos (a - b)). assert (0 <= K * Rabs (a - b)) by (apply Rmult_le_pos; lra).
  destruct (Rle_dec (Rabs a) (Rabs b)) as [L|L].
  - specialize (H (Rabs a) (Rabs b) ltac:(lra)). lra.
  - specialize (H (Rabs b) (Rabs a) ltac:(lra)). assert (K * (Rabs a - Rabs b) <= K * Rabs (a - b)) by (apply Rmult_le_compat_l; lra). lra.
Qed.
Lemma slsc_scal h c : 0 <= c -> slsc h -> slsc (fun a => c * h a).
Proof.
  intros Hc H a eps He. destruct (H a (eps / (c + 1)) ltac:(apply Rdiv_lt_0_compat; lra)) as (d & Hd & Hb). exists d. split; [exact Hd|]. intros b Hb'. specialize (Hb b Hb'). apply (Rmult_le_compat_l c) in Hb; [|exact Hc].
  assert (c * (eps / (c + 1)) <= (c + 1) * (eps / (c + 1))) by (apply Rmult_le_compat_r; [left; apply Rdiv_lt_0_compat; lra|lra]). replace ((c + 1) * (eps / (c + 1))) with eps in * by (field; lra). lra.
Qed.
Lemma closed_sumf n h : slsc h -> closed (E:=Vec n) (etot (sumf h)).
Proof.
  intro H. assert (K : forall (l : Vec n) eps, 0 < eps -> exists d, 0 < d /\ forall x : Vec n, norm (x [-] l) < d -> sumf h l <= sumf h x + eps).
  { intros l eps He.
    assert (G : forall m, (m <= n)%nat -> exists d, 0 < d /\ forall x : Vec n, norm (x [-] l) < d -> RS m (fun i => h (get l i)) <= RS m (fun i => h (get x i)) + INR m * (eps / (INR n + 1))).
    { induction m as [|m IH]; intro Hmn; [exists 1; split; [lra|]; intros; cbn [RS INR]; lra|]. destruct (IH ltac:(lia)) as (d1 & D1 & G1). assert (Hp : 0 < eps / (INR n + 1)) by (apply Rdiv_lt_0_compat; [auto|pose proof (pos_INR n); lra]).
      destruct (H (get l m) (eps / (INR n + 1)) Hp) as (d2 & D2 & G2). exists (Rmin d1 d2). split; [apply Rmin_pos; auto|]. intros x Hx. pose proof (Rmin_l d1 d2). pose proof (Rmin_r d1 d2).
      specialize (G1 x ltac:(lra)). pose proof (get_le_norm n (x [-] l) m ltac:(lia)) as N. rewrite get_sub in N by lia. specialize (G2 (get x m) ltac:(lra)). rewrite S_INR. cbn [RS]. lra. }
    destruct (G n ltac:(lia)) as (d & D & Hd). exists d. split; [exact D|]. intros x Hx. specialize (Hd x Hx). rewrite !sumf_RS.
    assert (INR n * (eps / (INR n + 1)) <= eps). { pose proof (pos_INR n). assert (0 < eps / (INR n + 1)) by (apply Rdiv_lt_0_compat; lra). replace eps with ((INR n + 1) * (eps / (INR n + 1))) at 2 by (field; lra). lra. }
    lra. }
  intros l c Hx. split; [exact I|]. cbn [eval etot]. apply Rnot_lt_le. intro Hlt. destruct (K l ((sumf h l - c) / 2) ltac:(lra)) as (d & D & Hd). destruct (Hx d D) as (x & X1 & _ & X3). specialize (Hd x X1). cbn [eval etot] in X3. lra.
Qed.
Lemma slsc_log gamma : 0 < gamma -> slsc (fun a => ln (gamma * Rabs a + 1)).
Proof.
  intro Hg. apply (slsc_abs (fun p => ln (gamma * p + 1)) gamma); [lra|]. intros p q Hpq. assert (0 <= gamma * p) by (apply Rmult_le_pos; lra). assert (gamma * p <= gamma * q) by (apply Rmult_le_compat_l; lra). split.
  - destruct (Req_dec p q) as [->|N]; [lra|]. left. apply ln_increasing; [lra|]. assert (gamma * p < gamma * q) by (apply Rmult_lt_compat_l; lra). lra.
  - set (A := gamma * p + 1). set (B := gamma * q + 1). assert (HA : 1 <= A) by (unfold A; lra). assert (HB : A <= B) by (unfold A, B; lra).
    replace (ln B) with (ln A + ln (B / A)). 2:{ rewrite <- ln_mult; [f_equal; field; lra|lra|apply Rdiv_lt_0_compat; lra]. }
    assert (D : ln (B / A) <= B / A - 1). { pose proof (exp_ineq1_le (ln (B / A))) as X. rewrite exp_ln in X by (apply Rdiv_lt_0_compat; lra). lra. }
    assert (Q : B / A - 1 <= B - A). { replace (B / A - 1) with ((B - A) * / A) by (field; lra). rewrite <- (Rmult_1_r (B - A)) at 2. apply Rmult_le_compat_l; [lra|]. rewrite <- Rinv_1. apply Rinv_le_contravar; lra. }
    replace (gamma * (q - p)) with (B - A) by (unfold A, B; ring). lra.
Qed.
Lemma slsc_etp gamma : 0 < gamma -> slsc (fun a => 1 - exp (- gamma * Rabs a)).
Proof.
  intro Hg. apply (slsc_abs (fun p => 1 - exp (- gamma * p)) gamma); [lra|]. intros p q Hpq. assert (0 <= gamma * p) by (apply Rmult_le_pos; lra). assert (H1 : 0 <= gamma * (q - p)) by (apply Rmult_le_pos; lra).
  assert (M : exp (- gamma * q) = exp (- gamma * p) * exp (- gamma * (q - p))) by (rewrite <- exp_plus; f_equal; ring).
  assert (L1 : exp (- gamma * p) <= 1). { rewrite <- exp_0. destruct (Req_dec (- gamma * p) 0) as [->|]; [lra|left; apply exp_increasing; lra]. }
  assert (L2 : exp (- gamma * (q - p)) <= 1). { rewrite <- exp_0. destruct (Req_dec (- gamma * (q - p)) 0) as [->|]; [lra|left; apply exp_increasing; lra]. }
  pose proof (exp_pos (- gamma * p)). pose proof (exp_ineq1_le (- gamma * (q - p))) as L3. rewrite M. split.
  - assert (exp (- gamma * p) * exp (- gamma * (q - p)) <= exp (- gamma * p) * 1) by (apply Rmult_le_compat_l; lra). lra.
  - assert (exp (- gamma * p) * (1 - exp (- gamma * (q - p))) <= 1 * (gamma * (q - p))) by (apply Rmult_le_compat; lra). lra.
Qed.
Lemma slsc_geman sigma gamma : 0 <= sigma -> 0 < gamma -> slsc (fun a => sigma * Rabs a / (Rabs a + gamma)).
Proof.
  intros Hs Hg. assert (0 <= sigma / gamma) by (apply Rmult_le_pos; [lra|left; apply Rinv_0_lt_compat; lra]). apply (slsc_abs (fun p => sigma * p / (p + gamma)) (sigma / gamma)); [lra|]. intros p q Hpq.
  assert (D : sigma * q / (q + gamma) - sigma * p / (p + gamma) = sigma * gamma * (q - p) * / ((q + gamma) * (p + gamma))) by (field; lra).
  assert (HP : gamma * gamma <= (q + gamma) * (p + gamma)) by (apply Rmult_le_compat; lra). assert (HG : 0 < gamma * gamma) by (apply Rmult_lt_0_compat; auto). assert (HN : 0 <= sigma * gamma * (q - p)) by (repeat apply Rmult_le_pos; lra).
  assert (I1 : 0 < / ((q + gamma) * (p + gamma))) by (apply Rinv_0_lt_compat; lra). assert (I2 : / ((q + gamma) * (p + gamma)) <= / (gamma * gamma)) by (apply Rinv_le_contravar; lra). split.
  - assert (0 <= sigma * gamma * (q - p) * / ((q + gamma) * (p + gamma))) by (apply Rmult_le_pos; lra). lra.
  - assert (sigma * gamma * (q - p) * / ((q + gamma) * (p + gamma)) <= sigma * gamma * (q - p) * / (gamma * gamma)) by (apply Rmult_le_compat_l; lra). replace (sigma * gamma * (q - p) * / (gamma * gamma)) with (sigma / gamma * (q - p)) in * by (field; lra). lra.
Qed.
Lemma slsc_scad sigma al : 0 < sigma -> 2 < al -> slsc (scad_fun sigma al).
Proof.
  intros Hs Ha. set (k := fun p => if Rle_dec p sigma then sigma * p else if Rle_dec p (al * sigma) then (- (p * p) + 2 * al * sigma * p - sigma * sigma) / (2 * (al - 1)) else (al + 1) * (sigma * sigma) / 2).
  assert (E : forall a, scad_fun sigma al a = k (Rabs a)). { intro a. unfold scad_fun, k. destruct (Rle_dec (Rabs a) sigma); [reflexivity|]. destruct (Rle_dec (Rabs a) (al * sigma)); [|reflexivity]. do 4 f_equal. rewrite <- Rabs_mult. symmetry. apply Rabs_right. nra. }
  assert (S : slsc (fun a => k (Rabs a))).
  { apply (slsc_abs k sigma); [lra|]. assert (HD : 0 < 2 * (al - 1)) by lra. assert (HI : 0 < / (2 * (al - 1))) by (apply Rinv_0_lt_compat; lra).
    assert (Mid : forall p q, sigma <= p <= q -> q <= al * sigma -> (- (p * p) + 2 * al * sigma * p - sigma * sigma) / (2 * (al - 1)) <= (- (q * q) + 2 * al * sigma * q - sigma * sigma) / (2 * (al - 1)) <= (- (p * p) + 2 * al * sigma * p - sigma * sigma) / (2 * (al - 1)) + sigma * (q - p)).
    { intros p q Hpq Hq. assert (D : (- (q * q) + 2 * al * sigma * q - sigma * sigma) / (2 * (al - 1)) - (- (p * p) + 2 * al * sigma * p - sigma * sigma) / (2 * (al - 1)) = (q - p) * (2 * (al * sigma) - q - p) * / (2 * (al - 1))) by (field; lra).
      assert (P0 : 0 <= (q - p) * (2 * (al * sigma) - q - p)) by (apply Rmult_le_pos; lra). assert (P1 : 0 <= (q - p) * (2 * (al * sigma) - q - p) * / (2 * (al - 1))) by (apply Rmult_le_pos; lra).
      assert (P2 : (q - p) * (2 * (al * sigma) - q - p) <= (q - p) * (2 * (al - 1) * sigma)) by (apply Rmult_le_compat_l; lra). apply (Rmult_le_compat_r (/ (2 * (al - 1)))) in P2; [|lra]. replace ((q - p) * (2 * (al - 1) * sigma) * / (2 * (al - 1))) with (sigma * (q - p)) in P2 by (field; lra). lra. }
    assert (Es : (- (sigma * sigma) + 2 * al * sigma * sigma - sigma * sigma) / (2 * (al - 1)) = sigma * sigma) by (field; lra).
    assert (Ee : (- (al * sigma * (al * sigma)) + 2 * al * sigma * (al * sigma) - sigma * sigma) / (2 * (al - 1)) = (al + 1) * (sigma * sigma) / 2) by (field; lra).
    assert (Hsa : sigma <= al * sigma) by nra.
    intros p q Hpq. unfold k. destruct (Rle_dec p sigma) as [P1|P1]; destruct (Rle_dec q sigma) as [Q1|Q1]; try (exfalso; lra).
    - assert (sigma * p <= sigma * q) by (apply Rmult_le_compat_l; lra). lra.
    - assert (sigma * p <= sigma * sigma) by (apply Rmult_le_compat_l; lra). destruct (Rle_dec q (al * sigma)) as [Q2|Q2].
      + pose proof (Mid sigma q ltac:(lra) Q2) as [M1 M2]. rewrite Es in *. assert (0 <= sigma * (sigma - p)) by (apply Rmult_le_pos; lra). lra.
      + pose proof (Mid sigma (al * sigma) ltac:(lra) (Rle_refl _)) as [M1 M2]. rewrite Es, Ee in *. assert (0 <= sigma * (q - al * sigma)) by (apply Rmult_le_pos; lra). lra.
    - destruct (Rle_dec p (al * sigma)) as [P2|P2]; destruct (Rle_dec q (al * sigma)) as [Q2|Q2]; try (exfalso; lra).
      + apply Mid; lra.
      + pose proof (Mid p (al * sigma) ltac:(lra) (Rle_refl _)) as [M1 M2]. rewrite Ee in *. assert (0 <= sigma * (q - al * sigma)) by (apply Rmult_le_pos; lra). lra.
      + assert (0 <= sigma * (q - p)) by (apply Rmult_le_pos; lra). lra. }
  intros a eps He. destruct (S a eps He) as (d & D1 & D2). exists d. split; [exact D1|]. intros b Hb. rewrite !E. apply D2. exact Hb.
Qed.
Lemma slsc_qec mu : 0 <= mu -> slsc (qec_fun mu).
Proof.
  intro Hm. set (s := sqrt (2 * mu)). assert (Hs : 0 <= s) by apply sqrt_pos. apply (slsc_abs (fun p => mu - / 2 * (Rmax 0 (s - p)) ^ 2) s); [exact Hs|]. intros p q Hpq.
  assert (M : 0 <= Rmax 0 (s - q) <= Rmax 0 (s - p) /\ Rmax 0 (s - p) <= Rmax 0 (s - q) + (q - p) /\ Rmax 0 (s - p) <= s).
  { unfold Rmax. destruct (Rle_dec 0 (s - q)); destruct (Rle_dec 0 (s - p)); lra. }
  destruct M as ([M0 M1] & M2 & M3). set (u := Rmax 0 (s - q)) in *. set (v := Rmax 0 (s - p)) in *. split.
  - assert (u * u <= v * v) by (apply Rmult_le_compat; lra). replace (u ^ 2) with (u * u) by ring. replace (v ^ 2) with (v * v) by ring. lra.
  - assert ((v - u) * (v + u) <= (q - p) * (2 * s)) by (apply Rmult_le_compat; lra). replace (u ^ 2) with (u * u) by ring. replace (v ^ 2) with (v * v) by ring. lra.
Qed.
Lemma slsc_rms sigma kappa : 0 < sigma -> slsc (fun a => Rmin (sigma * (a * a)) kappa).
Proof.
  intros Hs a eps He. set (K := sigma * (2 * Rabs a + 1)). pose proof (Rabs_pos a). assert (HK : 0 < K) by (apply Rmult_lt_0_compat; lra). exists (Rmin 1 (eps / K)). split; [apply Rmin_pos; [lra|apply Rdiv_lt_0_compat; auto]|]. intros b Hb. pose proof (Rmin_l 1 (eps / K)). pose proof (Rmin_r 1 (eps / K)).
  assert (H2 : sigma * (a * a) <= sigma * (b * b) + eps).
  { replace (a * a) with (Rabs a * Rabs a) by (rewrite <- Rabs_mult; apply Rabs_right; nra). replace (b * b) with (Rabs b * Rabs b) by (rewrite <- Rabs_mult; apply Rabs_right; nra). pose proof (Rabs_pos b). pose proof (Rabs_triang_inv a b) as T. rewrite (Rabs_minus_sym a b) in T. pose proof (Rabs_triang_inv b a) as T2. set (w := Rabs (b - a)) in *. assert (0 <= w) by apply Rabs_pos.
    destruct (Rle_dec (Rabs a) (Rabs b)) as [Hle|Hle]; [assert (Rabs a * Rabs a <= Rabs b * Rabs b) by (apply Rmult_le_compat; lra); nra|].
    assert ((Rabs a - Rabs b) * (Rabs a + Rabs b) <= w * (2 * Rabs a + 1)) by (apply Rmult_le_compat; lra). assert (w * K <= eps / K * K) by (apply Rmult_le_compat_r; lra). replace (eps / K * K) with eps in * by (field; lra).
    assert (sigma * ((Rabs a - Rabs b) * (Rabs a + Rabs b)) <= sigma * (w * (2 * Rabs a + 1))) by (apply Rmult_le_compat_l; lra). unfold K in *. lra. }
  unfold Rmin. destruct (Rle_dec (sigma * (a * a)) kappa); destruct (Rle_dec (sigma * (b * b)) kappa); lra.
Qed.
Lemma slsc_card sigma : 0 <= sigma -> slsc (fun a => if Req_EM_T a 0 then 0 else sigma).
Proof.
  intros Hs a eps He. destruct (Req_EM_T a 0) as [->|Ha]; [exists 1; split; [lra|]; intros b _; destruct (Req_EM_T b 0); lra|].
  exists (Rabs a). split; [apply Rabs_pos_lt; exact Ha|]. intros b Hb. destruct (Req_EM_T b 0) as [->|]; [|lra]. rewrite Rminus_0_l, Rabs_Ropp in Hb. lra.
Qed.
Lemma card_nnz n (x : Vec n) : card_fun 1 x = INR (nnz x).
Proof.
  unfold card_fun, nnz. rewrite sumf_RS, <- RS_count. apply RS_ext. intros i Hi. destruct (Req_EM_T (get x i) 0) as [->|N].
  - destruct (Reqb_spec 0 0) as [[_ ->]|[? _]]; [reflexivity|lra].
  - destruct (Reqb_spec (get x i) 0) as [[? _]|[_ ->]]; [lra|reflexivity].
Qed.
Lemma l0_ball_closed n r : closed (indic (l0_ball (n:=n) r)).
Proof.
  intros l c H. assert (K : edom (etot (card_fun (n:=n) 1)) l /\ eval (etot (card_fun (n:=n) 1)) l <= INR r).
  { apply (closed_sumf n _ (slsc_card 1 ltac:(lra))). intros eps He. destruct (H eps He) as (x & X1 & X2 & _). exists x. split; [exact X1|]. split; [exact I|]. change (card_fun 1 x <= INR r). rewrite card_nnz. apply le_INR. exact X2. }
  destruct K as [_ K]. change (card_fun 1 l <= INR r) in K. rewrite card_nnz in K. apply INR_le in K. split; [exact K|]. destruct (H 1 ltac:(lra)) as (x & _ & _ & X3). exact X3.
Qed.
Lemma sumf_nonneg n h (x : Vec n) : (forall a, 0 <= h a) -> 0 <= sumf h x.
Proof. intro H. rewrite sumf_RS. apply RS_nonneg. intros. apply H. Qed.

(*! C94_penalties : for each non-convex penalty of the library (Log, ETP, Geman, SCAD with step <= a-1, QuadraticEnvelopeCard with step <= 1, the
   separable relaxed Mumford-Shah penalty, L0 with the penalty it computes, L0Ball) and every step t > 0 it allows, the object satisfies what
   the theorems above ask for: exact prox at t, closed, and nonnegative *)
Lemma C94_penalties_l : forall n t (o : Op (Vec n)) g, 0 < t -> penalty t o g -> prox_at o g t /\ closed g /\ forall x, edom g x -> 0 <= eval g x.
Proof.
  intros n t o g Ht Hp. destruct Hp as [sigma gamma Hs Hg|W sigma gamma HW Hi|sigma gamma Hi|sigma al Hi Hta|mu Hm Ht1|sigma kappa Hs Hk|sigma Hs|argsort r HA Hr].
  - assert (Hl : 0 < ln (gamma + 1)) by (rewrite <- ln_1; apply ln_increasing; lra). assert (Hc : 0 <= sigma / ln (gamma + 1)) by (apply Rmult_le_pos; [lra|left; apply Rinv_0_lt_compat; lra]). split; [|split].
    + intro x. apply (C28_log_exact_l n 0 sigma gamma Hs Hg). exact Ht.
    + apply closed_sumf. apply (slsc_scal _ _ Hc). apply slsc_log. exact Hg.
    + intros x _. apply sumf_nonneg. intro a. apply Rmult_le_pos; [exact Hc|]. assert (0 <= gamma * Rabs a) by (apply Rmult_le_pos; [lra|apply Rabs_pos]). destruct (Req_dec (gamma * Rabs a) 0) as [->|]; [rewrite Rplus_0_l, ln_1; lra|]. left. rewrite <- ln_1. apply ln_increasing; lra.
  - assert (HH : 0 <= sigma /\ 0 < gamma). { unfold etp_init in Hi. destruct (Rltb_spec sigma 0) as [[? Hr]|[? Hr]]; rewrite Hr in Hi; [discriminate|]. destruct (Rleb_spec gamma 0) as [[? Hr2]|[? Hr2]]; rewrite Hr2 in Hi; [discriminate|]. lra. }
    destruct HH as [Hs Hg]. pose proof (etp_den gamma Hg) as Hd. assert (Hc : 0 <= sigma / (1 - exp (- gamma))) by (apply Rmult_le_pos; [lra|left; apply Rinv_0_lt_compat; lra]).
    assert (Ex : (fun a => sigma * (1 - exp (- gamma * Rabs a)) / (1 - exp (- gamma))) = (fun a => sigma / (1 - exp (- gamma)) * (1 - exp (- gamma * Rabs a)))) by (apply functional_extensionality; intro a; field; lra).
    split; [|split].
    + intro x. apply (C70_etp_exact_l W n 0 sigma gamma HW Hi). exact Ht.
    + rewrite Ex. apply closed_sumf. apply (slsc_scal _ _ Hc). apply slsc_etp. exact Hg.
    + rewrite Ex. intros x _. apply sumf_nonneg. intro a. apply Rmult_le_pos; [exact Hc|]. assert (0 <= gamma * Rabs a) by (apply Rmult_le_pos; [lra|apply Rabs_pos]). destruct (Req_dec (- gamma * Rabs a) 0) as [->|]; [rewrite exp_0; lra|]. assert (exp (- gamma * Rabs a) < exp 0) by (apply exp_increasing; lra). rewrite exp_0 in *. lra.
  - assert (HH : 0 <= sigma /\ 0 < gamma). { unfold geman_init in Hi. destruct (Rltb_spec sigma 0) as [[? Hr]|[? Hr]]; rewrite Hr in Hi; [discriminate|]. destruct (Rleb_spec gamma 0) as [[? Hr2]|[? Hr2]]; rewrite Hr2 in Hi; [discriminate|]. lra. }
    destruct HH as [Hs Hg]. split; [|split].
    + intro x. apply (C71_geman_exact_l n 0 sigma gamma Hi). exact Ht.
    + apply closed_sumf. apply slsc_geman; auto.
    + intros x _. apply sumf_nonneg. intro a. pose proof (Rabs_pos a). apply Rmult_le_pos; [apply Rmult_le_pos; lra|left; apply Rinv_0_lt_compat; lra].
  - assert (HH : 0 < sigma /\ 2 < al). { unfold scad_init in Hi. destruct (Rleb_spec sigma 0) as [[? Hr]|[? Hr]]; rewrite Hr in Hi; [discriminate|]. destruct (Rleb_spec al 2) as [[? Hr2]|[? Hr2]]; rewrite Hr2 in Hi; [discriminate|]. lra. }
    destruct HH as [Hs Ha]. split; [|split].
    + intro x. apply (C29_scad_exact_l n 0 sigma al t x Hi). lra.
    + apply closed_sumf. apply slsc_scad; auto.
    + intros x _. apply sumf_nonneg. intro a. unfold scad_fun. pose proof (Rabs_pos a). destruct (Rle_dec (Rabs a) sigma); [apply Rmult_le_pos; lra|]. assert (0 < sigma * sigma) by (apply Rmult_lt_0_compat; auto). destruct (Rle_dec (Rabs a) (al * sigma)).
      * apply Rmult_le_pos; [|left; apply Rinv_0_lt_compat; lra]. replace (a * a) with (Rabs a * Rabs a) by (rewrite <- Rabs_mult; apply Rabs_right; nra). assert (Rabs a * Rabs a <= al * sigma * Rabs a) by (apply Rmult_le_compat_r; lra). assert (sigma * sigma <= al * sigma * Rabs a) by (apply Rmult_le_compat; nra). lra.
      * apply Rmult_le_pos; [apply Rmult_le_pos; lra|lra].
  - split; [|split].
    + intro x. apply (C31_card_exact_l n 0 mu t x Hm). lra.
    + apply closed_sumf. apply slsc_qec; auto.
    + intros x _. apply sumf_nonneg. intro a. unfold qec_fun. set (s := sqrt (2 * mu)). assert (Hs : 0 <= s) by apply sqrt_pos. assert (Hq : s * s = 2 * mu) by (apply sqrt_sqrt; lra). assert (0 <= Rmax 0 (s - Rabs a) <= s) by (pose proof (Rabs_pos a); unfold Rmax; destruct (Rle_dec 0 (s - Rabs a)); lra).
      set (u := Rmax 0 (s - Rabs a)) in *. assert (u * u <= s * s) by (apply Rmult_le_compat; lra). replace (u ^ 2) with (u * u) by ring. lra.
  - split; [|split].
    + intro x. apply (C30_separable_l n 0 sigma kappa t x Hs Hk Ht).
    + apply closed_sumf. apply slsc_rms; auto.
    + intros x _. apply sumf_nonneg. intro a. apply Rmin_glb; [|exact Hk]. apply Rmult_le_pos; [lra|nra].
  - assert (Hc : 0 <= t * sigma * sigma / 2) by (assert (0 <= t * sigma * sigma) by (repeat apply Rmult_le_pos; lra); lra). split; [|split].
    + intro x. apply (C27_what_it_computes_l n 0 sigma t x Hs Ht).
    + apply closed_sumf. apply slsc_card; exact Hc.
    + intros x _. apply sumf_nonneg. intro a. destruct (Req_EM_T a 0); lra.
  - split; [|split].
    + intro x. destruct (C25_l0_l argsort HA n (fun _ => r) 0 x t) as [H _]. destruct (H Ht Hr) as (y & Y1 & Y2 & _). exists y. cbn [o_prox l0ball_op]. rewrite Y1. split; [reflexivity|]. apply proj_prox; [exact Ht|exact Y2].
    + apply l0_ball_closed.
    + intros x _. cbn [eval indic]. lra.
Qed.

(*! C94_least_squares : end to end: ProximalGradient on s/2 |A x - b|^2 (an L2 object) plus epsg times any of these penalties, tau < 1/L: every run
   returns, the objective drops in every iteration, the steps vanish and every limit point is stationary; ADMM with the same two
   objects, the L2 object updated second, and tau < 1/(2L) likewise *)
Lemma C94_least_squares_l : forall n (F : IPS) (A : linop (Vec n) F) b s L (o pen : Op (Vec n)) g eps x0 tau,
  is_L2 o A b s -> 0 < s -> 0 < L -> (forall v, s * norm2 (A v) <= L * norm2 v) -> 0 < tau ->
  let df := fun x => s [*] ladj A (A x [-] b) in
  (forall beta niterback, 0 < eps -> tau * L < 1 -> penalty (eps * tau) pen g ->
    let obj := fun x => s / 2 * norm2 (A x [-] b) + eps * eval g x in
    exists xs, (forall k, ProximalGradient o pen x0 [eps] (Some tau) false beta 1 (S k) niterback None None = Ok (xs (S k), map xs (seq 1 (S k)))) /\
      (forall k, obj (xs (S (S k))) <= obj (xs (S k))) /\ Un_cv (fun k => norm (xs (S k) [-] xs k)) 0 /\ forall l, cluster xs l -> stationary df (escal eps g) tau l) /\
  (forall gfirst : bool, tau * L < 1 / 2 -> penalty tau pen g ->
    exists xs zs, (forall k, exists tr, ADMM (if gfirst then o else pen) (if gfirst then pen else o) (Some x0) tau k None gfirst = Ok (if gfirst then (xs k, zs k, tr) else (zs k, xs k, tr))) /\
      Un_cv (fun k => norm (xs (S k) [-] xs k)) 0 /\ Un_cv (fun k => norm (xs k [-] zs k)) 0 /\ forall l, cluster xs l -> stationary df g tau l).
Proof.
  intros n F A b s L o pen g eps x0 tau Ho Hs HL HA Ht df. pose proof (sfit_smooth A b s L Hs HL HA) as Hsm. destruct (L2_facts o A b s Hs Ho) as (Fp & _ & Fg). split.
  - intros beta nb He HtL Hp obj. destruct (C94_penalties_l n (eps * tau) pen g) as (P1 & P2 & P3); [apply Rmult_lt_0_compat; auto|exact Hp|].
    destruct (C94_proximal_gradient_l (Vec n) o pen (sfit A b s) (dsfit A b s) L g eps x0 tau beta nb None) as (C0 & xs & _ & X1 & X2 & X3 & X4); auto; [left; reflexivity|].
    destruct (X4 0) as (_ & Y2 & Y3). { intros y Hy. specialize (P3 y Hy). assert (0 <= eps * eval g y) by (apply Rmult_le_pos; lra). unfold sfit. assert (0 <= s / 2 * norm2 (A y [-] b)) by (apply Rmult_le_pos; [lra|apply norm2_nonneg]). lra. }
    exists xs. split; [exact X1|]. split; [|split; [exact Y2|apply (Y3 P2)]]. intro k. specialize (X3 (S k) (X2 k)). assert (0 <= (/ (2 * tau) - L / 2) * norm2 (xs (S (S k)) [-] xs (S k))) by (apply Rmult_le_pos; [lra|apply norm2_nonneg]). unfold sfit in X3. unfold obj. lra.
  - intros gfirst HtL Hp. destruct (C94_penalties_l n tau pen g Ht Hp) as (P1 & P2 & P3).
    destruct (C94_admm_l (Vec n) o pen (sfit A b s) (dsfit A b s) L g (Some x0) None x0 x0 tau gfirst 0) as (xs & zs & X1 & _ & _ & X3 & X4 & X5); auto; [lra|intro v; apply Fp; exact Ht| |].
    { intros y Hy. specialize (P3 y Hy). unfold sfit. assert (0 <= s / 2 * norm2 (A y [-] b)) by (apply Rmult_le_pos; [lra|apply norm2_nonneg]). lra. }
    exists xs, zs. split; [exact X1|]. split; [exact X3|]. split; [exact X4|]. apply (X5 P2).
Qed.

(*! C94_palm : PALM with fixed steps (both gamma > 1), any f and g, convex or not, closed with exact prox, any H with block-Lipschitz partial
   gradients whose block constants are at least lo > 0 on the domains: it returns for every niter and f + g + H drops by at least
   (gamma-1) lo/2 times the squared block moves; if f + g + H is bounded below the moves vanish, and with continuous partial gradients and
   constants every limit point (a, b) is stationary in each block; in finite dimension with bounded level sets the pairs approach the set of such pairs *)
Lemma C94_palm_l : forall (E F : IPS) (H : Bilin E F) h gx gy lx ly hx0 proxf proxg (f : efun E) (g : efun F) x0 y0 gf gg beta nb lo,
  bilin_spec H h gx gy lx ly -> opt_impl (option_map on_x proxf) f -> opt_impl proxg g -> 1 < gf -> 1 < gg -> 0 < lo ->
  (forall y, edom g y -> lo <= ly y) -> (forall x, edom f x -> lo <= lx x) -> edom f x0 -> edom g y0 ->
  let J := mkEfun (E := Prod_IPS E F) (fun p => edom f (fst p) /\ edom g (snd p)) (fun p => eval f (fst p) + eval g (snd p) + h (fst p) (snd p)) in
  let balanced := fun p : Prod_IPS E F => stationary (fun x => gx x (snd p)) f (1 / (gf * ly (snd p))) (fst p) /\ stationary (gy (fst p)) g (1 / (gg * lx (fst p))) (snd p) in
  exists ps : nat -> Prod_IPS E F, ps 0%nat = (x0, y0) /\ (forall n, PALM H hx0 y0 proxf proxg x0 y0 (Some gf) (Some gg) beta n nb = Ok (fst (ps n), snd (ps n), map ps (seq 1 n))) /\
    (forall n, edom J (ps n)) /\
    (forall n, eval J (ps (S n)) + (gf - 1) * lo / 2 * norm2 (fst (ps (S n)) [-] fst (ps n)) + (gg - 1) * lo / 2 * norm2 (snd (ps (S n)) [-] snd (ps n)) <= eval J (ps n)) /\
    (bounded_below J -> Un_cv (fun n => norm (ps (S n) [-] ps n)) 0 /\
      (closed f -> closed g -> cont2 gx -> cont2 gy -> scont lx -> scont ly -> (forall l, cluster ps l -> balanced l) /\
        (bw E -> bw F -> level_bounded J -> approaches balanced ps))).
Proof.
  intros E F H h gx gy lx ly hx0 proxf proxg f g x0 y0 gf gg beta nb lo HH Hf Hg Gf Gg Hlo Ly Lx Dx Dy J balanced.
  assert (Hq : forall (G : IPS) (o : option (Op G)) k z t, opt_impl o k -> 0 < t -> exists p, opt_prox o z t = Ok p /\ is_prox k t z p).
  { intros G o k z t Ho Ht. apply (opt_prox_spec o k z t Ho Ht). }
  assert (Hpd : forall gm l, 1 < gm -> lo <= l -> pydiv 1 (gm * l) = Ok (1 / (gm * l)) /\ 0 < 1 / (gm * l)).
  { intros gm l G1 G2. assert (0 < gm * l) by (apply Rmult_lt_0_compat; lra). split; [|apply Rdiv_lt_0_compat; lra]. unfold pydiv. destruct (Reqb_spec (gm * l) 0) as [[? _]|[_ ->]]; [lra|reflexivity]. }
  destruct (loop_seq (palm_body H proxf proxg (Some gf) (Some gg) beta nb) (fun _ s => ps_hy s = ps_y s /\ edom f (ps_x s) /\ edom g (ps_y s))
     (fun _ s s' => ps_tr s' = ps_tr s ++ [(ps_x s', ps_y s')] /\
       is_prox f (1 / (gf * ly (ps_y s))) (ps_x s [-] (1 / (gf * ly (ps_y s))) [*] gx (ps_x s) (ps_y s)) (ps_x s') /\
       is_prox g (1 / (gg * lx (ps_x s'))) (ps_y s [-] (1 / (gg * lx (ps_x s'))) [*] gy (ps_x s') (ps_y s)) (ps_y s'))
     (PS x0 y0 hx0 y0 None None x0 y0 [])) as (st & S0 & Hrun & HI & HR); [auto| |].
  { intros j s (I1 & I2 & I3). destruct HH as [Hc Hgx Hgy Hlx Hly Hux Huy]. unfold palm_body, palm_fixed. rewrite I1, (proj1 (Hly (ps_y s))). cbn [bind]. destruct (Hpd gf (ly (ps_y s)) Gf (Ly _ I3)) as [-> T1]. cbn [bind]. rewrite Hgx. cbn [bind].
    destruct (Hq E (option_map on_x proxf) f (ps_x s [-] (1 / (gf * ly (ps_y s))) [*] gx (ps_x s) (ps_y s)) _ Hf T1) as (p & -> & Hp). cbn [bind fst snd]. rewrite (proj1 (Hlx p)). cbn [bind]. destruct (Hpd gg (lx p) Gg (Lx p (proj1 Hp))) as [-> T2]. cbn [bind]. rewrite Hgy. cbn [bind].
    destruct (Hq F proxg g (ps_y s [-] (1 / (gg * lx p)) [*] gy p (ps_y s)) _ Hg T2) as (q & -> & Hqq). cbn [bind fst snd]. eexists. split; [reflexivity|]. cbn [ps_x ps_y ps_hy ps_tr]. split; [auto|]. split; [reflexivity|]. split; [apply Hp|apply Hqq]. }
  set (ps := fun k => ((ps_x (st k), ps_y (st k)) : Prod_IPS E F)). exists ps.
  assert (Hd : forall n, edom J (ps n)) by (intro n; destruct (HI n) as (_ & D1 & D2); split; assumption).
  assert (Hdec : forall n, eval J (ps (S n)) + (gf - 1) * lo / 2 * norm2 (fst (ps (S n)) [-] fst (ps n)) + (gg - 1) * lo / 2 * norm2 (snd (ps (S n)) [-] snd (ps n)) <= eval J (ps n)).
  { intro n. destruct (HR n) as (_ & P1 & P2). destruct (HI n) as (_ & D1 & D2). destruct HH as [Hc Hgx Hgy Hlx Hly Hux Huy]. cbn [ps fst snd eval J]. set (x := ps_x (st n)) in *. set (y := ps_y (st n)) in *. set (x' := ps_x (st (S n))) in *. set (y' := ps_y (st (S n))) in *.
    pose proof (Ly y D2) as L1. pose proof (Lx x' (proj1 P1)) as L2. destruct (Hpd gf (ly y) Gf L1) as [_ T1]. destruct (Hpd gg (lx x') Gg L2) as [_ T2].
    destruct (block_descent f (fun v => h v y) (gx x y) x x' _ (ly y) T1 D1 P1 (Hux y x x')) as [_ B1]. destruct (block_descent g (h x') (gy x' y) y y' _ (lx x') T2 D2 P2 (Huy x' y y')) as [_ B2].
    replace (1 / (1 / (gf * ly y)) - ly y) with ((gf - 1) * ly y) in B1 by (field; split; lra). replace (1 / (1 / (gg * lx x')) - lx x') with ((gg - 1) * lx x') in B2 by (field; split; lra).
    assert (K1 : (gf - 1) * lo / 2 * norm2 (x' [-] x) <= (gf - 1) * ly y / 2 * norm2 (x' [-] x)) by (apply Rmult_le_compat_r; [apply norm2_nonneg|]; assert ((gf - 1) * lo <= (gf - 1) * ly y) by (apply Rmult_le_compat_l; lra); lra).
    assert (K2 : (gg - 1) * lo / 2 * norm2 (y' [-] y) <= (gg - 1) * lx x' / 2 * norm2 (y' [-] y)) by (apply Rmult_le_compat_r; [apply norm2_nonneg|]; assert ((gg - 1) * lo <= (gg - 1) * lx x') by (apply Rmult_le_compat_l; lra); lra).
    lra. }
  assert (H0 : ps 0%nat = (x0, y0)) by (unfold ps; rewrite S0; reflexivity).
  split; [exact H0|]. split; [|split; [exact Hd|split; [exact Hdec|]]].
  { intro n. unfold PALM. cbn [is_none]. rewrite Hrun. cbn [bind fst snd]. do 2 f_equal. rewrite (trace_seq st ps_tr (fun k => ps (S k))); [|rewrite S0; reflexivity|intro j; apply HR]. rewrite <- seq_shift, map_map. reflexivity. }
  intros [m Hm]. assert (Hc : 0 < Rmin ((gf - 1) * lo / 2) ((gg - 1) * lo / 2)). { assert (0 < (gf - 1) * lo) by (apply Rmult_lt_0_compat; lra). assert (0 < (gg - 1) * lo) by (apply Rmult_lt_0_compat; lra). apply Rmin_pos; lra. }
  assert (Hn2 : forall k, norm2 (ps (S k) [-] ps k) = norm2 (fst (ps (S k)) [-] fst (ps k)) + norm2 (snd (ps (S k)) [-] snd (ps k))) by (intro k; reflexivity).
  assert (Hv : Un_cv (fun k => norm2 (ps (S k) [-] ps k)) 0).
  { apply (drop_vanish (fun k => eval J (ps k) - m) _ _ Hc); [intro k; specialize (Hm _ (Hd k)); lra|intro; apply norm2_nonneg|]. intro k. specialize (Hdec k). rewrite Hn2. pose proof (norm2_nonneg (fst (ps (S k)) [-] fst (ps k))) as N1. pose proof (norm2_nonneg (snd (ps (S k)) [-] snd (ps k))) as N2.
    set (c := Rmin _ _) in *. assert (C1 : c <= (gf - 1) * lo / 2) by apply Rmin_l. assert (C2 : c <= (gg - 1) * lo / 2) by apply Rmin_r. apply (Rmult_le_compat_r _ _ _ N1) in C1. apply (Rmult_le_compat_r _ _ _ N2) in C2. lra. }
  split; [apply Un_cv_norm; exact Hv|]. intros Cf Cg Cgx Cgy Clx Cly.
  assert (Hcl : forall l, cluster ps l -> balanced l).
  { intros [a b] (phi & Hp & Hl). assert (Hl1 : vcv (fun k => ps (S (phi k))) ((a, b) : Prod_IPS E F)) by (apply (vcv_close (fun k => ps (phi k))); [exact Hl|]; apply (Un_cv_sub (fun k => norm2 (ps (S k) [-] ps k)) 0 phi Hp Hv)).
    apply (prod_vcv (fun k => ps (phi k)) a b) in Hl. destruct Hl as [La Lb]. apply (prod_vcv (fun k => ps (S (phi k))) a b) in Hl1. destruct Hl1 as [La1 Lb1]. cbn [fst ps] in La, La1. cbn [snd ps] in Lb, Lb1.
    assert (Hin : forall gm (l : nat -> R) c, 1 < gm -> (forall k, lo <= l k) -> Un_cv l c -> lo <= c /\ Un_cv (fun k => 1 / (gm * l k)) (1 / (gm * c))).
    { intros gm l c G1 G2 G3. assert (Lc : lo <= c). { apply Rnot_lt_le. intro Hlt. destruct (G3 (lo - c) ltac:(lra)) as [N HN]. specialize (HN N (Nat.le_refl N)). unfold R_dist in HN. apply Rabs_def2 in HN. specialize (G2 N). lra. }
      split; [exact Lc|]. assert (Q : forall k, 0 < gm * l k) by (intro k; specialize (G2 k); apply Rmult_lt_0_compat; lra). assert (Q2 : 0 < gm * c) by (apply Rmult_lt_0_compat; lra).
      apply (Un_cv_ext (fun k => / (gm * l k))); [intro k; unfold Rdiv; ring|]. replace (1 / (gm * c)) with (/ (gm * c)) by (unfold Rdiv; ring). apply Un_cv_inv; auto. apply Un_cv_scal. exact G3. }
    destruct (Hin gf (fun k => ly (ps_y (st (phi k)))) (ly b) Gf) as [B1 T1]; [intro k; apply Ly; apply HI|apply (Cly _ _ Lb)|]. destruct (Hin gg (fun k => lx (ps_x (st (S (phi k))))) (lx a) Gg) as [B2 T2]; [intro k; apply Lx; apply HI|apply (Clx _ _ La1)|].
    destruct (Hpd gf (ly b) Gf B1) as [_ P1]. destruct (Hpd gg (lx a) Gg B2) as [_ P2]. unfold balanced. cbn [fst snd]. split; apply stationary_prox; auto.
    - apply (prox_closed f (fun k => 1 / (gf * ly (ps_y (st (phi k))))) _ (fun k => ps_x (st (phi k)) [-] (1 / (gf * ly (ps_y (st (phi k))))) [*] gx (ps_x (st (phi k))) (ps_y (st (phi k)))) (fun k => ps_x (st (S (phi k))))); auto.
      + intro k. apply Hpd; [exact Gf|]. apply Ly. apply HI.
      + intro k. apply HR.
      + apply vcv_minus; [exact La|]. apply vcv_scal2; [exact T1|]. apply Cgx; assumption.
    - apply (prox_closed g (fun k => 1 / (gg * lx (ps_x (st (S (phi k)))))) _ (fun k => ps_y (st (phi k)) [-] (1 / (gg * lx (ps_x (st (S (phi k)))))) [*] gy (ps_x (st (S (phi k)))) (ps_y (st (phi k)))) (fun k => ps_y (st (S (phi k))))); auto.
      + intro k. apply Hpd; [exact Gg|]. apply Lx. apply HI.
      + intro k. apply HR.
      + apply vcv_minus; [exact Lb|]. apply vcv_scal2; [exact T2|]. apply Cgy; assumption. }
  split; [exact Hcl|]. intros BE BF Hlev. destruct (Hlev (eval J (ps 0%nat))) as [M HM]. apply (approach_cluster balanced ps M); auto; [apply bw_prod; auto|]. intro k. apply HM; [apply Hd|].
  induction k as [|k IH]; [lra|]. specialize (Hdec k). assert (0 < (gf - 1) * lo / 2) by (assert (0 < (gf - 1) * lo) by (apply Rmult_lt_0_compat; lra); lra). assert (0 < (gg - 1) * lo / 2) by (assert (0 < (gg - 1) * lo) by (apply Rmult_lt_0_compat; lra); lra).
  assert (0 <= (gf - 1) * lo / 2 * norm2 (fst (ps (S k)) [-] fst (ps k))) by (apply Rmult_le_pos; [lra|apply norm2_nonneg]). assert (0 <= (gg - 1) * lo / 2 * norm2 (snd (ps (S k)) [-] snd (ps k))) by (apply Rmult_le_pos; [lra|apply norm2_nonneg]). lra.
Qed.

(*!ex C94_example : b = (3, 1), A the identity, s = 1, L = 1, tau = 1/2 for ProximalGradient (1/4 for ADMM) and L0Ball with radius 1 meet
   the hypotheses; (3, 0) is a stationary point and the origin is not *)
Lemma C94_example_l : exists (o pen : Op (Vec 2)), let g := indic (l0_ball (n:=2) 1) in let b := vtab 2 (fun i => if Nat.eqb i 0 then 3 else 1) in
  let df := fun x => 1 [*] ladj (id_linop (Vec 2)) (id_linop (Vec 2) x [-] b) in
  is_L2 o (id_linop (Vec 2)) b 1 /\ penalty (1 * (1 / 2)) pen g /\ penalty (1 / 4) pen g /\ (forall v, 1 * norm2 (id_linop (Vec 2) v) <= 1 * norm2 v) /\
  stationary df (escal 1 g) (1 / 2) (vtab 2 (fun i => if Nat.eqb i 0 then 3 else 0)) /\ ~ stationary df (escal 1 g) (1 / 2) vzero.
Proof.
  set (b := vtab 2 (fun i => if Nat.eqb i 0 then 3 else 1)).
  eexists. exists (l0ball_op isort 1). cbv zeta. split; [apply (L2_exists 2 (Vec 2) (id_linop (Vec 2)) b 1 (mkL2 (WithOp (id_linop (Vec 2)) true b) None 1 true (fun _ => 10%nat) true Legacy DenseDefault) None); reflexivity|].
  assert (P : forall t, penalty t (l0ball_op isort 1) (indic (l0_ball (n:=2) 1))) by (intro t; apply (pen_l0ball t isort 1 isort_ok); lia).
  split; [apply P|]. split; [apply P|]. split; [intro v; cbn [id_linop lapp]; lra|].
  assert (Hn : forall x : Vec 2, nnz x = ((if Req_EM_T (get x 0) 0 then 0 else 1) + (if Req_EM_T (get x 1) 0 then 0 else 1))%nat).
  { intro x. unfold nnz. cbn [seq filter]. destruct (Req_EM_T (get x 0) 0) as [H0|H0]; destruct (Req_EM_T (get x 1) 0) as [H1|H1]; (destruct (Reqb_spec (get x 0) 0) as [[? ->]|[? ->]]; [|]); (destruct (Reqb_spec (get x 1) 0) as [[? ->]|[? ->]]; [|]); try contradiction; reflexivity. }
  assert (N2 : forall x : Vec 2, norm2 x = get x 0 * get x 0 + get x 1 * get x 1) by (intro x; unfold norm2; rewrite vec_inner; cbn [RS]; ring).
  assert (I2 : forall x y : Vec 2, inner x y = get x 0 * get y 0 + get x 1 * get y 1) by (intros; rewrite vec_inner; cbn [RS]; ring).
  split.
  - split; [match goal with |- edom _ ?v => change (le (nnz v) 1) end; rewrite Hn, !get_vtab by lia; cbn [Nat.eqb]; destruct (Req_EM_T 3 0); [lra|]; destruct (Req_EM_T 0 0); [lia|lra]|].
    intros y Hy. change (nnz y <= 1)%nat in Hy. rewrite Hn in Hy. cbn [eval escal indic id_linop lapp ladj]. rewrite I2, N2, !get_sub, !get_scal, !get_sub by lia. unfold b. rewrite !get_vtab by lia. cbn [Nat.eqb]. replace (/ (2 * (1 / 2))) with 1 by field.
    destruct (Req_EM_T (get y 0) 0) as [->|]; [|destruct (Req_EM_T (get y 1) 0) as [->|]; [|lia]]; match goal with |- context [get y ?i] => pose proof (Rle_0_sqr (get y i - 1 / 2)); pose proof (Rle_0_sqr (get y i - 3)) end; unfold Rsqr in *; lra.
  - intros [_ H]. specialize (H (vtab 2 (fun i => if Nat.eqb i 0 then 3 / 2 else 0))). cbn [eval escal indic id_linop lapp ladj edom] in H. rewrite I2, N2, !get_sub, !get_scal, !get_sub, !get_zero in H by lia. unfold b in H. rewrite !get_vtab in H by lia. cbn [Nat.eqb] in H.
    assert (1 * 0 <= 1 * 0 + (1 * (0 - 3) * (3 / 2 - 0) + 1 * (0 - 1) * (0 - 0)) + / (2 * (1 / 2)) * ((3 / 2 - 0) * (3 / 2 - 0) + (0 - 0) * (0 - 0))); [apply H|lra].
    change (le (nnz (vtab 2 (fun i => if Nat.eqb i 0 then 3 / 2 else 0))) 1). rewrite Hn, !get_vtab by lia. cbn [Nat.eqb]. destruct (Req_EM_T (3 / 2) 0); [lra|]. destruct (Req_EM_T 0 0); [lia|lra].
Qed.

Lemma Rminus_m1 (a b : R) : a + -1 * b = a - b.
Proof. ring. Qed.
(*!ex C94_palm_example : H = (x-y)^2/2 on the line, f the indicator of the two points -1 and 1 (not convex) and no g, with gammas 2 and lo = 1,
   meet all the hypotheses of C94_palm *)
Lemma C94_palm_example_l : let h := fun x y : R => / 2 * ((x - y) * (x - y)) in let gx := fun x y : R => x - y in let gy := fun x y : R => y - x in
  let one := fun _ : R => 1 in let pf := Some (mkOp2 signs_op signs_op) in
  bilin_spec gap1 h gx gy one one /\ opt_impl (option_map on_x pf) signs /\ opt_impl (E:=R_IPS) None (etot (E:=R_IPS) (fun _ => 0)) /\ 1 < 2 /\
  ~ convex signs /\ bounded_below (E:=Prod_IPS R_IPS R_IPS) (mkEfun (E:=Prod_IPS R_IPS R_IPS) (fun p => edom signs (fst p) /\ True) (fun p => eval signs (fst p) + 0 + h (fst p) (snd p))) /\
  level_bounded (E:=Prod_IPS R_IPS R_IPS) (mkEfun (E:=Prod_IPS R_IPS R_IPS) (fun p => edom signs (fst p) /\ True) (fun p => eval signs (fst p) + 0 + h (fst p) (snd p))) /\
  closed signs /\ closed (etot (E:=R_IPS) (fun _ => 0)) /\ cont2 (E:=R_IPS) (F:=R_IPS) (G:=R_IPS) gx /\ cont2 (E:=R_IPS) (F:=R_IPS) (G:=R_IPS) gy /\ scont (E:=R_IPS) one /\ bw R_IPS.
Proof.
  cbv zeta. split; [|split; [|split; [|split; [|split; [|split; [|split; [|split; [|split; [|split; [|split; [|split]]]]]]]]]]].
  - constructor; try (intros; reflexivity); try (intro; split; [reflexivity|lra]).
    + intros y a c. change R in (type of y), (type of a), (type of c). unfold norm2, vsub. cbn. nra.
    + intros y a c. change R in (type of y), (type of a), (type of c). unfold norm2, vsub. cbn. nra.
  - intros x t Ht. exists (if Rltb x 0 then -1 else 1). split; [reflexivity|]. apply signs_prox. exact Ht.
  - intro x. split; [exact I|reflexivity].
  - lra.
  - intro C. specialize (C (1 : R) (-1 : R) (1/2) (or_introl eq_refl) (or_intror eq_refl) ltac:(lra)). destruct C as [C _]. cbn in C. destruct C as [C|C]; lra.
  - exists 0. intros [x y] _. change R in (type of x), (type of y). cbn. pose proof (Rle_0_sqr (x - y)). unfold Rsqr in *. lra.
  - intro c. exists (3 + 4 * Rabs c). intros [x y] [D _] Hle. cbn in D, Hle. change R in (type of x), (type of y). unfold norm. pose proof (Rabs_pos c). pose proof (Rle_abs c). change (norm2 (E:=Prod_IPS R_IPS R_IPS) (x, y)) with (x * x + y * y).
    rewrite <- (sqrt_Rsqr (3 + 4 * Rabs c)) by lra. apply sqrt_le_1_alt. unfold Rsqr. destruct D as [-> | ->]; nra.
  - apply signs_closed.
  - intros l c H. destruct (H 1 ltac:(lra)) as (x & _ & _ & X). split; [exact I|exact X].
  - intros us vs a b' Ha Hb. apply (vcv_minus (E:=R_IPS) us vs a b') in Hb; [|exact Ha]. intros e He. destruct (Hb e He) as [N HN]. exists N. intros k Hk. specialize (HN k Hk). unfold vsub in *. cbn in *. rewrite !Rminus_m1 in *. exact HN.
  - intros us vs a b' Ha Hb. apply (vcv_minus (E:=R_IPS) vs us b' a) in Ha; [|exact Hb]. intros e He. destruct (Ha e He) as [N HN]. exists N. intros k Hk. specialize (HN k Hk). unfold vsub in *. cbn in *. rewrite !Rminus_m1 in *. exact HN.
  - intros us a _ e He. exists 0%nat. intros k _. unfold R_dist. rewrite Rminus_diag_eq, Rabs_R0 by reflexivity. exact He.
  - apply bw_R.
Qed.
