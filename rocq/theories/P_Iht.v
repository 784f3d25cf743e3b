(** * Iterative hard thresholding: ProximalGradient on L2 and L0Ball recovers sparse vectors *)
From Coq Require Import String ZArith Permutation Sorted Psatz.
From Verif Require Import Base Space Spec ConvexFacts Smooth VSum MatFacts M_ProxOp SpecOps P_ProxOp M_L2 P_L2 M_L0 S_L0 P_L0 P_QE S_Lasso P_Lasso M_Loop LoopFacts SeqFacts SeqConv M_PG S_PG2 P_PG P_PG2 S_Seq Fejer S_PGB P_Iter S_Noncvx P_Noncvx.
From Verif Require Export S_Iht.
Open Scope result_scope.
Open Scope R_scope.

Lemma sparse_nnz {n} k (v : Vec n) : sparse k v <-> l0_ball k v.
Proof.
  unfold l0_ball, nnz. split.
  - intros (l & Hl & H). apply Nat.le_trans with (length l); [|exact Hl]. apply NoDup_incl_length; [apply NoDup_filter, seq_NoDup|].
    intros i Hi. apply filter_In in Hi. destruct Hi as [Hi Hz]. apply in_seq in Hi. apply H; [lia|]. intro E. destruct (Reqb_spec (get v i) 0) as [[_ Er]|[N _]]; [rewrite Er in Hz; discriminate|auto].
  - intro H. eexists. split; [exact H|]. intros i Hi Hz. apply filter_In. split; [apply in_seq; lia|]. destruct (Reqb_spec (get v i) 0) as [[E _]|[_ ->]]; [contradiction|reflexivity].
Qed.
Lemma sparse_add {n} j k (u v : Vec n) : sparse j u -> sparse k v -> sparse (j + k) (u [+] v).
Proof.
  intros (l & L1 & L2) (l' & L3 & L4). exists (l ++ l'). split; [rewrite app_length; lia|]. intros i Hi Hz. rewrite get_add in Hz by exact Hi.
  apply in_or_app. destruct (Req_dec (get u i) 0) as [E|N]; [right; apply L4; [exact Hi|intro; apply Hz; lra]|left; auto].
Qed.
Lemma sparse_scal {n} k a (u : Vec n) : sparse k u -> sparse k (a [*] u).
Proof.
  intros (l & L1 & L2). exists l. split; [exact L1|]. intros i Hi Hz. rewrite get_scal in Hz by exact Hi. apply L2; [exact Hi|]. intro E. apply Hz. rewrite E. ring.
Qed.
Lemma sparse_le {n} j k (u : Vec n) : (j <= k)%nat -> sparse j u -> sparse k u.
Proof. intros H (l & L1 & L2). exists l. split; [lia|exact L2]. Qed.

(** ** one step *)
Section Step.
Context {E F : IPS}.
Variables (A : linop E F) (c delta : R).
Hypothesis Hc : 0 <= c.
Hypothesis Hd : 0 <= delta.
Let Q (w : E) := norm2 w - c * norm2 (A w).
Lemma rip_inner (u v : E) : (forall a, Rabs (Q (u [+] a [*] v)) <= delta * norm2 (u [+] a [*] v)) -> (forall a, Rabs (Q (v [+] a [*] u)) <= delta * norm2 (v [+] a [*] u)) ->
  << u, v >> - c * << A u, A v >> <= delta * norm u * norm v.
Proof.
  intros H H'. assert (Hz : forall a : R, 4 * a * (<< u, v >> - c * << A u, A v >>) <= delta * (2 * norm2 u + 2 * (a * a) * norm2 v)).
  { intro a. pose proof (H a) as H1. pose proof (H (- a)) as H2. apply (Rle_trans _ _ _ (Rle_abs _)) in H1. rewrite <- Rabs_Ropp in H2. apply (Rle_trans _ _ _ (Rle_abs _)) in H2. unfold Q in H1, H2. rewrite !lapp_add, !lapp_scal in H1, H2.
    assert (X1 : forall (G : IPS) (x y : G), norm2 (x [+] a [*] y) - norm2 (x [+] (- a) [*] y) = 4 * a * << x, y >>) by (intros; unfold norm2; iexp; ring).
    assert (X2 : norm2 (u [+] a [*] v) + norm2 (u [+] (- a) [*] v) = 2 * norm2 u + 2 * (a * a) * norm2 v) by (unfold norm2; iexp; ring).
    pose proof (X1 E u v) as X3. pose proof (X1 F (A u) (A v)) as X4. rewrite <- X2, Rmult_plus_distr_l. replace (4 * a * (<< u, v >> - c * << A u, A v >>)) with (4 * a * << u, v >> - c * (4 * a * << A u, A v >>)) by ring. rewrite <- X3, <- X4. lra. }
  destruct (Req_dec (norm v) 0) as [Ev|Nv].
  - assert (v = vzero) as -> by (apply norm_eq0; exact Ev). assert (A vzero = vzero) as -> by apply lapp_zero. rewrite !inner_zero_r. rewrite Ev. lra.
  - destruct (Req_dec (norm u) 0) as [Eu|Nu].
    + assert (u = vzero) as -> by (apply norm_eq0; exact Eu). assert (A vzero = vzero) as -> by apply lapp_zero. rewrite !inner_zero_l. rewrite Eu. lra.
    + assert (Pu : 0 < norm u) by (pose proof (norm_nonneg u); lra). assert (Pv : 0 < norm v) by (pose proof (norm_nonneg v); lra).
      specialize (Hz (norm u / norm v)). rewrite <- !norm_sq in Hz. set (I := << u, v >> - c * << A u, A v >>) in *. set (a := norm u) in *. set (b := norm v) in *.
      apply (Rmult_le_reg_l (4 * (a / b))); [apply Rmult_lt_0_compat; [lra|apply Rdiv_lt_0_compat; lra]|]. eapply Rle_trans; [exact Hz|]. right. field. lra.
Qed.
Lemma iht_step (b e : F) s tau (xs y p : E) (K : E -> Prop) : 0 < s -> 0 < tau -> c = tau * s -> b = A xs [+] e -> K xs -> is_proj K (y [-] tau [*] dsfit A b s y) p ->
  (forall a1 a2, Rabs (Q (a1 [*] (p [-] xs) [+] a2 [*] (y [-] xs))) <= delta * norm2 (a1 [*] (p [-] xs) [+] a2 [*] (y [-] xs))) ->
  norm (p [-] xs) <= 2 * delta * norm (y [-] xs) + 2 * sqrt (c * (1 + delta)) * norm e.
Proof.
  intros Hs Ht Ec Eb Kx [_ Hp] Hq. specialize (Hp xs Kx). set (u := p [-] xs) in *. set (v := y [-] xs) in *.
  assert (N : norm2 u <= 2 * (<< u, v >> - c * << A u, A v >>) + 2 * c * << A u, e >>).
  { apply (Rmult_le_compat _ _ _ _ (norm_nonneg _) (norm_nonneg _) Hp) in Hp. rewrite !norm_sq in Hp.
    assert (Ep : p = xs [+] u) by (unfold u; vring). assert (Ey : y = xs [+] v) by (unfold v; vring).
    assert (G : y [-] tau [*] dsfit A b s y = xs [+] (v [-] c [*] ladj A (A v [-] e))).
    { unfold dsfit. rewrite Eb, Ey, lapp_add. replace (A xs [+] A v [-] (A xs [+] e)) with (A v [-] e) by vring. rewrite Ec. vring. }
    rewrite G, Ep in Hp. set (w := v [-] c [*] ladj A (A v [-] e)) in *.
    assert (X : norm2 (xs [+] u [-] (xs [+] w)) - norm2 (xs [-] (xs [+] w)) = norm2 u - 2 * << u, w >>) by (unfold norm2; iexp; ring).
    assert (Y : << u, w >> = << u, v >> - c * << A u, A v >> + c * << A u, e >>). { unfold w. iexp. rewrite <- ladj_spec. iexp. ring. }
    lra. }
  assert (I1 : << u, v >> - c * << A u, A v >> <= delta * norm u * norm v).
  { apply rip_inner; intro a; [specialize (Hq 1 a)|specialize (Hq a 1)].
    - replace (1 [*] u [+] a [*] v) with (u [+] a [*] v) in Hq by vring. exact Hq.
    - replace (a [*] u [+] 1 [*] v) with (v [+] a [*] u) in Hq by vring. exact Hq. }
  assert (I2 : c * << A u, e >> <= sqrt (c * (1 + delta)) * norm u * norm e).
  { specialize (Hq 1 0). replace (1 [*] u [+] 0 [*] v) with u in Hq by vring. unfold Q in Hq. rewrite <- Rabs_Ropp in Hq. apply (Rle_trans _ _ _ (Rle_abs _)) in Hq.
    assert (S1 : c * norm2 (A u) <= (1 + delta) * norm2 u) by lra.
    assert (S2 : c * norm (A u) <= sqrt (c * (1 + delta)) * norm u).
    { apply Rsqr_incr_0_var; [|apply Rmult_le_pos; [apply sqrt_pos|apply norm_nonneg]]. unfold Rsqr.
      replace (sqrt (c * (1 + delta)) * norm u * (sqrt (c * (1 + delta)) * norm u)) with (sqrt (c * (1 + delta)) * sqrt (c * (1 + delta)) * (norm u * norm u)) by ring. rewrite sqrt_sqrt by (apply Rmult_le_pos; lra). rewrite norm_sq.
      replace (c * norm (A u) * (c * norm (A u))) with (c * (c * (norm (A u) * norm (A u)))) by ring. rewrite norm_sq. replace (c * (1 + delta) * norm2 u) with (c * ((1 + delta) * norm2 u)) by ring. apply Rmult_le_compat_l; auto. }
    apply Rle_trans with (c * (norm (A u) * norm e)); [apply Rmult_le_compat_l; [exact Hc|apply CS]|]. rewrite <- Rmult_assoc. apply Rmult_le_compat_r; [apply norm_nonneg|exact S2]. }
  destruct (Req_dec (norm u) 0) as [Z|NZ].
  - rewrite Z. apply Rplus_le_le_0_compat; apply Rmult_le_pos; try apply norm_nonneg; try lra. apply Rmult_le_pos; [lra|apply sqrt_pos].
  - assert (Pu : 0 < norm u) by (pose proof (norm_nonneg u); lra). apply (Rmult_le_reg_r (norm u)); [exact Pu|]. rewrite norm_sq. lra.
Qed.
End Step.

(** ** the runs *)
Lemma fista_t_up j : fista_t j <= fista_t (S j).
Proof.
  cbn [fista_t]. pose proof (fista_t_ge1 j) as H1. set (t := fista_t j) in *. assert (H : 2 * t <= sqrt (1 + 4 * (t * t))); [|lra]. rewrite <- (sqrt_square (2 * t)) by lra. apply sqrt_le_1_alt. lra.
Qed.
Lemma omega_range accel j : 0 <= omega_seq accel j <= 1.
Proof.
  unfold omega_seq. pose proof (pos_INR j) as Hj. destruct (accel_is accel "vandenberghe").
  - split; [apply Rmult_le_pos; [exact Hj|left; apply Rinv_0_lt_compat; lra]|]. apply (Rmult_le_reg_r (INR j + 3)); [lra|]. unfold Rdiv. rewrite Rmult_assoc, Rinv_l by lra. lra.
  - destruct (accel_is accel "fista"); [|lra]. pose proof (fista_t_ge1 j). pose proof (fista_t_up j).
    split; [apply Rmult_le_pos; [lra|left; apply Rinv_0_lt_compat; lra]|]. apply (Rmult_le_reg_r (fista_t (S j))); [lra|]. unfold Rdiv. rewrite Rmult_assoc, Rinv_l by lra. lra.
Qed.
Lemma pga_run {E : IPS} (proxf proxg : Op E) df g eps x0 tau beta nb accel : (forall x, o_grad proxf x = Ok (Some (df x))) -> prox_at proxg g (eps * tau) -> accel_known accel = true ->
  exists xs ys, xs 0%nat = x0 /\ ys 0%nat = x0 /\ (forall n, ProximalGradient proxf proxg x0 [eps] (Some tau) false beta 1 (S n) nb accel None = Ok (xs (S n), map xs (seq 1 (S n)))) /\
    (forall k, is_prox g (eps * tau) (ys k [-] tau [*] df (ys k)) (xs (S k))) /\
    (forall k, ys (S k) = xs (S k) [+] omega_seq accel k [*] (xs (S k) [-] xs k)).
Proof.
  intros Hgr Hp Ha.
  set (body := fun (j : nat) (s : pg_state E) =>
     xt <- pg_prox_step proxf proxg false beta 1 nb eps (pg_x s) (pg_y s) (pg_tau s) ;;
     let x := fst xt in
     let t' := if accel_is accel "fista" then (1 + sqrt (1 + 4 * (pg_t s * pg_t s))) / 2 else pg_t s in
     let omega := if accel_is accel "vandenberghe" then INR j / (INR j + 3) else if accel_is accel "fista" then (pg_t s - 1) / t' else 0 in
     let y := x [+] omega [*] (x [-] pg_x s) in
     Ok (PG x y t' (snd xt) (pg_pfg s) (pg_tr s ++ [x]), false)).
  destruct (loop_seq body (fun j s => pg_tau s = tau /\ (accel_is accel "fista" = true -> pg_t s = fista_t j))
     (fun j s s' => (is_prox g (eps * tau) (pg_y s [-] tau [*] df (pg_y s)) (pg_x s') /\ pg_y s' = pg_x s' [+] omega_seq accel j [*] (pg_x s' [-] pg_x s)) /\ pg_tr s' = pg_tr s ++ [pg_x s'])
     (PG x0 x0 1 tau None [])) as (st & S0 & Hrun & _ & HR); [auto| |].
  { intros j s [Hta Ht]. destruct (Hp (pg_y s [-] tau [*] df (pg_y s))) as (p & Ep & Hpp). unfold body, pg_prox_step, get_grad.
    destruct (Reqb_spec 1 1) as [[_ ->]|[H1 _]]; [|lra]. rewrite Hta, Hgr. cbn [bind]. rewrite Ep. cbn [bind fst snd]. eexists. split; [reflexivity|]. cbn [pg_x pg_tr pg_tau pg_y pg_t].
    split; [split; [split; [exact Hpp|]|reflexivity]|split; [reflexivity|]].
    - unfold omega_seq. destruct (accel_is accel "vandenberghe"); [reflexivity|]. destruct (accel_is accel "fista"); [|reflexivity]. rewrite (Ht eq_refl). reflexivity.
    - intro Ef. rewrite Ef. rewrite (Ht Ef). reflexivity. }
  set (xs := fun k => pg_x (st k)). set (ys := fun k => pg_y (st k)). exists xs, ys. split; [unfold xs; rewrite S0; reflexivity|]. split; [unfold ys; rewrite S0; reflexivity|]. split; [|split; intro k; apply HR].
  intro n. unfold ProximalGradient. cbn [pg_epsg bind]. rewrite Ha.
  rewrite (for_loop_ext _ body); [|intros j s Hj; unfold pg_body, getitem; rewrite nth_error_repeat by lia; reflexivity].
  rewrite Hrun. cbn [bind fst snd]. do 2 f_equal. rewrite (trace_seq st pg_tr (fun k => pg_x (st (S k)))); [|rewrite S0; reflexivity|intro j; apply HR]. rewrite <- seq_shift, map_map. reflexivity.
Qed.

Lemma l0ball_at argsort n (r : Z) t : argsort_ok argsort -> (0 < r)%Z -> 0 < t -> prox_at (@l0ball_op argsort n r) (indic (l0_ball (Z.to_nat r))) t.
Proof. intros HA Hr Ht. exact (proj1 (C94_penalties_l n t _ _ Ht (pen_l0ball t argsort r HA Hr))). Qed.
Lemma prox_indic_proj {E : IPS} (K : E -> Prop) t x p : 0 < t -> is_prox (indic K) t x p -> is_proj K x p.
Proof.
  intros Ht [Hp H]. split; [exact Hp|]. intros y Hy. specialize (H y Hy). cbn [eval indic] in H. rewrite !Rplus_0_l in H.
  apply Rsqr_incr_0_var; [|apply norm_nonneg]. unfold Rsqr. rewrite !norm_sq. apply (Rmult_le_reg_l (/ (2 * t))); [apply Rinv_0_lt_compat; lra|]. lra.
Qed.
Lemma rip_abs {n} {F : IPS} (A : linop (Vec n) F) k c d v : rip A k c d -> sparse k v -> Rabs (norm2 v - c * norm2 (A v)) <= d * norm2 v.
Proof. intros H Hv. specialize (H v Hv). apply Rabs_le. lra. Qed.
Lemma sparse_sub {n} j k (u v : Vec n) : sparse j u -> sparse k v -> sparse (j + k) (u [-] v).
Proof. intros Hu Hv. replace (u [-] v) with (u [+] (-1) [*] v) by vring. apply sparse_add; [exact Hu|apply sparse_scal, Hv]. Qed.

Section Runs.
Context {n : nat} {F : IPS}.
Variables (A : linop (Vec n) F) (b e : F) (s tau delta : R) (r : nat) (xstar : Vec n).
Hypothesis Hs : 0 < s.
Hypothesis Ht : 0 < tau.
Hypothesis Hd : 0 <= delta.
Hypothesis Hb : b = A xstar [+] e.
Hypothesis Hx : sparse r xstar.
Let nu := 2 * sqrt (tau * s * (1 + delta)) * norm e.
Lemma nu_pos : 0 <= nu.
Proof. unfold nu. apply Rmult_le_pos; [|apply norm_nonneg]. apply Rmult_le_pos; [lra|apply sqrt_pos]. Qed.
Lemma plain_step (x p : Vec n) : rip A (3 * r) (tau * s) delta -> sparse r x -> is_proj (l0_ball r) (x [-] tau [*] dsfit A b s x) p ->
  norm (p [-] xstar) <= 2 * delta * norm (x [-] xstar) + nu.
Proof.
  intros HR Sx Hp. assert (Sp : sparse r p) by (apply sparse_nnz, Hp). assert (0 < tau * s) by (apply Rmult_lt_0_compat; auto).
  apply (iht_step A (tau * s) delta ltac:(lra) Hd b e s tau xstar x p (l0_ball r)); auto; [apply sparse_nnz, Hx|]. intros a1 a2. apply (rip_abs A (3 * r)); [exact HR|].
  replace (a1 [*] (p [-] xstar) [+] a2 [*] (x [-] xstar)) with (a1 [*] p [+] a2 [*] x [+] (- (a1 + a2)) [*] xstar) by vring.
  apply (sparse_le (r + r + r)); [lia|]. repeat apply sparse_add; apply sparse_scal; assumption.
Qed.
Lemma accel_step (x x' y p : Vec n) w : rip A (4 * r) (tau * s) delta -> sparse r x -> sparse r x' -> 0 <= w <= 1 -> y = x [+] w [*] (x [-] x') -> is_proj (l0_ball r) (y [-] tau [*] dsfit A b s y) p ->
  norm (p [-] xstar) <= 6 * delta * Rmax (norm (x [-] xstar)) (norm (x' [-] xstar)) + nu.
Proof.
  intros HR Sx Sx' Hw Ey Hp. assert (Sp : sparse r p) by (apply sparse_nnz, Hp). assert (0 < tau * s) by (apply Rmult_lt_0_compat; auto).
  apply Rle_trans with (2 * delta * norm (y [-] xstar) + nu).
  - apply (iht_step A (tau * s) delta ltac:(lra) Hd b e s tau xstar y p (l0_ball r)); auto; [apply sparse_nnz, Hx|]. intros a1 a2. apply (rip_abs A (4 * r)); [exact HR|].
    replace (a1 [*] (p [-] xstar) [+] a2 [*] (y [-] xstar)) with (a1 [*] p [+] (a2 * (1 + w)) [*] x [+] (- (a2 * w)) [*] x' [+] (- (a1 + a2)) [*] xstar) by (rewrite Ey; vring).
    apply (sparse_le (r + r + r + r)); [lia|]. repeat apply sparse_add; apply sparse_scal; assumption.
  - set (M := Rmax _ _). apply Rplus_le_compat_r. replace (6 * delta * M) with (2 * delta * (3 * M)) by ring. apply Rmult_le_compat_l; [lra|].
    replace (y [-] xstar) with ((1 + w) [*] (x [-] xstar) [+] (- w) [*] (x' [-] xstar)) by (rewrite Ey; vring).
    eapply Rle_trans; [apply norm_triangle|]. rewrite !norm_scal, Rabs_Ropp, !Rabs_right by lra.
    assert (M1 : norm (x [-] xstar) <= M) by apply Rmax_l. assert (M2 : norm (x' [-] xstar) <= M) by apply Rmax_r. pose proof (norm_nonneg (x [-] xstar)). pose proof (norm_nonneg (x' [-] xstar)).
    assert ((1 + w) * norm (x [-] xstar) <= 2 * M) by (apply Rmult_le_compat; lra). assert (w * norm (x' [-] xstar) <= 1 * M) by (apply Rmult_le_compat; lra). lra.
Qed.
End Runs.

Lemma geom_noise (q nu e0 : R) (u : nat -> R) : 0 <= q < 1 -> 0 <= nu -> u 0%nat <= e0 -> (forall k, u (S k) <= q * u k + nu) -> forall k, u k <= q ^ k * e0 + nu / (1 - q).
Proof.
  intros Hq Hn H0 Hs k. assert (Z : 0 <= nu / (1 - q)) by (apply Rmult_le_pos; [lra|left; apply Rinv_0_lt_compat; lra]). induction k as [|k IH]; [simpl; lra|].
  specialize (Hs k). assert (q * u k <= q * (q ^ k * e0 + nu / (1 - q))) by (apply Rmult_le_compat_l; lra). cbn [pow]. assert (nu / (1 - q) = q * (nu / (1 - q)) + nu) by (field; lra). lra.
Qed.
Lemma geom_noise2 (q nu e0 : R) (u : nat -> R) : 0 <= q < 1 -> 0 <= nu -> 0 <= e0 -> u 0%nat <= e0 -> u 1%nat <= q * e0 + nu -> (forall k, u (S (S k)) <= q * Rmax (u (S k)) (u k) + nu) ->
  forall k, u k <= q ^ ((S k) / 2) * e0 + nu / (1 - q).
Proof.
  intros Hq Hn He H0 H1 Hs. assert (Z : 0 <= nu / (1 - q)) by (apply Rmult_le_pos; [lra|left; apply Rinv_0_lt_compat; lra]). assert (Zq : nu / (1 - q) = q * (nu / (1 - q)) + nu) by (field; lra).
  assert (G : forall k, u k <= q ^ ((S k) / 2) * e0 + nu / (1 - q) /\ u (S k) <= q ^ ((S (S k)) / 2) * e0 + nu / (1 - q)); [|intro k; apply G].
  induction k as [|k [I1 I2]].
  - change (1 / 2)%nat with 0%nat. change (2 / 2)%nat with 1%nat. rewrite pow_1. simpl (q ^ 0). split; [lra|]. assert (0 <= q * (nu / (1 - q))) by (apply Rmult_le_pos; lra). lra.
  - split; [exact I2|]. specialize (Hs k).
    assert (D : (S (S (S k)) / 2 = S (S k / 2))%nat) by (change (S (S (S k))) with (2 + S k)%nat; rewrite <- (Nat.mul_1_l 2) at 1; rewrite Nat.div_add_l by lia; reflexivity).
    assert (Mx : Rmax (u (S k)) (u k) <= q ^ (S k / 2) * e0 + nu / (1 - q)).
    { apply Rmax_lub; [|exact I1]. eapply Rle_trans; [exact I2|]. apply Rplus_le_compat_r, Rmult_le_compat_r; [exact He|].
      assert (M : (S k / 2 <= S (S k) / 2)%nat) by (apply Nat.div_le_mono; lia). destruct (Nat.le_exists_sub _ _ M) as (d & -> & _). rewrite pow_add. rewrite <- (Rmult_1_l (q ^ (S k / 2))) at 2. apply Rmult_le_compat_r; [apply pow_le; lra|].
      rewrite <- (pow1 d). apply pow_incr. lra. }
    assert (q * Rmax (u (S k)) (u k) <= q * (q ^ (S k / 2) * e0 + nu / (1 - q))) by (apply Rmult_le_compat_l; lra). rewrite D. cbn [pow]. lra.
Qed.

(*! C96_recovery : iterative hard thresholding: o = L2(A, b, sigma=s), pen = L0Ball(radius=r), b = A x* + e with x* and x0 having at most r
   non-zeros, A any linear operator whose scaled version sqrt(tau s) A has restricted isometry constant delta < 1/2 at 3r, any argsort, beta,
   epsg > 0, niterback, no acceleration: ProximalGradient returns for every niter, every iterate has at most r non-zeros, and the k-th is
   within (2 delta)^k |x0 - x*| + 2 sqrt(tau s (1+delta)) |e| / (1 - 2 delta) of x*; without noise the iterates converge to x*, which is
   the only r-sparse solution of A x = b *)
Lemma C96_recovery_l : forall n (F : IPS) argsort (o : Op (Vec n)) (A : linop (Vec n) F) b e s r (xstar x0 : Vec n) tau eps delta beta niterback accel,
  argsort_ok argsort -> is_L2 o A b s -> 0 < s -> 0 < tau -> 0 < eps -> (0 < r)%nat -> 0 <= delta < 1 / 2 -> rip A (3 * r) (tau * s) delta ->
  b = A xstar [+] e -> sparse r xstar -> sparse r x0 -> no_accel accel ->
  exists xs, xs 0%nat = x0 /\
    (forall N, ProximalGradient o (l0ball_op argsort (Z.of_nat r)) x0 [eps] (Some tau) false beta 1 (S N) niterback accel None = Ok (xs (S N), map xs (seq 1 (S N)))) /\
    (forall k, sparse r (xs k)) /\
    (forall k, norm (xs k [-] xstar) <= (2 * delta) ^ k * norm (x0 [-] xstar) + 2 * sqrt (tau * s * (1 + delta)) * norm e / (1 - 2 * delta)) /\
    (e = vzero -> vcv xs xstar /\ forall y, sparse r y -> A y = b -> y = xstar).
Proof.
  intros n F argsort o A b e s r xstar x0 tau eps delta beta nb accel HA Ho Hs Ht He Hr Hd HR Eb Sx S0 Ha.
  destruct (L2_facts o A b s Hs Ho) as (_ & _ & Hg). assert (Het : 0 < eps * tau) by (apply Rmult_lt_0_compat; auto).
  assert (Hp : prox_at (@l0ball_op argsort n (Z.of_nat r)) (indic (l0_ball r)) (eps * tau)) by (rewrite <- (Nat2Z.id r) at 2; apply l0ball_at; auto; lia).
  destruct (pgnc_run o (l0ball_op argsort (Z.of_nat r)) (dsfit A b s) (indic (l0_ball r)) eps x0 tau beta nb accel Hg Hp Ha) as (xs & X0 & Xr & Xs).
  assert (Hpr : forall k, is_proj (l0_ball r) (xs k [-] tau [*] dsfit A b s (xs k)) (xs (S k))) by (intro k; apply (prox_indic_proj _ (eps * tau)); [exact Het|apply Xs]).
  assert (Sp : forall k, sparse r (xs k)) by (intros [|k]; [rewrite X0; exact S0|apply sparse_nnz, (Hpr k)]).
  set (nu := 2 * sqrt (tau * s * (1 + delta)) * norm e). assert (Hnu : 0 <= nu) by (apply nu_pos).
  assert (B : forall k, norm (xs k [-] xstar) <= (2 * delta) ^ k * norm (x0 [-] xstar) + nu / (1 - 2 * delta)).
  { apply (geom_noise (2 * delta) nu (norm (x0 [-] xstar)) (fun k => norm (xs k [-] xstar))); [lra|exact Hnu|rewrite X0; lra|]. intro k.
    apply (plain_step A b e s tau delta r xstar); auto; lra. }
  exists xs. split; [exact X0|]. split; [exact Xr|]. split; [exact Sp|]. split; [exact B|]. intros ->. split.
  - intros ep Hep. assert (Hn : nu = 0) by (unfold nu; rewrite norm_zero; ring). destruct (pow_lt_1_zero (2 * delta)) with (y := ep / (norm (x0 [-] xstar) + 1)) as [N HN].
    { rewrite Rabs_right; lra. } { apply Rdiv_lt_0_compat; [exact Hep|pose proof (norm_nonneg (x0 [-] xstar)); lra]. }
    exists N. intros k Hk. specialize (HN k Hk). specialize (B k). rewrite Hn in B. unfold Rdiv in B at 1. rewrite Rmult_0_l, Rplus_0_r in B. eapply Rle_lt_trans; [exact B|].
    pose proof (norm_nonneg (x0 [-] xstar)) as P. rewrite Rabs_right in HN by (apply Rle_ge, pow_le; lra). set (d := norm (x0 [-] xstar)) in *.
    apply Rle_lt_trans with ((2 * delta) ^ k * (d + 1)). { apply Rmult_le_compat_l; [apply pow_le; lra|lra]. }
    apply (Rmult_lt_compat_r (d + 1)) in HN; [|lra]. unfold Rdiv in HN. rewrite Rmult_assoc, Rinv_l, Rmult_1_r in HN by lra. exact HN.
  - intros y Sy Ey. assert (Sd : sparse (3 * r) (y [-] xstar)) by (apply (sparse_le (r + r)); [lia|apply sparse_sub; auto]).
    destruct (HR _ Sd) as [L _]. assert (Z : A (y [-] xstar) = vzero). { replace (y [-] xstar) with (y [+] (-1) [*] xstar) by vring. rewrite lapp_add, lapp_scal, Ey, Eb. vring. }
    rewrite Z, norm2_zero, Rmult_0_r in L. apply norm2_sub_eq0. pose proof (norm2_nonneg (y [-] xstar)). apply Rle_antisym; [|lra]. apply (Rmult_le_reg_l (1 - delta)); lra.
Qed.

(*! C96_accelerated : the same with any acceleration (None, vandenberghe, fista), as the library's own tutorial calls it: if the restricted
   isometry constant at 4r is below 1/6, the k-th iterate is within (6 delta)^ceil(k/2) |x0 - x*| + 2 sqrt(tau s (1+delta)) |e| / (1 - 6 delta)
   of x*, and every iterate has at most r non-zeros *)
Lemma C96_accelerated_l : forall n (F : IPS) argsort (o : Op (Vec n)) (A : linop (Vec n) F) b e s r (xstar x0 : Vec n) tau eps delta beta niterback accel,
  argsort_ok argsort -> is_L2 o A b s -> 0 < s -> 0 < tau -> 0 < eps -> (0 < r)%nat -> 0 <= delta < 1 / 6 -> rip A (4 * r) (tau * s) delta ->
  b = A xstar [+] e -> sparse r xstar -> sparse r x0 -> In accel [None; Some "None"; Some "vandenberghe"; Some "fista"]%string ->
  exists xs, xs 0%nat = x0 /\
    (forall N, ProximalGradient o (l0ball_op argsort (Z.of_nat r)) x0 [eps] (Some tau) false beta 1 (S N) niterback accel None = Ok (xs (S N), map xs (seq 1 (S N)))) /\
    (forall k, sparse r (xs k)) /\
    (forall k, norm (xs k [-] xstar) <= (6 * delta) ^ (S k / 2) * norm (x0 [-] xstar) + 2 * sqrt (tau * s * (1 + delta)) * norm e / (1 - 6 * delta)).
Proof.
  intros n F argsort o A b e s r xstar x0 tau eps delta beta nb accel HA Ho Hs Ht He Hr Hd HR Eb Sx S0 Hac.
  assert (Ha : accel_known accel = true) by (cbn [In] in Hac; intuition subst; reflexivity).
  destruct (L2_facts o A b s Hs Ho) as (_ & _ & Hg). assert (Het : 0 < eps * tau) by (apply Rmult_lt_0_compat; auto).
  assert (Hp : prox_at (@l0ball_op argsort n (Z.of_nat r)) (indic (l0_ball r)) (eps * tau)) by (rewrite <- (Nat2Z.id r) at 2; apply l0ball_at; auto; lia).
  destruct (pga_run o (l0ball_op argsort (Z.of_nat r)) (dsfit A b s) (indic (l0_ball r)) eps x0 tau beta nb accel Hg Hp Ha) as (xs & ys & X0 & Y0 & Xr & Xs & Ys).
  assert (Hpr : forall k, is_proj (l0_ball r) (ys k [-] tau [*] dsfit A b s (ys k)) (xs (S k))) by (intro k; apply (prox_indic_proj _ (eps * tau)); [exact Het|apply Xs]).
  assert (Sp : forall k, sparse r (xs k)) by (intros [|k]; [rewrite X0; exact S0|apply sparse_nnz, (Hpr k)]).
  exists xs. split; [exact X0|]. split; [exact Xr|]. split; [exact Sp|].
  apply (geom_noise2 (6 * delta) _ (norm (x0 [-] xstar)) (fun k => norm (xs k [-] xstar))); [lra|apply nu_pos|apply norm_nonneg|rewrite X0; lra| |].
  - pose proof (accel_step A b e s tau delta r xstar Hs Ht ltac:(lra) Eb Sx x0 x0 (ys 0%nat) (xs 1%nat) 0 HR S0 S0 ltac:(lra) ltac:(rewrite Y0; vring) (Hpr 0%nat)) as H. rewrite Rmax_left in H by lra. exact H.
  - intro k. apply (accel_step A b e s tau delta r xstar Hs Ht ltac:(lra) Eb Sx (xs (S k)) (xs k) (ys (S k)) (xs (S (S k))) (omega_seq accel k)); auto; apply omega_range.
Qed.

(*! C96_support : exact data: if x* has exactly r non-zeros, all at least m > 0 in absolute value, then from the first k with
   (2 delta)^k |x0 - x*| < m on the iterates of C96_recovery have exactly the support of x* *)
Lemma C96_support_l : forall n (F : IPS) argsort (o : Op (Vec n)) (A : linop (Vec n) F) s r (xstar x0 : Vec n) tau eps delta beta niterback accel m N,
  argsort_ok argsort -> is_L2 o A (A xstar) s -> 0 < s -> 0 < tau -> 0 < eps -> (0 < r)%nat -> 0 <= delta < 1 / 2 -> rip A (3 * r) (tau * s) delta ->
  sparse r xstar -> ~ sparse (r - 1) xstar -> (forall i, (i < n)%nat -> get xstar i <> 0 -> m <= Rabs (get xstar i)) -> sparse r x0 -> no_accel accel ->
  (2 * delta) ^ S N * norm (x0 [-] xstar) < m ->
  exists y tr, ProximalGradient o (l0ball_op argsort (Z.of_nat r)) x0 [eps] (Some tau) false beta 1 (S N) niterback accel None = Ok (y, tr) /\
    forall i, (i < n)%nat -> (get y i = 0 <-> get xstar i = 0).
Proof.
  intros n F argsort o A s r xstar x0 tau eps delta beta nb accel m N HA Ho Hs Ht He Hr Hd HR Sx Nx Hm S0 Ha HN.
  destruct (C96_recovery_l n F argsort o A (A xstar) vzero s r xstar x0 tau eps delta beta nb accel) as (xs & X0 & Xr & Sp & B & _); auto; [vring|].
  exists (xs (S N)), (map xs (seq 1 (S N))). split; [apply Xr|]. specialize (B (S N)). rewrite norm_zero in B. unfold Rdiv in B. rewrite Rmult_0_r, Rmult_0_l, Rplus_0_r in B.
  set (y := xs (S N)) in *. assert (C : forall i, (i < n)%nat -> get xstar i <> 0 -> get y i <> 0).
  { intros i Hi Hz Hy. specialize (Hm i Hi Hz). pose proof (get_le_norm n (y [-] xstar) i Hi) as G. rewrite get_sub in G by exact Hi. rewrite Hy in G. replace (0 - get xstar i) with (- get xstar i) in G by ring. rewrite Rabs_Ropp in G. lra. }
  intros i Hi. split; intro Z; [destruct (Req_dec (get xstar i) 0) as [|Hz]; [assumption|destruct (C i Hi Hz Z)]|].
  destruct (Req_dec (get y i) 0) as [|Hy]; [assumption|exfalso]. apply Nx.
  destruct (Sp (S N)) as (l & L1 & L2). fold y in L2. pose proof (L2 i Hi Hy) as Hil. destruct (in_split _ _ Hil) as (l1 & l2 & El).
  exists (l1 ++ l2). split; [rewrite El, app_length in L1; cbn [length] in L1; rewrite app_length; lia|]. intros j Hj Hz. pose proof (L2 j Hj (C j Hj Hz)) as Hjl. rewrite El in Hjl. apply in_app_or in Hjl. apply in_or_app.
  destruct Hjl as [H|[H|H]]; [left; exact H|subst j; contradiction|right; exact H].
Qed.

Lemma raw_run {E : IPS} (proxf proxg : Op E) df eps x0 tau beta nb : (forall x, o_grad proxf x = Ok (Some (df x))) -> (forall x, exists p, o_prox proxg x (eps * tau) = Ok p) ->
  exists xs, xs 0%nat = x0 /\ (forall n, ProximalGradient proxf proxg x0 [eps] (Some tau) false beta 1 (S n) nb None None = Ok (xs (S n), map xs (seq 1 (S n)))) /\
    forall k, o_prox proxg (xs k [-] tau [*] df (xs k)) (eps * tau) = Ok (xs (S k)).
Proof.
  intros Hgr Hp.
  set (body := fun (j : nat) (s : pg_state E) =>
     xt <- pg_prox_step proxf proxg false beta 1 nb eps (pg_x s) (pg_y s) (pg_tau s) ;;
     let x := fst xt in Ok (PG x (x [+] 0 [*] (x [-] pg_x s)) (pg_t s) (snd xt) (pg_pfg s) (pg_tr s ++ [x]), false)).
  destruct (loop_seq body (fun _ s => pg_tau s = tau /\ pg_y s = pg_x s)
     (fun _ s s' => o_prox proxg (pg_x s [-] tau [*] df (pg_x s)) (eps * tau) = Ok (pg_x s') /\ pg_tr s' = pg_tr s ++ [pg_x s'])
     (PG x0 x0 1 tau None [])) as (st & S0 & Hrun & _ & HR); [auto| |].
  { intros j s [Hta Hy]. destruct (Hp (pg_x s [-] tau [*] df (pg_x s))) as (p & Ep). unfold body, pg_prox_step, get_grad.
    destruct (Reqb_spec 1 1) as [[_ ->]|[H1 _]]; [|lra]. rewrite Hy, Hta, Hgr. cbn [bind]. rewrite Ep. cbn [bind fst snd]. eexists. split; [reflexivity|]. cbn [pg_x pg_tr pg_tau pg_y]. split; [split; reflexivity|split; [reflexivity|vring]]. }
  set (xs := fun k => pg_x (st k)). exists xs. split; [unfold xs; rewrite S0; reflexivity|]. split; [|intro k; apply HR].
  intro n. unfold ProximalGradient. cbn [pg_epsg bind accel_known].
  rewrite (for_loop_ext _ body); [|intros j s Hj; unfold pg_body, getitem; rewrite nth_error_repeat by lia; reflexivity].
  rewrite Hrun. cbn [bind fst snd]. do 2 f_equal. rewrite (trace_seq st pg_tr (fun k => pg_x (st (S k)))); [|rewrite S0; reflexivity|intro j; apply HR]. rewrite <- seq_shift, map_map. reflexivity.
Qed.

(*! C96_group_refuted : with L10Ball in place of L0Ball the objective can go up: L2(Op=identity, b=[[1, 1.9], [1, 0]]), L10Ball(radius=1), the
   admissible step tau = 1 = 1/L, started at the matrix with the single column (1.9, 0): for every argsort, epsg > 0 and niter >= 1 the
   result is strictly farther from b than the starting point, which lies in the ball *)
Lemma C96_group_refuted_l : forall argsort (o : Op (Vec (2 * 2))) (A : linop (Vec (2 * 2)) (Vec (2 * 2))) eps beta niterback N,
  argsort_ok argsort -> (forall x, A x = x) -> is_L2 o A l10_x 1 -> 0 < eps ->
  l10ball_call (fun _ => 1%Z) 0 l10_z = true /\
  exists y tr, ProximalGradient o (l10ball_op argsort 1) l10_z [eps] (Some 1) false beta 1 (S N) niterback None None = Ok (y, tr) /\
    norm (l10_z [-] l10_x) < norm (y [-] l10_x).
Proof.
  intros argsort o A eps beta nb N HA HI Ho He. destruct (L2_facts o A l10_x 1 ltac:(lra) Ho) as (_ & _ & Hg). assert (Het : 0 < eps * 1) by lra.
  destruct (C25_l10_refuted_l argsort HA 0%nat (eps * 1) Het) as (y & Ey & Hz & Hn).
  assert (Hadj : forall x, ladj A x = x). { intro x. apply norm2_sub_eq0. assert (H : forall w, << w, ladj A x >> = << w, x >>) by (intro w; rewrite <- ladj_spec, HI; reflexivity). unfold norm2. set (d := ladj A x [-] x). unfold d at 2. rewrite inner_sub_r, H. ring. }
  split; [unfold l10ball_call; rewrite Hz; reflexivity|].
  destruct (raw_run o (l10ball_op argsort 1) (dsfit A l10_x 1) eps l10_z 1 beta nb Hg) as (xs & X0 & Xr & Xs).
  { intro x. exists (l10_proj argsort 1 x). cbn [l10ball_op o_prox]. unfold l10ball_prox. destruct (Rleb_spec (eps * 1) 0) as [[? _]|[_ Er]]; [lra|]. rewrite Er. reflexivity. }
  assert (Xy : forall k, xs (S k) = y). { intro k. specialize (Xs k). replace (xs k [-] 1 [*] dsfit A l10_x 1 (xs k)) with l10_x in Xs by (unfold dsfit; rewrite HI, Hadj; vext w0; ring). cbn [l10ball_op o_prox] in Xs. rewrite Ey in Xs. cbn [snd] in Xs. injection Xs as <-. reflexivity. }
  exists (xs (S N)), (map xs (seq 1 (S N))). split; [apply Xr|]. rewrite Xy. exact Hn.
Qed.

Lemma wide_adj_ok m (w : R) (x : Vec (S m)) (y : Vec m) : << wide_app w x, y >> = << x, wide_adj w y >>.
Proof.
  rewrite !vec_inner. cbn [RS]. unfold wide_adj, wide_app. rewrite get_vtab by lia. rewrite Nat.ltb_irrefl.
  rewrite (RS_ext m _ (fun i => get x i * get y i + w * get x m * get y i)) by (intros i Hi; rewrite get_vtab by lia; ring).
  rewrite (RS_ext m (fun i => get x i * get (vtab (S m) _) i) (fun i => get x i * get y i)). 2: { intros i Hi. rewrite get_vtab by lia. destruct (Nat.ltb_spec i m); [reflexivity|lia]. }
  rewrite RS_add, RS_scal. ring.
Qed.
Definition wide m (w : R) : linop (Vec (S m)) (Vec m).
Proof.
  refine (mkLinop (Vec (S m)) (Vec m) (wide_app w) (wide_adj w) _ _ (wide_adj_ok m w)).
  - intros x y. apply vec_ext. intros i Hi. rewrite get_add by exact Hi. unfold wide_app. rewrite !get_vtab by lia. rewrite !get_add by lia. ring.
  - intros a x. apply vec_ext. intros i Hi. rewrite get_scal by exact Hi. unfold wide_app. rewrite !get_vtab by lia. rewrite !get_scal by lia. ring.
Defined.
Lemma sum_sparse m k (v : Vec m) : sparse k v -> RS m (get v) * RS m (get v) <= INR k * norm2 v.
Proof.
  intro H. apply sparse_nnz in H. unfold l0_ball, nnz in H. set (f := fun i => negb (Reqb (get v i) 0)) in H.
  set (one := vtab m (fun i => if f i then 1 else 0) : Vec m).
  assert (E1 : << v, one >> = RS m (get v)). { rewrite vec_inner. apply RS_ext. intros i Hi. unfold one. rewrite get_vtab by exact Hi. unfold f. destruct (Reqb_spec (get v i) 0) as [[E ->]|[N ->]]; cbn [negb]; lra. }
  assert (E2 : norm2 one <= INR k). { rewrite vec_norm2. rewrite (RS_ext m _ (fun i => if f i then 1 else 0)); [rewrite RS_count; apply le_INR, H|]. intros i Hi. unfold one. rewrite get_vtab by exact Hi. destruct (f i); ring. }
  rewrite <- E1. eapply Rle_trans; [apply CS_sq|]. rewrite Rmult_comm. apply Rmult_le_compat_r; [apply norm2_nonneg|exact E2].
Qed.
Lemma wide_rip m (w : R) q : INR m * (w * w) = 1 -> 0 <= w -> (0 < q)%nat -> rip (wide m w) (q * q) 1 (w * INR q).
Proof.
  intros Hm Hw Hq v Hv. cbn [wide lapp]. set (a := get v m). set (S0 := RS m (get v)). set (T := RS m (fun i => get v i * get v i)).
  assert (N1 : norm2 v = T + a * a) by (rewrite vec_norm2; reflexivity).
  assert (N2 : norm2 (wide_app w v) = T + a * a + 2 * w * (a * S0)).
  { rewrite vec_norm2. rewrite (RS_ext m _ (fun i => get v i * get v i + (2 * w * a * get v i + w * w * (a * a)))) by (intros i Hi; unfold wide_app; rewrite get_vtab by exact Hi; fold a; ring).
    rewrite !RS_add, RS_scal, RS_const. fold T S0. replace (INR m * (w * w * (a * a))) with (INR m * (w * w) * (a * a)) by ring. rewrite Hm. ring. }
  assert (C : S0 * S0 <= INR (q * q) * T).
  { set (v' := vtab m (get v) : Vec m). assert (G : forall i, (i < m)%nat -> get v' i = get v i) by (intros i Hi; unfold v'; apply get_vtab; exact Hi).
    assert (Sv : sparse (q * q) v') by (destruct Hv as (l & L1 & L2); exists l; split; [exact L1|]; intros i Hi Hz; rewrite G in Hz by exact Hi; apply L2; [lia|exact Hz]).
    pose proof (sum_sparse m (q * q) v' Sv) as H. rewrite vec_norm2 in H. rewrite (RS_ext m (get v') (get v) G) in H. rewrite (RS_ext m (fun i => get v' i * get v' i) (fun i => get v i * get v i)) in H by (intros i Hi; rewrite G by exact Hi; reflexivity). exact H. }
  rewrite mult_INR in C. assert (Pq : 0 < INR q) by (apply lt_0_INR; exact Hq). set (Q := INR q) in *.
  assert (B : forall sg : R, sg * sg = 1 -> sg * (2 * (a * S0)) <= Q * (T + a * a)).
  { intros sg Hsg. apply (Rmult_le_reg_l Q); [exact Pq|]. pose proof (Rle_0_sqr (Q * a - sg * S0)) as Z. unfold Rsqr in Z. assert (sg * sg * (S0 * S0) <= Q * Q * T) by (rewrite Hsg; lra).
    replace ((Q * a - sg * S0) * (Q * a - sg * S0)) with (Q * Q * (a * a) - 2 * (Q * (sg * (a * S0))) + sg * sg * (S0 * S0)) in Z by ring. lra. }
  pose proof (B 1 ltac:(lra)) as B1. pose proof (B (-1) ltac:(lra)) as B2. apply (Rmult_le_compat_l w) in B1; [|exact Hw]. apply (Rmult_le_compat_l w) in B2; [|exact Hw].
  rewrite N1, N2. split; lra.
Qed.

(*!ex C96_example : 256 measurements x_i + x_256/16 of 257 unknowns: the restricted isometry constant is at most 1/8 at 4 (and at 3), the
   operator has a kernel, an L2 object for it exists, x* = 5 at position 7 is 1-sparse, and so is x0 = 0 *)
Lemma C96_example_l : let A := wide 256 (/ 16) in let xstar := vtab 257 (fun i => if Nat.eqb i 7 then 5 else 0) : Vec 257 in
  rip A (4 * 1) (1 * 1) (1 / 8) /\ rip A (3 * 1) (1 * 1) (1 / 8) /\ (exists z, A z = vzero /\ z <> vzero) /\ (exists o, is_L2 o A (A xstar) 1) /\
  sparse 1 xstar /\ ~ sparse 0 xstar /\ (forall i, (i < 257)%nat -> get xstar i <> 0 -> 5 <= Rabs (get xstar i)) /\ sparse 1 (vzero : Vec 257) /\ argsort_ok isort.
Proof.
  intros A xstar. assert (R4 : rip A (4 * 1) (1 * 1) (1 / 8)).
  { rewrite Rmult_1_l. replace (1 / 8) with (/ 16 * INR 2) by (simpl; field). change (4 * 1)%nat with (2 * 2)%nat. apply wide_rip; [|lra|lia]. rewrite INR_IZR_INZ. change (Z.of_nat 256) with 256%Z. field. }
  assert (G : forall i, (i < 257)%nat -> get xstar i = if Nat.eqb i 7 then 5 else 0) by (intros i Hi; unfold xstar; rewrite get_vtab by exact Hi; reflexivity).
  split; [exact R4|]. split; [intros v Hv; apply R4; apply (sparse_le (3 * 1)); [lia|exact Hv]|]. split; [|split; [|split; [|split; [|split; [|split]]]]].
  - set (z := vtab 257 (fun i => if Nat.ltb i 256 then / 16 else -1) : Vec 257). exists z. split.
    + apply vec_ext. intros i Hi. cbn [A wide lapp]. unfold wide_app. rewrite get_vtab by exact Hi. unfold z. rewrite !get_vtab by lia. destruct (Nat.ltb_spec i 256); [|lia]. rewrite Nat.ltb_irrefl. rewrite get_zero. lra.
    + intro H. assert (H' : get z 256 = 0) by (rewrite H; apply get_zero). unfold z in H'. rewrite get_vtab in H' by lia. rewrite Nat.ltb_irrefl in H'. lra.
  - eexists. apply (L2_exists 257 (Vec 256) A (A xstar) 1 (mkL2 (WithOp A true (A xstar)) None 1 true (fun _ => 10%nat) true Legacy DenseDefault) None); reflexivity.
  - exists [7%nat]. split; [simpl; lia|]. intros i Hi Hz. rewrite G in Hz by exact Hi. destruct (Nat.eqb_spec i 7); [left; auto|lra].
  - intros (l & L1 & L2). destruct l; [|simpl in L1; lia]. apply (L2 7%nat); [lia|]. rewrite G by lia. simpl. lra.
  - intros i Hi Hz. rewrite G in * by exact Hi. destruct (Nat.eqb i 7); [rewrite Rabs_right; lra|lra].
  - exists []. split; [simpl; lia|]. intros i Hi Hz. rewrite get_zero in Hz. lra.
  - apply isort_ok.
Qed.
