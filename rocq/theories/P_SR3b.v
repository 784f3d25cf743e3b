(** * SR3: the outer iteration *)
From Coq Require Import Psatz.
From Verif Require Import Base Space Spec Sep ConvexFacts Smooth M_ProxOp SpecOps P_ProxOp M_Norms P_Norms M_L1 P_L1 M_Loop LoopFacts LoopFacts2 SeqFacts M_SR3 P_PG2 P_SR3.
From Verif Require Export S_SR3b.
Open Scope result_scope.
Open Scope R_scope.


Lemma l1n_esep {p} s : (forall z : Vec p, edom (esep (repeat (etot (E:=R_IPS) (fun a : R => s * Rabs a)) p) p) z) /\
  (forall z : Vec p, eval (esep (repeat (etot (E:=R_IPS) (fun a : R => s * Rabs a)) p) p) z = l1n s z).
Proof.
  split; intros [z Hz]; unfold l1n; simpl; clear - Hz; subst p.
  - induction z as [|a z IH]; simpl; auto.
  - induction z as [|a z IH]; simpl; auto. f_equal. exact IH.
Qed.
Lemma l1n_convex {p} s : 0 <= s -> convex (etot (E:=Vec p) (l1n s)).
Proof.
  intro Hs. destruct (l1n_esep (p:=p) s) as [H1 H2].
  apply (convex_ext (esep (repeat (etot (E:=R_IPS) (fun a : R => s * Rabs a)) p) p)).
  - intro z. split; simpl; auto. intros _. apply H1.
  - intros z _. apply H2.
  - apply sep_convex. apply Forall_forall. intros f Hf. apply repeat_spec in Hf. subst f.
    intros a b t _ _ Ht. split; [exact I|]. cbn. pose proof (Rabs_triang ((1 - t) * a) (t * b)) as H. rewrite !Rabs_mult, (Rabs_right (1 - t)), (Rabs_right t) in H by lra. nra.
Qed.
Lemma softv_prox {p} s tau (x : Vec p) : 0 <= s -> 0 < tau -> is_prox (etot (l1n s)) tau x (softv (tau * s) x).
Proof.
  intros Hs Ht. destruct (l1n_esep (p:=p) s) as [H1 H2].
  apply (is_prox_ext (esep (repeat (etot (E:=R_IPS) (fun a : R => s * Rabs a)) p) p)).
  - intro z. split; simpl; auto. intros _. apply H1.
  - intros z _. apply H2.
  - apply sep_prox. destruct x as [x Hx]. simpl. subst p. apply (pw3_map (fun f x q => is_prox f tau x q) (etot (E:=R_IPS) (fun a : R => s * Rabs a)) (fun a : R_IPS => soft (tau * s) a)).
    intros b _. pose proof (soft_prox s 0 tau b Hs Ht) as Hp. rewrite Rminus_0_r, Rplus_0_r in Hp. destruct Hp as [_ Hp]. split; [exact I|].
    intros y _. specialize (Hp y I). cbn [eval etot] in *. rewrite !Rminus_0_r in Hp. exact Hp.
Qed.

Section S.
Context {E D : IPS} {p : nat} (A : linop E D) (Reg : linop E (Vec p)) (data : D) (kappa eps : R).

Local Notation relaxed := (S_SR3b.relaxed A Reg data kappa eps).
Local Notation inner_obj := (S_SR3b.inner_obj A Reg data kappa).
Local Notation exact_inner := (S_SR3b.exact_inner A Reg data kappa).

Lemma inner_normal v x : is_min (etot (inner_obj v)) x ->
  forall h, << lapp A x [-] data, lapp A h >> + kappa * << lapp Reg x [-] v, lapp Reg h >> = 0.
Proof.
  intros [_ Hm] h. set (L := << lapp A x [-] data, lapp A h >> + kappa * << lapp Reg x [-] v, lapp Reg h >>).
  set (Q := 1 / 2 * norm2 (lapp A h) + kappa / 2 * norm2 (lapp Reg h)).
  assert (H : forall t, 0 <= t * L + t * t * Q).
  { intro t. specialize (Hm (x [+] t [*] h) I). cbn [eval etot] in Hm. unfold S_SR3b.inner_obj in Hm. rewrite !lapp_add, !lapp_scal in Hm.
    replace (lapp A x [+] t [*] lapp A h [-] data) with ((lapp A x [-] data) [+] t [*] lapp A h) in Hm by vring.
    replace (lapp Reg x [+] t [*] lapp Reg h [-] v) with ((lapp Reg x [-] v) [+] t [*] lapp Reg h) in Hm by vring.
    rewrite !(norm2_add _ (t [*] _)), !norm2_scal, !inner_scal_r in Hm. unfold L, Q. lra. }
  destruct (Req_dec L 0) as [|HL]; auto. exfalso. destruct (Req_dec Q 0) as [HQ|HQ].
  - specialize (H (- L)). rewrite HQ in H. assert (0 < L * L) by (pose proof (Rle_0_sqr L); unfold Rsqr in *; assert (L * L <> 0) by (apply Rmult_integral_contrapositive_currified; auto); lra). nra.
  - set (M := Rabs Q + 1). assert (HM : 0 < M) by (unfold M; pose proof (Rabs_pos Q); lra).
    specialize (H (- L / M)). assert (HL2 : 0 < L * L) by (pose proof (Rle_0_sqr L); unfold Rsqr in *; assert (L * L <> 0) by (apply Rmult_integral_contrapositive_currified; auto); lra).
    assert (Hq : Q < M) by (unfold M; pose proof (Rle_abs Q); lra).
    replace (- L / M * L + - L / M * (- L / M) * Q) with (- (L * L) * ((M - Q) / (M * M))) in H by (field; lra).
    assert (0 < (M - Q) / (M * M)) by (apply Rdiv_lt_0_compat; [lra|apply Rmult_lt_0_compat; lra]). nra.
Qed.

Lemma relaxed_cert v x w : 0 < kappa -> 0 <= eps -> is_min (etot (inner_obj v)) x -> is_prox (etot (l1n eps)) (/ kappa) (lapp Reg x) w ->
  forall x' z', relaxed x w <= relaxed x' z' + kappa * norm (v [-] w) * norm (lapp Reg (x' [-] x)).
Proof.
  intros Hk He Hx Hw x' z'. pose proof (inner_normal v x Hx (x' [-] x)) as Hn.
  apply prox_subgrad in Hw; [|apply l1n_convex; auto|apply Rinv_0_lt_compat; auto]. destruct Hw as [_ Hw]. specialize (Hw z' I). cbn [eval etot] in Hw.
  rewrite Rinv_inv, inner_scal_l in Hw.
  set (h := x' [-] x) in *. set (k := z' [-] w) in *.
  assert (E1 : lapp A x' [-] data = (lapp A x [-] data) [+] lapp A h) by (unfold h; rewrite lapp_sub; vring).
  assert (E2 : lapp Reg x' [-] z' = (lapp Reg x [-] w) [+] (lapp Reg h [-] k)) by (unfold h, k; rewrite lapp_sub; vring).
  unfold S_SR3b.relaxed. rewrite E1, E2, (norm2_add (lapp A x [-] data)), (norm2_add (lapp Reg x [-] w)).
  pose proof (norm2_nonneg (lapp A h)) as P1. pose proof (norm2_nonneg (lapp Reg h [-] k)) as P2.
  assert (E3 : << lapp Reg x [-] v, lapp Reg h >> = << lapp Reg x [-] w, lapp Reg h >> - << v [-] w, lapp Reg h >>) by (inner_lin_all; ring).
  rewrite E3 in Hn. rewrite (inner_sub_r (lapp Reg x [-] w)).
  pose proof (CS_abs (v [-] w) (lapp Reg h)) as Hcs. pose proof (Rle_abs (- << v [-] w, lapp Reg h >>)) as Ha. rewrite Rabs_Ropp in Ha.
  assert (kappa * - << v [-] w, lapp Reg h >> <= kappa * (norm (v [-] w) * norm (lapp Reg h))) by (apply Rmult_le_compat_l; lra).
  assert (0 <= kappa / 2 * norm2 (lapp Reg h [-] k)) by (apply Rmult_le_pos; lra). nra.
Qed.
End S.

Lemma theta_step t : 1 <= t -> 2 / (1 + sqrt (1 + 4 / (/ t) ^ 2)) = / ((1 + sqrt (1 + 4 * (t * t))) / 2).
Proof.
  intro Ht. replace (4 / (/ t) ^ 2) with (4 * (t * t)) by (field; lra). assert (0 <= sqrt (1 + 4 * (t * t))) by apply sqrt_pos. field. lra.
Qed.
Lemma fista_t_lt n : fista_t n < fista_t (S n).
Proof.
  pose proof (fista_t_ge1 n). cbn [fista_t]. assert (2 * fista_t n <= sqrt (1 + 4 * (fista_t n * fista_t n))).
  { rewrite <- (sqrt_square (2 * fista_t n)) by lra. apply sqrt_le_1_alt. lra. } lra.
Qed.

(*! C65_sr3 : kappa > 0, eps >= 0, an inner solver that returns a minimiser of 1/2|Ax-b|^2 + kappa/2|Lx-v|^2, any start and outer limit.
   SR3 never raises and returns x_k, where x_(j+1) is the inner minimiser for v_j, w_(j+1) the proximal point of (eps/kappa)|.|_1 at
   L x_(j+1), v_(j+1) = w_(j+1) + (1 - th_(j+1)) (w_(j+1) - w_j) with th_0 = 1, th_(j+1) = 2/(1+sqrt(1+4/th_j^2)); the weights stay in
   (0,1], strictly decrease and th_j <= 2/(j+2); it stops after the first j with |v_(j-1) - w_j| / max(1,|w_j|) < 1e-6; and for every
   computed j and every (x', z'): J(x_j, w_j) <= J(x', z') + kappa |v_(j-1) - w_j| |L(x' - x_j)|, so an exit by the test is
   stationary up to 1e-6 *)
Lemma C65_sr3_l : forall (E D : IPS) p (A : linop E D) (Reg : linop E (Vec p)) data kappa eps x0 n inner, 0 < kappa -> 0 <= eps ->
  exact_inner A Reg data kappa inner ->
  exists xs vs ws th k, SR3 Reg kappa eps x0 n inner = Ok (Some (xs k)) /\
    xs 0%nat = (match x0 with Some x => x | None => vzero end) /\ vs 0%nat = vzero /\ ws 0%nat = vzero /\ th 0%nat = 1 /\
    (forall j, (j < k)%nat -> is_min (etot (inner_obj A Reg data kappa (vs j))) (xs (S j)) /\
       is_prox (etot (l1n eps)) (/ kappa) (lapp Reg (xs (S j))) (ws (S j))) /\
    (forall j, (S j < k)%nat -> vs (S j) = ws (S j) [+] (1 - th (S j)) [*] (ws (S j) [-] ws j)) /\
    (forall j, th (S j) = 2 / (1 + sqrt (1 + 4 / (th j) ^ 2)) /\ 0 < th (S j) < th j /\ th j <= 1 /\ th j <= 2 / (INR j + 2)) /\
    stops_when (fun j => norm (vs (j - 1)%nat [-] ws j) / Rmax 1 (norm (ws j)) < / 1000000) n k /\
    (forall j, (j < k)%nat -> forall x' z', relaxed A Reg data kappa eps (xs (S j)) (ws (S j)) <=
       relaxed A Reg data kappa eps x' z' + kappa * norm (vs j [-] ws (S j)) * norm (lapp Reg (x' [-] xs (S j)))).
Proof.
  intros E D p A Reg data kappa eps x0 n inner Hk He Hin. set (xi := match x0 with Some x => x | None => vzero end).
  set (fin := fun (j : nat) (s : sr_state E p) => (exists x v w, s = SR (Some x) (Some v) (Some w) (sr_theta s))).
  set (Rl := fun (j : nat) (s s' : sr_state E p) (b : bool) => exists x v w x' v' w', s = SR (Some x) (Some v) (Some w) (sr_theta s) /\
     s' = SR (Some x') (Some v') (Some w') (sr_theta s') /\ is_min (etot (inner_obj A Reg data kappa v)) x' /\
     w' = softv (1 / kappa * eps) (lapp Reg x') /\ (b = false -> sr_theta s' = 2 / (1 + sqrt (1 + 4 / (sr_theta s) ^ 2)) /\
       v' = w' [+] (1 - sr_theta s') [*] (w' [-] w)) /\
     (b = true <-> norm (v [-] w') / Rmax 1 (norm w') < / 1000000)).
  destruct (loop_states_brk (sr_body Reg (1 / kappa) eps inner) fin Rl n (SR (Some xi) (Some vzero) (Some vzero) 1))
    as [st [bs [k [E1 [S0 [Hkn [_ [HP [HR [Hb Hl]]]]]]]]]].
  - exists xi, vzero, vzero. reflexivity.
  - intros j s _ [x [v [w Hs]]]. unfold sr_body. rewrite Hs. cbn [sr_v sr_x sr_w sr_theta]. destruct (Hin v x) as [x' [-> Hm]]. cbn [bind o1 o2 oltb].
    set (w' := softv (1 / kappa * eps) (lapp Reg x')).
    destruct (Rltb_spec (norm (v [-] w') / Rmax 1 (norm w')) (/ 1000000)) as [[Hc ->]|[Hc ->]].
    + eexists. eexists. split; [reflexivity|]. split.
      * exists x, v, w, x', v, w'. cbn [sr_theta]. split; [rewrite Hs at 1; reflexivity || auto|]. split; auto. split; auto. split; auto. split; [discriminate|]. split; auto.
      * exists x', v, w'. reflexivity.
    + eexists. eexists. split; [reflexivity|]. split.
      * exists x, v, w, x'. eexists. exists w'. cbn [sr_theta]. split; [auto|]. split; [reflexivity|]. split; auto. split; auto. split; [auto|]. split; [discriminate|lra].
      * eexists. eexists. eexists. reflexivity.
  - assert (Hfin : forall j, (j <= k)%nat -> exists x v w, st j = SR (Some x) (Some v) (Some w) (sr_theta (st j))) by (intros j Hj; exact (HP j Hj)).
    set (xs := fun j => match sr_x (st j) with Some x => x | None => vzero end).
    set (vs := fun j => match sr_v (st j) with Some x => x | None => vzero end).
    set (ws := fun j => match sr_w (st j) with Some x => x | None => vzero end).
    assert (HR' : forall j, (j < k)%nat -> is_min (etot (inner_obj A Reg data kappa (vs j))) (xs (S j)) /\ ws (S j) = softv (1 / kappa * eps) (lapp Reg (xs (S j))) /\
      (bs j = false -> sr_theta (st (S j)) = 2 / (1 + sqrt (1 + 4 / (sr_theta (st j)) ^ 2)) /\ vs (S j) = ws (S j) [+] (1 - sr_theta (st (S j))) [*] (ws (S j) [-] ws j)) /\
      (bs j = true <-> norm (vs j [-] ws (S j)) / Rmax 1 (norm (ws (S j))) < / 1000000)).
    { intros j Hj. destruct (HR j Hj) as [x [v [w [x' [v' [w' [H1 [H2 [H3 [H4 [H5 H6]]]]]]]]]]].
      assert (vs j = v) by (unfold vs; rewrite H1; auto). assert (ws j = w) by (unfold ws; rewrite H1; auto).
      assert (xs (S j) = x') by (unfold xs; rewrite H2; auto). assert (vs (S j) = v') by (unfold vs; rewrite H2; auto). assert (ws (S j) = w') by (unfold ws; rewrite H2; auto).
      rewrite H, H0, H7, H8, H9. auto. }
    set (th := fun j => / fista_t j).
    assert (Hth : forall j, (j < k)%nat -> sr_theta (st j) = th j).
    { induction j as [|j IH]; intro Hj; [rewrite S0; unfold th; simpl; field|]. destruct (HR' j ltac:(lia)) as [_ [_ [H _]]].
      destruct (H (Hb j ltac:(lia))) as [-> _]. rewrite IH by lia. unfold th. rewrite theta_step by apply fista_t_ge1. reflexivity. }
    assert (Hpx : forall j, (j < k)%nat -> is_prox (etot (l1n eps)) (/ kappa) (lapp Reg (xs (S j))) (ws (S j))).
    { intros j Hj. destruct (HR' j Hj) as [_ [-> _]]. unfold Rdiv. rewrite Rmult_1_l. apply softv_prox; auto. apply Rinv_0_lt_compat; auto. }
    exists xs, vs, ws, th, k. split; [|split; [|split; [|split; [|split; [|split; [|split; [|split; [|split]]]]]]]].
    + unfold SR3. fold xi. rewrite pydiv_ok by lra. cbn [bind]. rewrite E1. cbn [bind fst]. destruct (Hfin k ltac:(lia)) as [x [v [w H]]]. unfold xs. rewrite H. reflexivity.
    + unfold xs. rewrite S0. reflexivity.
    + unfold vs. rewrite S0. reflexivity.
    + unfold ws. rewrite S0. reflexivity.
    + unfold th. simpl. field.
    + intros j Hj. split; [apply HR'; auto|apply Hpx; auto].
    + intros j Hj. destruct (HR' j ltac:(lia)) as [_ [_ [H _]]]. destruct (H (Hb j Hj)) as [_ ->]. rewrite (Hth (S j)) by lia. reflexivity.
    + intro j. pose proof (fista_t_ge1 j). pose proof (fista_t_lt j). pose proof (fista_t_ge j). pose proof (pos_INR j). unfold th. split; [rewrite theta_step by auto; reflexivity|].
      split; [split; [apply Rinv_0_lt_compat; lra|apply Rinv_lt_contravar; [apply Rmult_lt_0_compat; lra|auto]]|].
      split; [rewrite <- Rinv_1; apply Rinv_le_contravar; lra|]. apply le_div; [lra|]. apply (Rmult_le_reg_l (fista_t j)); [lra|].
      rewrite <- Rmult_assoc, Rinv_r, Rmult_1_l by lra. lra.
    + apply (stops_when_intro _ bs); auto. intros j Hj. replace (S j - 1)%nat with j by lia. apply (HR' j Hj).
    + intros j Hj x' z'. apply relaxed_cert; auto. apply (HR' j Hj).
Qed.

(*! C65_zero_data_refuted : with the default inner solver, zero data and the default start, SR3 returns NaN for every operator, regulariser,
   kappa > 0, eps and positive iteration limits, although x = 0 solves the problem *)
Lemma C65_zero_data_refuted_l : forall (E D : IPS) p (A : linop E D) (Reg : linop E (Vec p)) kappa eps n m, 0 < kappa ->
  SR3_adaptive A Reg vzero kappa eps None (S n) (S m) = Ok None.
Proof.
  intros E D p A Reg kappa eps n m Hk. unfold SR3_adaptive, SR3. rewrite pydiv_ok by lra. cbn [bind].
  assert (G : forall k i s, sr_x s = None -> exists s' j, for_loop (sr_body Reg (1 / kappa) eps (sr_adaptive A Reg vzero kappa eps (S m))) k i s = Ok (s', j) /\ sr_x s' = None).
  { induction k as [|k IH]; intros i s Hs; [exists s, i; auto|]. cbn [for_loop]. unfold sr_body at 1, sr_adaptive at 1. rewrite pydiv_ok by lra. cbn [bind]. rewrite Hs.
    unfold lsqr at 1.
    destruct (ls_dead_loop (stackop A (sqrt kappa) Reg) (lapp Reg) (eps / kappa) (S m) 0
      (ls_init (stackop A (sqrt kappa) Reg) (o1 (fun v => ((vzero, sqrt kappa [*] v) : Prod_IPS D (Vec p))) (sr_v s)) (sr_v s) None) (or_introl eq_refl) ltac:(lia)) as [r [k' [-> Hr]]].
    cbn [bind fst snd]. rewrite Hr. cbn [o1 o2]. replace (o2 vsub (sr_v s) (None : option (Vec p))) with (None : option (Vec p)) by (destruct (sr_v s); reflexivity).
    cbn [o1 oltb snd fst]. apply IH. reflexivity. }
  cbn [for_loop]. unfold sr_body at 1, sr_adaptive at 1. rewrite pydiv_ok by lra. cbn [bind sr_v sr_x o1].
  rewrite C69_exact_start_refuted_l.
  - cbn [bind o1 o2 oltb fst snd]. match goal with |- context [for_loop _ n 1 ?s] => destruct (G n 1%nat s eq_refl) as [s' [j [-> Hs']]] end. cbn [bind fst]. rewrite Hs'. reflexivity.
  - rewrite lapp_zero, vsub_0_r. rewrite vscal_zero. apply (ladj_zero (stackop A (sqrt kappa) Reg)).
Qed.

(** once x is NaN it stays NaN *)
Lemma sr_nan_stays {E D : IPS} {p} (A : linop E D) (Reg : linop E (Vec p)) data kappa eps m : 0 < kappa ->
  forall k i s, sr_x s = None -> exists s' j, for_loop (sr_body Reg (1 / kappa) eps (sr_adaptive A Reg data kappa eps (S m))) k i s = Ok (s', j) /\ sr_x s' = None.
Proof.
  intro Hk. induction k as [|k IH]; intros i s Hs; [exists s, i; auto|]. cbn [for_loop]. unfold sr_body at 1, sr_adaptive at 1. rewrite pydiv_ok by lra. cbn [bind]. rewrite Hs.
  unfold lsqr at 1.
  destruct (ls_dead_loop (stackop A (sqrt kappa) Reg) (lapp Reg) (eps / kappa) (S m) 0
    (ls_init (stackop A (sqrt kappa) Reg) (o1 (fun v => ((data, sqrt kappa [*] v) : Prod_IPS D (Vec p))) (sr_v s)) (sr_v s) None) (or_introl eq_refl) ltac:(lia)) as [r [k' [-> Hr]]].
  cbn [bind fst snd]. rewrite Hr. cbn [o1 o2]. replace (o2 vsub (sr_v s) (None : option (Vec p))) with (None : option (Vec p)) by (destruct (sr_v s); reflexivity).
  cbn [o1 oltb snd fst]. apply IH. reflexivity.
Qed.

Lemma lsqr_1d {E G : IPS} {p} (B : linop E G) d (Reg : E -> Vec p) m x0 thr : (forall a b : E, << a, b >> = 0 -> a = vzero \/ b = vzero) ->
  lsqr B Reg (Some d) (S (S m)) (Some vzero) (Some x0) thr = Ok None.
Proof.
  intro H1. assert (Hdec : ladj B (d [-] lapp B x0) = vzero \/ ladj B (d [-] lapp B x0) <> vzero).
  { destruct (Req_dec (norm2 (ladj B (d [-] lapp B x0))) 0) as [Hz|Hz]; [left; apply norm2_eq0; auto|right]. intro Hq. rewrite Hq, norm2_zero in Hz. lra. }
  destruct Hdec as [Hz|Hz]; [apply C69_exact_start_refuted_l; exact Hz|].
  unfold lsqr. cbn [for_loop]. pose proof (ls_init_good (p:=p) B d x0 (Some vzero) Hz) as Hg.
  destruct (ls_step B d Reg thr 0 _ Hg) as [s' [b [E1 [[x [x' [w [_ [Hx' [_ [_ [_ [Hw Hor]]]]]]]]] [Hs' Hb]]]]].
  rewrite E1. rewrite (Hb eq_refl). cbn [bind fst snd].
  assert (Hdead : ls_w s' = None).
  { destruct Hs' as [Hs'|[x1 [_ [H2 _]]]]; auto. exfalso. destruct (H1 _ _ Hor) as [Hq|Hq]; [|contradiction].
    destruct Hs' as [x1 [u [v [w1 [a [ph [rh [ut [z [-> [_ [Hv [_ [Hph [Hrh [_ [Hr [Hat _]]]]]]]]]]]]]]]]]]. cbn [ls_x] in Hx'. injection Hx' as ->.
    rewrite Hr, ladj_scal, Hat, vscal_vscal in Hq. assert (Hn : norm2 ((ph * rh) [*] v) = 0) by (rewrite Hq; apply norm2_zero). rewrite norm2_scal, Hv in Hn.
    assert (ph * rh <> 0) by (apply Rmult_integral_contrapositive_currified; lra). assert (ph * rh * (ph * rh) <> 0) by (apply Rmult_integral_contrapositive_currified; auto). lra. }
  destruct (ls_dead_loop B Reg thr (S m) 1 s' (or_intror Hdead) ltac:(lia)) as [r [k [E2 Hr]]]. cbn [for_loop] in E2. rewrite E2. cbn [bind fst]. rewrite Hr. reflexivity.
Qed.

(*! C65_one_unknown_refuted : with the default inner solver SR3 never solves a problem with one unknown: in exact arithmetic, for every
   operator, regulariser, data, kappa > 0, eps, outer limit >= 1 and inner limit >= 2 (the default is 100) the result is NaN, because the
   inner loop does not stop when it has reached the exact solution and divides zero by zero *)
Lemma C65_one_unknown_refuted_l : forall (E D : IPS) p (A : linop E D) (Reg : linop E (Vec p)) data kappa eps x0 n m, 0 < kappa ->
  (forall a b : E, << a, b >> = 0 -> a = vzero \/ b = vzero) ->
  SR3_adaptive A Reg data kappa eps x0 (S n) (S (S m)) = Ok None.
Proof.
  intros E D p A Reg data kappa eps x0 n m Hk H1. unfold SR3_adaptive, SR3. rewrite pydiv_ok by lra. cbn [bind for_loop].
  unfold sr_body at 1, sr_adaptive at 1. rewrite pydiv_ok by lra. cbn [bind sr_v sr_x o1].
  rewrite (lsqr_1d (stackop A (sqrt kappa) Reg) _ _ m _ _ H1). cbn [bind o1 o2 oltb fst snd].
  match goal with |- context [for_loop _ n 1 ?s] => destruct (sr_nan_stays A Reg data kappa eps (S m) Hk n 1%nat s eq_refl) as [s' [j [-> Hs']]] end.
  cbn [bind fst]. rewrite Hs'. reflexivity.
Qed.

(** ** A concrete problem: one unknown, A = L = identity, kappa = 1 *)
Lemma inner1_exact data : exact_inner (id_linop (Vec 1)) (id_linop (Vec 1)) data 1 (inner1 data).
Proof.
  intros v x. eexists. split; [reflexivity|]. split; [exact I|]. intros y _. cbn [eval etot]. unfold inner_obj. cbn [lapp id_linop].
  assert (Hq : 1 / 2 * norm2 (y [-] data) + 1 / 2 * norm2 (y [-] v) - (1 / 2 * norm2 (/ 2 [*] (data [+] v) [-] data) + 1 / 2 * norm2 (/ 2 [*] (data [+] v) [-] v)) = norm2 (y [-] / 2 [*] (data [+] v))) by ifield.
  pose proof (norm2_nonneg (y [-] / 2 [*] (data [+] v))). lra.
Qed.

(*!ex C65_example : A = L = identity on one unknown with the closed-form inner solver meets the hypotheses of C65_sr3 *)
Lemma C65_example_l : 0 < 1 /\ 0 <= 1 /\ exact_inner (id_linop (Vec 1)) (id_linop (Vec 1)) (nl [4] : Vec 1) 1 (inner1 (nl [4])).
Proof. split; [lra|]. split; [lra|]. apply inner1_exact. Qed.

(*!ex C69_example : a start that is not a least-squares solution: B the identity on the line, data 1, x0 = 0 *)
Lemma C69_example_l : ladj (id_linop R_IPS) ((1 : R_IPS) [-] lapp (id_linop R_IPS) (0 : R_IPS)) <> vzero /\
  (forall a b : R_IPS, << a, b >> = 0 -> a = vzero \/ b = vzero).
Proof. split; [cbn; lra|]. intros a b H. cbn in *. apply Rmult_integral. exact H. Qed.

(*! C65_documented_recursion_refuted : the executed recursion is not the documented one (x_(k+1) from y_k, y_(k+1) = prox(L x_(k+1))):
   A = L = identity, data 4, kappa = eps = 1, exact inner solver: the first iterate gives y_1 = 1, the second iterate of SR3 is not
   the minimiser for y_1 *)
Lemma C65_documented_recursion_refuted_l : let I1 := id_linop (Vec 1) in let data := (nl [4] : Vec 1) in
  exact_inner I1 I1 data 1 (inner1 data) /\
  exists x1 y1 x2, SR3 I1 1 1 None 1 (inner1 data) = Ok (Some x1) /\ is_prox (etot (l1n 1)) (/ 1) (lapp I1 x1) y1 /\
    SR3 I1 1 1 None 2 (inner1 data) = Ok (Some x2) /\ ~ is_min (etot (inner_obj I1 I1 data 1 y1)) x2.
Proof.
  intros I1 data. split; [apply inner1_exact|].
  set (x1 := / 2 [*] (data [+] vzero) : Vec 1). set (y1 := softv (1 / 1 * 1) x1). set (th := 2 / (1 + sqrt (1 + 4 / 1 ^ 2))).
  set (v1 := y1 [+] (1 - th) [*] (y1 [-] vzero)). set (x2 := / 2 [*] (data [+] v1) : Vec 1).
  assert (Hy : y1 = nl [1]).
  { apply nlist_eq. unfold y1, softv, powmap, x1, data. simpl. f_equal.
    match goal with |- soft _ ?a = _ => replace a with 2 by (cbn; field) end. destruct (soft_cases (1 / 1 * 1) 2 ltac:(lra)) as [[? ->]|[[? ?]|[? ?]]]; lra. }
  assert (Hn : norm (vzero [-] y1) = 1).
  { replace (vzero [-] y1) with (-1 [*] y1) by vring. rewrite norm_scal, Hy. unfold norm, norm2. simpl. replace (1 * 1 + 0) with 1 by ring. rewrite sqrt_1, Rabs_left; lra. }
  assert (Hn1 : norm y1 = 1). { replace y1 with (-1 [*] (vzero [-] y1)) by vring. rewrite norm_scal, Hn, Rabs_left; lra. }
  assert (Hth : th < 1).
  { unfold th. assert (2 < sqrt (1 + 4 / 1 ^ 2)). { rewrite <- (sqrt_square 2) at 1 by lra. apply sqrt_lt_1; lra. } apply (Rmult_lt_reg_r (1 + sqrt (1 + 4 / 1 ^ 2))); [lra|]. unfold Rdiv at 1. rewrite Rmult_assoc, Rinv_l by lra. lra. }
  assert (Hbody1 : sr_body I1 (1 / 1) 1 (inner1 data) 0 (SR (Some vzero) (Some vzero) (Some vzero) 1) = Ok (SR (Some x1) (Some v1) (Some y1) th, false)).
  { unfold sr_body. cbn [inner1 bind sr_v sr_x sr_w sr_theta o1 o2]. cbn [lapp I1 id_linop]. fold x1. fold y1. cbn [oltb]. rewrite Hn, Hn1.
    destruct (Rltb_spec (1 / Rmax 1 1) (/ 1000000)) as [[Hc _]|[_ ->]]; [rewrite Rmax_left in Hc by lra; lra|]. reflexivity. }
  exists x1, y1, x2. split; [|split; [|split]].
  - unfold SR3. rewrite pydiv_ok by lra. cbn [bind for_loop]. rewrite Hbody1. reflexivity.
  - unfold y1. replace (1 / 1) with (/ 1) by field. cbn [lapp I1 id_linop]. apply softv_prox; lra.
  - unfold SR3. rewrite pydiv_ok by lra. cbn [bind for_loop]. rewrite Hbody1. cbn [bind fst snd]. unfold sr_body. cbn [inner1 bind sr_v sr_x sr_w sr_theta o1 o2]. fold x2.
    destruct (oltb _ _); reflexivity.
  - intros [_ Hm]. specialize (Hm (/ 2 [*] (data [+] y1)) I). cbn [eval etot] in Hm. unfold inner_obj in Hm. cbn [lapp I1 id_linop] in Hm.
    assert (Hq : 1 / 2 * norm2 (x2 [-] data) + 1 / 2 * norm2 (x2 [-] y1) - (1 / 2 * norm2 (/ 2 [*] (data [+] y1) [-] data) + 1 / 2 * norm2 (/ 2 [*] (data [+] y1) [-] y1)) = norm2 (x2 [-] / 2 [*] (data [+] y1))) by ifield.
    assert (Hx2 : x2 [-] / 2 [*] (data [+] y1) = ((1 - th) / 2) [*] y1) by (unfold x2, v1; vfield).
    assert (Hn2 : norm2 y1 = 1) by (rewrite <- norm_sq, Hn1; ring). rewrite Hx2, norm2_scal, Hn2 in Hq. assert (0 < (1 - th) / 2) by lra. nra.
Qed.
