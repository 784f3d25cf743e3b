(** * How far the steps and the relaxation may go *)
From Coq Require Import String Psatz.
From Verif Require Import Base Space Spec Cplx ConvexFacts Smooth VSum M_ProxOp SpecOps P_ProxOp M_Norms P_Norms M_L1 M_L2 P_L1 P_L2 P_L21 M_Objs S_Lasso P_Lasso M_Loop LoopFacts SeqFacts M_PG M_Split M_PD M_Multi SplitMath P_PG P_PG2 P_PG3 P_Split2 P_Split3 P_PD P_PD2 S_Seq Compact Fejer P_Iter P_Iter2 P_Iter3 M_Expr P_Expr P_Expr2 P_Exist P_Exist2 P_Exist3.
From Verif Require Export S_Limit.
Open Scope result_scope.
Open Scope R_scope.

Lemma pin_prox : impl_prox pin1 pin_fun.
Proof. intros x tau Ht. exists 0. split; [reflexivity|]. split; [reflexivity|]. intros y Hy. cbn in Hy. rewrite Hy. apply Rle_refl. Qed.
Lemma pin_dual : impl_proxdual pin1 (etot (fun _ => 0)).
Proof.
  intros y tau Ht. exists y. split; [reflexivity|]. split; [exact I|]. intros v _. cbn [eval etot]. replace (y [-] y) with (vzero : R_IPS) by vring. rewrite norm2_zero.
  pose proof (norm2_nonneg (v [-] y)). assert (0 < / (2 * tau)) by (apply Rinv_0_lt_compat; lra). assert (0 <= / (2 * tau) * norm2 (v [-] y)) by (apply Rmult_le_pos; lra). lra.
Qed.
Lemma pin_convex : convex pin_fun.
Proof. intros x y t Hx Hy Ht. cbn in *. rewrite Hx, Hy. split; [ring|lra]. Qed.
Lemma pin_conj : is_conj pin_fun (etot (fun _ => 0)).
Proof.
  split; [exists 0; reflexivity|]. intro z. split.
  - split; [intros _; exists 0|intros _; exact I]. intros y Hy. cbn in Hy. subst y. cbn. lra.
  - intros _. cbn [eval etot]. split.
    + intros r (y & Hy & ->). cbn in Hy. subst y. cbn. lra.
    + intros M HM. apply HM. exists 0. split; [reflexivity|]. cbn. lra.
Qed.
Lemma zero_convex {E : IPS} : convex (etot (E:=E) (fun _ => 0)).
Proof. intros x y t _ _ Ht. split; [exact I|]. cbn. lra. Qed.
Lemma pin_min : forall y : R_IPS, is_min (eadd (etot (fun _ => 0)) (epre pin_fun (lapp (id_linop R_IPS)))) y <-> y = 0.
Proof.
  intro y. split; [intros [[_ H] _]; exact H|]. intros ->. split; [split; [exact I|reflexivity]|]. intros v [_ Hv]. cbn in *. lra.
Qed.
Lemma pin_min0 : forall y : R_IPS, is_min (eadd (etot (fun _ => 0)) pin_fun) y <-> y = 0.
Proof. exact pin_min. Qed.

(** consecutive terms that stay apart *)
Lemma apart_nocv {E : IPS} (u : nat -> E) d : 0 < d -> (forall n, d <= norm (u (S n) [-] u n)) -> ~ exists l, vcv u l.
Proof.
  intros Hd H [l Hl]. destruct (Hl (d / 2) ltac:(lra)) as [N HN]. pose proof (HN N (le_n N)) as H1. pose proof (HN (S N) (le_S _ _ (le_n N))) as H2.
  specialize (H N). pose proof (norm_triangle (u (S N) [-] l) (vopp (u N [-] l))) as H3.
  replace (u (S N) [-] l [+] vopp (u N [-] l)) with (u (S N) [-] u N) in H3 by (unfold vopp; vring).
  assert (H4 : norm (vopp (u N [-] l)) = norm (u N [-] l)). { unfold norm, vopp. f_equal. unfold norm2. inner_lin_all. ring. } lra.
Qed.
Lemma normR (x : R) : norm (x : R_IPS) = Rabs x.
Proof. unfold norm, norm2. cbn. rewrite <- (sqrt_Rsqr_abs x). reflexivity. Qed.
Lemma pow_nocv lam : lam <= -1 -> ~ exists l, vcv (E:=R_IPS) (fun n => lam ^ n) l.
Proof.
  intro H. apply (apart_nocv (E:=R_IPS) _ 1); [lra|]. intro n. assert (EQ : vsub (E:=R_IPS) (lam ^ S n) (lam ^ n) = lam ^ n * (lam - 1)) by (unfold vsub; cbn; ring).
  rewrite EQ, normR, Rabs_mult. rewrite <- RPow_abs. assert (1 <= Rabs lam ^ n) by (apply pow_R1_Rle; rewrite Rabs_left; lra). rewrite (Rabs_left (lam - 1)) by lra.
  assert (0 <= (Rabs lam ^ n - 1) * (- (lam - 1) - 1)) by (apply Rmult_le_pos; lra). lra.
Qed.

(** the root of (1 - lam)^2 + c (2 lam - 1) = 0 that is below -1 when c >= 4/3 *)
Lemma limit_root c : 4 / 3 <= c -> exists lam, lam <= -1 /\ (1 - lam) * (1 - lam) + c * (2 * lam - 1) = 0.
Proof.
  intro H. exists (1 - c - sqrt (c * c - c)). assert (H0 : 0 <= c * c - c) by nra. pose proof (sqrt_sqrt _ H0) as HS. set (s := sqrt (c * c - c)) in *. split; [|lra].
  destruct (Rle_lt_dec 2 c) as [H2|H2]; [pose proof (sqrt_pos (c * c - c)); fold s in H1; lra|].
  assert (2 - c <= s); [|lra]. unfold s. rewrite <- (sqrt_square (2 - c)) by lra. apply sqrt_le_1_alt. lra.
Qed.

(*! C91_primal_dual_refuted : convergence of PrimalDual can fail as soon as tau mu |A|^2 >= 4/3 (C75_primal_dual proves it up to tau mu |A|^2 = 1): on the
   real line, f = 0, g the indicator of {0}, A the identity, theta = 1; f and g are convex, the operators exact, the saddle point is (0, 0) and 0 the
   only minimiser.  For all steps with tau mu >= 4/3 and either order there are lam <= -1 and a start for which PrimalDual returns lam^n after
   n iterations, which does not converge *)
Lemma C91_primal_dual_refuted_l : let f := etot (fun _ : R_IPS => 0) in let A := id_linop R_IPS in
  impl_prox zero1 f /\ impl_proxdual pin1 f /\ convex f /\ convex pin_fun /\ is_conj pin_fun f /\ saddle A f f vzero 0 0 /\ (forall y, is_min (eadd f (epre pin_fun (lapp A))) y <-> y = 0) /\
  forall tau mu (gfirst : bool), 0 < tau -> 0 < mu -> 4 / 3 <= tau * mu ->
  exists lam y0, lam <= -1 /\
    (forall n, exists y tr, PrimalDual zero1 pin1 A None 1 (Scalar tau) (Scalar mu) (Some y0) None 1 n gfirst = Ok (lam ^ n, y, tr)) /\ ~ exists l, vcv (E:=R_IPS) (fun n => lam ^ n) l.
Proof.
  cbv zeta. split; [exact zero1_prox|]. split; [exact pin_dual|]. split; [exact zero_convex|]. split; [exact pin_convex|]. split; [exact pin_conj|].
  split. { split; split; try exact I; intros y _; cbn; lra. }
  split; [exact pin_min|]. intros tau mu gfirst Ht Hm Hc. destruct (limit_root _ Hc) as (lam & Hl & Hr). set (q := (1 - lam) / tau).
  assert (Hq : tau * q = 1 - lam) by (unfold q; field; lra).
  assert (Hq2 : (lam - 1) * q = mu * (2 * lam - 1)).
  { apply (Rmult_eq_reg_l tau); [|lra]. replace (tau * ((lam - 1) * q)) with ((lam - 1) * (tau * q)) by ring. rewrite Hq. lra. }
  exists lam, (if gfirst then q - mu else q). split; [exact Hl|]. split; [|apply pow_nocv; exact Hl].
  set (body := fun (j : nat) (s : @pd_state R_IPS R_IPS) => pd_body zero1 pin1 (id_linop R_IPS) None None 1 gfirst (repeat tau (S j)) (repeat mu (S j)) j s).
  set (Inv := fun (j : nat) (s : @pd_state R_IPS R_IPS) => pd_x s = lam ^ j /\ (if gfirst then (pd_y s : R) + mu * pd_hat s = q * lam ^ j else (pd_y s : R) = q * lam ^ j)).
  destruct (loop_seq body Inv (fun _ _ _ => True) (PD (1 : R_IPS) ((if gfirst then q - mu else q) : R_IPS) (1 : R_IPS) [])) as (st & S0 & Hrun & HI & _).
  - split; cbn [pd_x pd_y pd_hat]; [reflexivity|]. destruct gfirst; cbn [pow]; lra.
  - intros j [x y h tr] [Hx Hy]. cbn [pd_x pd_y pd_hat] in Hx, Hy. unfold body, pd_body, getitem. rewrite !nth_error_repeat by lia. unfold Inv. cbn [pd_x pd_y pd_hat bind rmatvec_plus o_prox o_proxdual zero1 pin1].
    destruct gfirst; (eexists; split; [reflexivity|]; split; [exact I|]; cbn [pd_x pd_y pd_hat]).
    + assert (X : (x [-] tau [*] ladj (id_linop R_IPS) (y [+] mu [*] lapp (id_linop R_IPS) h) : R) = lam ^ S j).
      { unfold vsub. cbn. cbn in Hy, Hx. rewrite Hy, Hx. replace (tau * (q * lam ^ j)) with ((tau * q) * lam ^ j) by ring. rewrite Hq. ring. }
      rewrite X. split; [reflexivity|]. unfold vsub. cbn. cbn in Hx, Hy. rewrite Hy, Hx. apply (f_equal (fun r => r * lam ^ j)) in Hq2. lra.
    + assert (X : (x [-] tau [*] ladj (id_linop R_IPS) y : R) = lam ^ S j).
      { unfold vsub. cbn. cbn in Hy, Hx. rewrite Hy, Hx. replace (tau * (q * lam ^ j)) with ((tau * q) * lam ^ j) by ring. rewrite Hq. ring. }
      rewrite X. split; [reflexivity|]. unfold vsub. cbn. cbn in Hx, Hy. rewrite Hy, Hx. apply (f_equal (fun r => r * lam ^ j)) in Hq2. lra.
  - intro n. exists (pd_y (st n)), (pd_tr (st n)). unfold PrimalDual. rewrite (for_loop_ext _ body).
    + rewrite Hrun. cbn [bind fst]. destruct (HI n) as [-> _]. reflexivity.
    + intros j s Hj. unfold body, pd_body, getitem. cbn [steps_arr]. rewrite !nth_error_repeat by lia. reflexivity.
Qed.

(*! C91_linearized_admm_refuted : LinearizedADMM converges for mu |A|^2 <= tau, the documented limit included (C75_linearized_admm); for mu |A|^2 >= 4/3 tau it can
   fail: f = 0, g the indicator of {0}, A the identity on the real line (the only minimiser is 0): for every tau > 0, mu >= 4/3 tau and every start
   x0 <> 0 the returned x do not converge *)
Lemma C91_linearized_admm_refuted_l : let f := etot (fun _ : R_IPS => 0) in let A := id_linop R_IPS in
  impl_prox zero1 f /\ impl_prox pin1 pin_fun /\ convex f /\ convex pin_fun /\ kktA f pin_fun A 0 0 /\ (forall y, is_min (eadd f (epre pin_fun (lapp A))) y <-> y = 0) /\
  forall tau mu (x0 : R), 0 < tau -> 4 / 3 * tau <= mu -> x0 <> 0 ->
  exists xs zs, (forall n, exists tr, LinearizedADMM zero1 pin1 A (Some (x0 : R_IPS)) tau mu n None = Ok (xs n, zs n, tr)) /\ ~ exists l, vcv xs l.
Proof.
  cbv zeta. split; [exact zero1_prox|]. split; [exact pin_prox|]. split; [exact zero_convex|]. split; [exact pin_convex|].
  split. { split; split; try exact I; try reflexivity; intros y Hy; cbn; lra. }
  split; [exact pin_min|]. intros tau mu x0 Ht Hm Hx0. set (c := mu / tau). assert (Hc : 4 / 3 <= c) by (unfold c; apply (Rmult_le_reg_r tau); [exact Ht|]; replace (mu / tau * tau) with mu by (field; lra); exact Hm).
  destruct (loop_seq (la_body zero1 pin1 (id_linop R_IPS) tau mu) (fun j s => match j with O => la_x s = x0 /\ la_Ax s = x0 /\ la_z s = x0 /\ la_u s = 0 | S _ => la_Ax s = la_x s /\ la_z s = 0 end)
     (fun j s s' => (la_x s' : R) = la_x s - c * (la_Ax s - la_z s + la_u s) /\ (la_u s' : R) = la_u s + la_x s') (LA (x0 : R_IPS) (x0 : R_IPS) (x0 : R_IPS) (vzero : R_IPS) [])) as (st & S0 & Hrun & HI & HR); [cbn; auto| |].
  { intros j s _. unfold la_body. rewrite pydiv_ok by lra. cbn [bind o_prox zero1 pin1]. eexists. split; [reflexivity|]. cbn [la_x la_z la_u la_Ax]. split; [|split; reflexivity].
    fold c. unfold vsub. cbn. split; ring. }
  exists (fun k => la_x (st k)), (fun k => la_z (st k)). split; [intro n; exists (la_tr (st n)); unfold LinearizedADMM; cbn [x0z0_initA bind fst snd]; cbn [lapp id_linop]; rewrite Hrun; reflexivity|].
  set (x := fun n => la_x (st (S n)) : R). set (u := fun n => la_u (st (S n)) : R).
  assert (X0 : x 0%nat = x0 /\ u 0%nat = x0).
  { destruct (HI 0%nat) as (I1 & I2 & I3 & I4). destruct (HR 0%nat) as [R1 R2]. unfold x, u. rewrite R2, R1, I1, I2, I3, I4. split; ring. }
  assert (XS : forall n, x (S n) = (1 - c) * x n - c * u n /\ u (S n) = (1 - c) * x n + (1 - c) * u n).
  { intro n. destruct (HI (S n)) as (I1 & I2). destruct (HR (S n)) as [R1 R2]. unfold x, u. rewrite R2, R1, I1, I2. split; ring. }
  assert (H0 : 0 <= c * c - c) by nra. pose proof (sqrt_sqrt _ H0) as HS. set (s := sqrt (c * c - c)) in *. set (lam := 1 - c - s).
  assert (Hlam : lam <= -1).
  { unfold lam. assert (Hs0 : 0 <= s) by apply sqrt_pos. destruct (Rle_lt_dec 2 c) as [H2|H2]; [lra|]. assert (2 - c <= s); [|lra]. unfold s. rewrite <- (sqrt_square (2 - c)) by lra. apply sqrt_le_1_alt. lra. }
  assert (P : forall n, s * x n + c * u n = lam ^ n * ((s + c) * x0)).
  { induction n as [|n IH]; [destruct X0 as [-> ->]; cbn [pow]; ring|]. destruct (XS n) as [-> ->]. cbn [pow]. rewrite Rmult_assoc, <- IH. unfold lam.
    replace ((1 - c - s) * (s * x n + c * u n)) with ((1 - c) * (s * x n) - (s * s) * x n + (1 - c - s) * (c * u n)) by ring. rewrite HS. ring. }
  intros [l Hl]. apply (pow_nocv lam Hlam). assert (Hp : (s + c) * x0 <> 0) by (assert (0 <= s) by apply sqrt_pos; apply Rmult_integral_contrapositive_currified; lra).
  exists (/ ((s + c) * x0) * (s * l + (1 - c) * l - l)).
  apply (vcv_ext (E:=R_IPS) (fun n => / ((s + c) * x0) [*] (s [*] la_x (st (S n)) [+] (1 - c) [*] la_x (st (S n)) [-] la_x (st (S (S n)))))).
  - intro n. assert (EQ : / ((s + c) * x0) * (s * x n + c * u n) = lam ^ n) by (rewrite P; field; split; [exact Hx0|intro Z; apply Hp; rewrite Z; ring]). rewrite <- EQ. unfold vsub. cbn. fold (x n). fold (x (S n)). destruct (XS n) as [-> _]. ring.
  - assert (EQ : (/ ((s + c) * x0) * (s * l + (1 - c) * l - l) : R_IPS) = / ((s + c) * x0) [*] (s [*] l [+] (1 - c) [*] l [-] l)) by (unfold vsub; cbn; ring). rewrite EQ.
    apply vcv_scal. apply vcv_minus; [apply vcv_add; apply vcv_scal; apply (vcv_shift (fun k => la_x (st k))); exact Hl|]. apply (vcv_shift (fun k => la_x (st (S k)))), (vcv_shift (fun k => la_x (st k))). exact Hl.
Qed.

(*! C91_relaxation_refuted : the documentation of DouglasRachfordSplitting and PPXA asks for eta "between 0 and 2, 0 excluded".  At eta = 2 convergence fails:
   with the functions 0 and indicator of {0} on the real line (0 is the only minimiser), for every tau > 0, every x0 <> 0 and either
   order, DouglasRachfordSplitting returns (-1)^n x0 after n+1 iterations; with two copies of the indicator, PPXA visits (-1)^n x0 (never stopping when
   the tolerance is at most 2 |x0|).  Neither converges *)
Lemma C91_relaxation_refuted_l : let f := etot (fun _ : R_IPS => 0) in
  impl_prox zero1 f /\ impl_prox pin1 pin_fun /\ convex f /\ convex pin_fun /\ (forall y, is_min (eadd f pin_fun) y <-> y = 0) /\ (forall y, is_min (eadd pin_fun pin_fun) y <-> y = 0) /\
  forall tau (x0 : R), 0 < tau -> x0 <> 0 ->
  (forall n, exists y tr, DouglasRachford zero1 pin1 (x0 : R_IPS) tau 2 (S n) false = Ok ((-1) ^ n * x0, y, tr)) /\
  (forall n, exists y tr, DouglasRachford pin1 zero1 (x0 : R_IPS) tau 2 (S n) true = Ok ((-1) ^ n * x0, y, tr)) /\
  (forall n t, t <= 2 * Rabs x0 -> exists tr, PPXA [pin1; pin1] (Common (x0 : R_IPS)) tau 2 None n (fun d : R_IPS => Rabs d) (Some t) = Ok ((-1) ^ n * x0, tr)) /\
  ~ exists l, vcv (E:=R_IPS) (fun n => (-1) ^ n * x0) l.
Proof.
  cbv zeta. split; [exact zero1_prox|]. split; [exact pin_prox|]. split; [exact zero_convex|]. split; [exact pin_convex|]. split; [exact pin_min0|].
  split. { intro y. split; [intros [[H _] _]; exact H|]. intros ->. split; [split; reflexivity|]. intros v _. cbn. lra. }
  intros tau x0 Ht Hx0.
  assert (DR : forall (gf : bool) (o1 o2 : Op R_IPS), (if gf then (o1, o2) = (pin1, zero1) else (o1, o2) = (zero1, pin1)) -> forall n, exists y tr, DouglasRachford o1 o2 (x0 : R_IPS) tau 2 (S n) gf = Ok ((-1) ^ n * x0, y, tr)).
  { intros gf o1 o2 Ho n.
    destruct (loop_seq (dr_body o1 o2 tau 2 gf) (fun j s => (d_y s : R) = (-1) ^ j * x0) (fun j s s' => d_x s' = Some ((-1) ^ j * x0 : R_IPS)) (DR None (x0 : R_IPS) [])) as (st & S0 & Hrun & HI & HR); [cbn; ring| |].
    - intros j s Hs. unfold dr_body. destruct gf; injection Ho as -> ->; cbn [bind o_prox zero1 pin1 fst snd]; (eexists; split; [reflexivity|]; cbn [d_x d_y]; split; [rewrite <- Hs; reflexivity|]; unfold vsub; cbn; cbn in Hs; rewrite Hs; ring).
    - exists (d_y (st (S n))), (d_tr (st (S n))). unfold DouglasRachford. rewrite Hrun. cbn [bind fst]. rewrite HR. reflexivity. }
  split; [apply (DR false); reflexivity|]. split; [apply (DR true); reflexivity|]. split.
  - intros n t Htol.
    assert (L : forall m j (s : ppxa_state R_IPS), (px_x s : R) = (-1) ^ j * x0 -> px_old s = px_x s -> List.length (px_y s) = 2%nat -> exists s', for_loop (ppxa_body [pin1; pin1] [1 / 2; 1 / 2] tau 2 (fun d : R_IPS => Rabs d) (Some t)) m j s = Ok (s', (j + m)%nat) /\ (px_x s' : R) = (-1) ^ (j + m) * x0).
    { induction m as [|m IH]; intros j s H1 H2 H3.
      - exists s. rewrite Nat.add_0_r. split; [reflexivity|exact H1].
      - cbn [for_loop]. destruct s as [[|y1 [|y2 [|]]] x xo tr]; cbn [px_y List.length] in H3; try discriminate. cbn [px_x px_old] in H1, H2. subst xo.
        unfold ppxa_body at 1. cbn [px_x px_y px_old px_tr mapM]. rewrite pydiv_ok by lra. cbn [bind stack_all prox_all o_prox pin1 wsum map2]. unfold abs_stop.
        set (x' := (x [+] 2 [*] (wsum [1 / 2; 1 / 2] [0 : R_IPS; 0 : R_IPS] [-] x)) : R_IPS).
        assert (X' : (x' : R) = (-1) ^ S j * x0) by (unfold x', wsum, vsub, vsum; cbn; cbn in H1; rewrite H1; ring).
        destruct (Rltb_spec (Rabs (x' [-] x)) t) as [[Hlt _]|[_ ->]].
        + exfalso. assert (D : (x' [-] x : R) = (-1) ^ S j * (2 * x0)) by (change (x' [-] x) with ((x' : R) + -1 * (x : R)); rewrite X'; cbn in H1; rewrite H1; cbn [pow]; ring). rewrite D, Rabs_mult, <- RPow_abs, (Rabs_left (-1)), Rabs_mult, (Rabs_right 2) in Hlt by lra.
          replace (- -1) with 1 in Hlt by ring. rewrite pow1 in Hlt. lra.
        + cbn [bind]. destruct (IH (S j) (PX [y1 [+] 2 [*] (2 [*] wsum [1 / 2; 1 / 2] [0 : R_IPS; 0 : R_IPS] [-] x [-] (0 : R_IPS)); y2 [+] 2 [*] (2 [*] wsum [1 / 2; 1 / 2] [0 : R_IPS; 0 : R_IPS] [-] x [-] (0 : R_IPS))] x' x' (tr ++ [x']))) as (s' & E1 & E2); [exact X'|reflexivity|reflexivity|].
          exists s'. replace (j + S m)%nat with (S j + m)%nat by lia. split; [exact E1|exact E2]. }
    unfold PPXA. cbn [List.length]. rewrite pydiv_ok by (cbn; lra). cbn [bind repeat]. replace (1 / INR 2) with (1 / 2) by (cbn; field). cbn [List.length Nat.eqb andb negb].
    destruct (L n 0%nat (PX [x0 : R_IPS; x0 : R_IPS] (vmean [x0 : R_IPS; x0 : R_IPS]) (vmean [x0 : R_IPS; x0 : R_IPS]) [])) as (s' & E1 & E2); [unfold vmean, vsum; cbn; field|reflexivity|reflexivity|].
    rewrite E1. cbn [bind fst]. exists (px_tr s'). cbn in E2. rewrite E2. reflexivity.
  - intros [l Hl]. apply (pow_nocv (-1)); [lra|]. exists (/ x0 * l). apply (vcv_ext (E:=R_IPS) (fun n => / x0 [*] (((-1) ^ n * x0) : R_IPS))).
    + intro n. cbn. field. exact Hx0.
    + change (vcv (E:=R_IPS) (fun n => / x0 [*] (((-1) ^ n * x0) : R_IPS)) (/ x0 [*] l)). apply vcv_scal. exact Hl.
Qed.

(*! C91_gradient_refuted : ProximalGradient (eta = 1, fixed step, no acceleration) converges for tau < 2/L (C75_proximal_gradient); from tau = 2/L on it can
   fail: f = L/2 x^2, g = 0 on the real line, x0 = 1: for every tau >= 2/L it returns (1 - tau L)^n, which does not converge, while the only minimiser is 0 *)
Lemma C91_gradient_refuted_l : forall L tau, 0 < L -> 2 <= tau * L ->
  smooth_op (quad1 L) (fun x : R_IPS => L / 2 * (x * x)) (fun x : R_IPS => L * x) L /\ impl_prox zero1 (etot (E:=R_IPS) (fun _ => 0)) /\
  (forall y, is_min (eadd (etot (fun x : R_IPS => L / 2 * (x * x))) (etot (fun _ => 0))) y <-> y = 0) /\
  (forall n beta niterback, exists tr, ProximalGradient (quad1 L) zero1 1 [1] (Some tau) false beta 1 (S n) niterback None None = Ok ((1 - tau * L) ^ S n, tr)) /\
  ~ exists l, vcv (E:=R_IPS) (fun n => (1 - tau * L) ^ n) l.
Proof.
  intros L tau HL Ht. split; [apply quad1_smooth; exact HL|]. split; [exact zero1_prox|]. split.
  { intro y. split.
    - intros [_ H]. specialize (H 0 (Logic.conj I I)). cbn in H. change R in (type of y). assert (Z : y * y = 0) by (pose proof (Rle_0_sqr y) as P; unfold Rsqr in P; nra).
      apply Rmult_integral in Z. destruct Z; assumption.
    - intros ->. split; [split; exact I|]. intros v _. cbn. change R in (type of v). pose proof (Rle_0_sqr v) as P. unfold Rsqr in P. assert (0 <= L / 2 * (v * v)) by (apply Rmult_le_pos; lra). lra. }
  split; [|apply pow_nocv; lra]. intros n beta niterback.
  assert (P : forall m j (s : pg_state R_IPS), (j + m <= S n)%nat -> (pg_x s : R) = (1 - tau * L) ^ j -> pg_y s = pg_x s -> pg_tau s = tau ->
    exists s', for_loop (pg_body (quad1 L) zero1 (repeat 1 (S n)) false beta 1 niterback None None) m j s = Ok (s', (j + m)%nat) /\ (pg_x s' : R) = (1 - tau * L) ^ (j + m)).
  { induction m as [|m IH]; intros j s Hj Hx Hy Htau.
    - exists s. rewrite Nat.add_0_r. split; [reflexivity|exact Hx].
    - cbn [for_loop]. unfold pg_body at 1, getitem. rewrite nth_error_repeat by lia. cbn [bind]. unfold pg_prox_step. destruct (Reqb_spec 1 1) as [[_ ->]|[Z _]]; [|lra].
      unfold get_grad. cbn [o_grad quad1 bind o_prox zero1 fst snd accel_is]. cbn [bind].
      assert (X : (pg_y s [-] pg_tau s [*] ((L * pg_y s) : R_IPS) : R) = (1 - tau * L) ^ S j) by (rewrite Hy, Htau; unfold vsub; cbn; cbn in Hx; rewrite Hx; ring).
      edestruct (IH (S j)) as (s' & E1 & E2); [| | | |exists s'; replace (j + S m)%nat with (S j + m)%nat by lia; split; [exact E1|exact E2]].
      + lia.
      + exact X.
      + cbn [pg_x pg_y]. vring.
      + cbn [pg_tau]. exact Htau. }
  unfold ProximalGradient. cbn [pg_epsg bind accel_known].
  destruct (P (S n) 0%nat (PG (1 : R_IPS) (1 : R_IPS) 1 tau None [])) as (s' & E1 & E2); [lia|reflexivity|reflexivity|reflexivity|].
  rewrite E1. cbn [bind fst]. exists (pg_tr s'). cbn in E2. rewrite E2. reflexivity.
Qed.

(*! C91_denoising : the parameters of the denoising tutorial: sigma/2 |x - b|^2 + lam |A x| (L2 data term with L21 or L1 on any linear operator A, sigma, lam > 0),
   Lm > 0 any bound on the largest eigenvalue of A^T A (8 for the gradient): PrimalDual with mu = 1/(tau Lm) and LinearizedADMM with mu = tau/Lm
   converge to the only minimiser, for every tau > 0 and every start *)
Lemma C91_denoising_l : forall fuel n (G : IPS) (ext : L2Ext (Vec n) G) cfg b sigma xw st ch m k lam (A : linop (Vec n) (Pow (Vec m) k)) (A' : linop (Vec n) (Vec m)) w,
  l2_exact ext -> l2_reached ext cfg sigma xw st -> (forall x tau, l2_reached ext cfg sigma xw (ch x tau)) -> l2_d cfg = OnlyB b -> l2_q cfg = None -> 0 < sigma -> 0 < lam -> nonneg_list w ->
  let e1 := XL2 (Vec n) G ext cfg sigma xw st ch in
  exists o1 o2 o3 x2 x3, build fuel e1 = Ok o1 /\ build fuel (XL21 m k lam) = Ok o2 /\ (forall c0 c, build fuel (XL1 m w None c0 c) = Ok (o3 c0 c)) /\
  (forall y, is_min (etot (fun x => sigma / 2 * norm2 (x [-] b) + group_norm lam (A x))) y <-> y = x2) /\
  (forall y, is_min (etot (fun x => sigma / 2 * norm2 (x [-] b) + wl1 w vzero (A' x))) y <-> y = x3) /\
  forall x0 tau Lm gfirst c0 c, 0 < tau -> 0 < Lm ->
  ((forall a, norm2 (A a) <= Lm * norm2 a) ->
    (exists xs ys, (forall n, exists tr, PrimalDual o1 o2 A None x0 (Scalar tau) (Scalar (1 / (tau * Lm))) None None 1 n gfirst = Ok (xs n, ys n, tr)) /\ vcv xs x2) /\
    (exists xs zs, (forall n, exists tr, LinearizedADMM o1 o2 A (Some x0) tau (tau / Lm) n None = Ok (xs n, zs n, tr)) /\ vcv xs x2)) /\
  ((forall a, norm2 (A' a) <= Lm * norm2 a) ->
    (exists xs ys, (forall n, exists tr, PrimalDual o1 (o3 c0 c) A' None x0 (Scalar tau) (Scalar (1 / (tau * Lm))) None None 1 n gfirst = Ok (xs n, ys n, tr)) /\ vcv xs x3) /\
    (exists xs zs, (forall n, exists tr, LinearizedADMM o1 (o3 c0 c) A' (Some x0) tau (tau / Lm) n None = Ok (xs n, zs n, tr)) /\ vcv xs x3)).
Proof.
  intros fuel n G ext cfg b sigma xw st ch m k lam A A' w H1 H2 H3 Hd Hq Hs Hl Hw e1.
  destruct (C85_denoising_l fuel n G ext cfg b sigma xw st ch m k lam A A' w H1 H2 H3 Hd Hq Hs Hl Hw) as (o1 & o2 & o3 & x2 & x3 & B1 & B2 & B3 & U2 & U3 & R).
  exists o1, o2, o3, x2, x3. split; [exact B1|]. split; [exact B2|]. split; [exact B3|]. split; [exact U2|]. split; [exact U3|].
  intros x0 tau Lm gfirst c0 c Ht HL. assert (Hp : 0 < tau * Lm) by (apply Rmult_lt_0_compat; assumption).
  destruct (R x0 tau (1 / (tau * Lm)) 1 gfirst c0 c Ht ltac:(apply Rdiv_lt_0_compat; lra) ltac:(lra)) as (P1 & _ & P3 & _).
  destruct (R x0 tau (tau / Lm) 1 gfirst c0 c Ht ltac:(apply Rdiv_lt_0_compat; lra) ltac:(lra)) as (_ & P2 & _ & P4).
  assert (K1 : forall u v, u <= Lm * v -> tau * (1 / (tau * Lm)) * u <= 1 * v).
  { intros u v H. apply (Rmult_le_reg_l Lm); [exact HL|]. replace (Lm * (tau * (1 / (tau * Lm)) * u)) with u by (field; lra). lra. }
  assert (K2 : forall u v, u <= Lm * v -> tau / Lm * u <= 1 * tau * v).
  { intros u v H. apply (Rmult_le_reg_l (Lm / tau)); [apply Rdiv_lt_0_compat; lra|]. replace (Lm / tau * (tau / Lm * u)) with u by (field; lra). replace (Lm / tau * (1 * tau * v)) with (Lm * v) by (field; lra). exact H. }
  split; intro H; split.
  - apply P1. intro a. apply K1, H.
  - apply P2. intro a. apply K2, H.
  - apply P3. intro a. apply K1, H.
  - apply P4. intro a. apply K2, H.
Qed.

(*!ex C91_example : the limit itself: f = (x-1)^2/2 and g = x^2/2 on the real line, A the identity, tau = mu = 1, start 3: LinearizedADMM converges to the minimiser 1/2;
   and the identity meets the condition of C91_denoising with Lm = 1 *)
Lemma C91_example_l : (exists xs zs : nat -> R_IPS, (forall n, exists tr, LinearizedADMM shifted1 (quad1 1) (id_linop R_IPS) (Some 3) 1 1 n None = Ok (xs n, zs n, tr)) /\ vcv xs (1/2 : R_IPS)) /\
  (forall n (a : Vec n), norm2 (lapp (id_linop (Vec n)) a) <= 1 * norm2 a) /\ 4 / 3 <= 2 * 1.
Proof.
  split; [|split; [intros n a; cbn [lapp id_linop]; lra|lra]].
  pose proof (proj1 C75_arrays_l) as HB. pose proof C47_example_l as H0. cbv zeta in H0. destruct H0 as [P1 [P2 [P3 [P4 [K _]]]]].
  pose proof C51_example_l as H1. cbv zeta in H1. destruct H1 as (_ & _ & _ & _ & KA & _).
  destruct (C75_linearized_admm_l R_IPS R_IPS shifted1 (quad1 1) _ _ (id_linop R_IPS) 1 1 1 (Some 3) None 3 3 HB HB P1 P2 P3 P4 ltac:(lra) ltac:(lra) ltac:(lra)) as (xs & zs & l & H1 & H2 & H3 & _); [intro a; simpl; lra|reflexivity|eauto|].
  apply min_half in H2. subst l. exists xs, zs. auto.
Qed.
