(** * ProximalPoint on functions with a sharp minimum, and splitting a step (M_PG.v, M_L1.v, M_Norms.v) *)
From Coq Require Import String Psatz.
From Verif Require Import Base Space Spec ConvexFacts Smooth VSum MatFacts Sep M_ProxOp SpecOps P_ProxOp M_Norms P_Norms M_L1 M_L2 P_L1 P_L2 P_L21 M_Objs S_L1 S_Lasso P_Lasso M_Loop LoopFacts SeqFacts M_PG SplitMath S_PG P_PG S_Sparse P_PG2 S_PG2 P_Pnp P_Proj2 P_Ident.
From Verif Require Export S_Sharp.
Open Scope result_scope.
Open Scope R_scope.

Lemma pp_runs {E : IPS} (o : Op E) (f : efun E) x0 tau niter : impl_prox o f -> 0 < tau ->
  exists xs, ProximalPoint o x0 tau niter None = Ok (xs niter, map xs (seq 1 niter)) /\ xs 0%nat = x0 /\ pp_seq f tau xs niter.
Proof.
  intros Hp Ht. assert (Hok : exists x tr, ProximalPoint o x0 tau niter None = Ok (x, tr)).
  { unfold ProximalPoint. destruct (for_loop_total (pp_body o tau None) (fun _ _ => True) niter 0%nat (PP x0 None [])) as [s [k Ek]]; auto.
    - intros j s _ _. unfold pp_body. destruct (Hp (pp_x s) tau Ht) as [p [-> _]]. simpl. eauto.
    - rewrite Ek. simpl. eauto. }
  destruct Hok as [x [tr Hok]]. destruct (pp_result o f x0 tau niter x tr Hp Ht Hok) as [xs [Hx [Htr [H0 Hs]]]]. exists xs. rewrite Hok, Hx, Htr. auto.
Qed.

Lemma sharp_step {E : IPS} (f : efun E) c xo t x p : convex f -> 0 < t -> 0 < c -> sharp_min f c xo -> is_prox f t x p -> norm (p [-] xo) <= Rmax 0 (norm (x [-] xo) - c * t).
Proof.
  intros Hc Ht Hcp [Ho Hs] Hp. destruct (norm0_or (p [-] xo)) as [Hz|Hpos]; [rewrite Hz; apply Rmax_l|].
  eapply Rle_trans; [|apply Rmax_r]. pose proof (prox_vi f t x p xo Hc Ht Hp Ho) as H. pose proof (Hs p (proj1 Hp)) as H1.
  assert (H2 : t * (c * norm (p [-] xo)) <= << x [-] p, p [-] xo >>) by (eapply Rle_trans; [|exact H]; apply Rmult_le_compat_l; lra).
  pose proof (CS (x [-] p) (p [-] xo)) as HCS.
  assert (H3 : t * c <= norm (x [-] p)) by (apply Rmult_le_reg_r with (norm (p [-] xo)); [auto|]; nra).
  assert (H4 : (norm (p [-] xo) + c * t) * (norm (p [-] xo) + c * t) <= norm (x [-] xo) * norm (x [-] xo)).
  { rewrite (norm_sq (x [-] xo)). replace (x [-] xo) with ((x [-] p) [+] (p [-] xo)) by vring. rewrite norm2_add, <- !norm_sq.
    assert (t * c * (t * c) <= norm (x [-] p) * norm (x [-] p)) by (apply Rmult_le_compat; nra). nra. }
  pose proof (norm_nonneg (x [-] xo)). assert (0 < c * t) by nra. nra.
Qed.

(*! C110_sharp : if the convex f grows at least with slope c > 0 around its minimiser xo, ProximalPoint comes nearer to xo by c tau in every iteration until it has reached it,
   so that any number of iterations from |x0 - xo|/(c tau) on returns xo exactly *)
Lemma C110_sharp_l : forall (E : IPS) (o : Op E) (f : efun E) c xo x0 tau k, impl_prox o f -> convex f -> 0 < tau -> 0 < c -> sharp_min f c xo ->
  exists x tr, ProximalPoint o x0 tau k None = Ok (x, tr) /\ norm (x [-] xo) <= Rmax 0 (norm (x0 [-] xo) - INR k * (c * tau)) /\ (norm (x0 [-] xo) <= INR k * (c * tau) -> x = xo).
Proof.
  intros E o f c xo x0 tau k Hp Hc Ht Hcp Hs. destruct (pp_runs o f x0 tau k Hp Ht) as (xs & Hrun & H0 & Hst).
  assert (K : forall j, (j <= k)%nat -> norm (xs j [-] xo) <= Rmax 0 (norm (x0 [-] xo) - INR j * (c * tau))).
  { induction j as [|j IH]; intro Hj.
    - rewrite H0. cbn [INR]. eapply Rle_trans; [|apply Rmax_r]. lra.
    - pose proof (sharp_step f c xo tau (xs j) (xs (S j)) Hc Ht Hcp Hs (Hst j ltac:(lia))) as H. specialize (IH ltac:(lia)). rewrite S_INR. assert (0 < c * tau) by nra.
      eapply Rle_trans; [exact H|]. unfold Rmax in *. repeat destruct (Rle_dec _ _); lra. }
  exists (xs k), (map xs (seq 1 k)). split; [exact Hrun|]. specialize (K k (le_n k)). split; [exact K|]. intro Hk. rewrite Rmax_left in K by lra.
  assert (Hz : norm (xs k [-] xo) = 0) by (pose proof (norm_nonneg (xs k [-] xo)); lra). apply norm_eq0 in Hz. apply vsub_eq. exact Hz.
Qed.

Lemma split_prox {E : IPS} (f : efun E) s t x p q : convex f -> keeps_subgrads f -> 0 < s -> 0 < t -> is_prox f s x p -> is_prox f t p q -> is_prox f (s + t) x q.
Proof.
  intros Hc Hk Hs Ht H1 H2. apply subgrad_prox; [lra|]. pose proof (prox_subgrad f s x p Hc Hs H1) as S1. pose proof (prox_subgrad f t p q Hc Ht H2) as [D2 S2].
  apply (Hk t p q _ Ht S1) in H2. destruct H2 as [D1 S1']. split; [exact D1|]. intros y Hy. specialize (S1' y Hy). specialize (S2 y Hy). rewrite inner_scal_l in *.
  assert (E1 : << x [-] q, y [-] q >> = << x [-] p, y [-] q >> + << p [-] q, y [-] q >>) by iring. rewrite E1.
  set (a := << x [-] p, y [-] q >>) in *. set (b := << p [-] q, y [-] q >>) in *. set (d := eval f y - eval f q).
  assert (A : a <= s * d) by (apply Rmult_le_reg_l with (/ s); [apply Rinv_0_lt_compat; lra|]; rewrite <- Rmult_assoc, Rinv_l by lra; unfold d; lra).
  assert (B : b <= t * d) by (apply Rmult_le_reg_l with (/ t); [apply Rinv_0_lt_compat; lra|]; rewrite <- Rmult_assoc, Rinv_l by lra; unfold d; lra).
  assert (/ (s + t) * (a + b) <= d); [|unfold d in *; lra]. apply Rmult_le_reg_l with (s + t); [lra|]. rewrite <- Rmult_assoc, Rinv_r by lra. lra.
Qed.

(*! C110_split : if every subgradient of the convex f stays one after a proximal step, a step s followed by a step t is one step s + t, and k iterations of ProximalPoint with
   tau return prox(x0, k tau) *)
Lemma C110_split_l : forall (E : IPS) (o : Op E) (f : efun E), impl_prox o f -> convex f -> keeps_subgrads f ->
  (forall x s t, 0 < s -> 0 < t -> exists p q, o_prox o x s = Ok p /\ o_prox o p t = Ok q /\ o_prox o x (s + t) = Ok q) /\
  (forall x0 tau k, 0 < tau -> exists x tr, ProximalPoint o x0 tau (S k) None = Ok (x, tr) /\ o_prox o x0 (INR (S k) * tau) = Ok x).
Proof.
  intros E o f Hp Hc Hk. split.
  - intros x s t Hs Ht. destruct (Hp x s Hs) as (p & E1 & P1). destruct (Hp p t Ht) as (q & E2 & P2). destruct (Hp x (s + t) ltac:(lra)) as (r & E3 & P3). exists p, q. split; [exact E1|]. split; [exact E2|].
    rewrite E3. f_equal. apply (prox_unique f (s + t) x); auto; [lra|]. apply (split_prox f s t x p q); auto.
  - intros x0 tau k Ht. destruct (pp_runs o f x0 tau (S k) Hp Ht) as (xs & Hrun & H0 & Hst). exists (xs (S k)), (map xs (seq 1 (S k))). split; [exact Hrun|].
    assert (K : forall j, (j <= k)%nat -> is_prox f (INR (S j) * tau) x0 (xs (S j))).
    { induction j as [|j IH]; intro Hj; [rewrite <- H0; replace (INR 1 * tau) with tau by (cbn [INR]; ring); apply Hst; lia|].
      replace (INR (S (S j)) * tau) with (INR (S j) * tau + tau) by (rewrite (S_INR (S j)); ring).
      apply (split_prox f _ tau x0 (xs (S j))); auto; [apply Rmult_lt_0_compat; [apply lt_0_INR; lia|auto]|apply IH; lia|apply Hst; lia]. }
    assert (Hkt : 0 < INR (S k) * tau) by (apply Rmult_lt_0_compat; [apply lt_0_INR; lia|auto]). destruct (Hp x0 (INR (S k) * tau) Hkt) as (r & E3 & P3). rewrite E3. f_equal. apply (prox_unique f (INR (S k) * tau) x0); auto.
Qed.

Lemma homog_keep {E : IPS} (g : E -> R) p q u : (forall c y, 0 <= c -> g (c [*] y) = c * g y) -> g (p [-] q) + g q <= g p -> is_subgrad (etot g) p u -> is_subgrad (etot g) q u.
Proof.
  intros Hh Hpq [_ Hu]. split; [exact I|]. intros y _. cbn [eval etot] in *.
  pose proof (Hu (0 [*] p) I) as H0. pose proof (Hu (2 [*] p) I) as H2. rewrite Hh in H0, H2 by lra. replace (<< u, 0 [*] p [-] p >>) with (- << u, p >>) in H0 by iring. replace (<< u, 2 [*] p [-] p >>) with (<< u, p >>) in H2 by iring.
  pose proof (Hu y I) as Hy. pose proof (Hu (p [-] q) I) as Hd. replace (<< u, y [-] p >>) with (<< u, y >> - << u, p >>) in Hy by iring. replace (<< u, p [-] q [-] p >>) with (- << u, q >>) in Hd by iring.
  replace (<< u, y [-] q >>) with (<< u, y >> - << u, q >>) by iring. lra.
Qed.

(*! C110_keeps : the Euclidean norm, the L1 norm, every linear function and every indicator (Box, balls, half-spaces, ... ) have that property *)
Lemma C110_keeps_l : (forall (E : IPS) sigma, 0 < sigma -> keeps_subgrads (etot (fun x : E => sigma * norm x))) /\
  (forall n lam, 0 <= lam -> keeps_subgrads (etot (fun x : Vec n => lam * sum_abs x))) /\
  (forall (E : IPS) (a : E), keeps_subgrads (etot (fun x : E => << a, x >>))) /\
  (forall (E : IPS) (C : E -> Prop), keeps_subgrads (indic C)).
Proof.
  split; [|split; [|split]].
  - intros E sigma Hs t p q u Ht Hu Hq. assert (Hcx : convex (etot (fun x : E => sigma * norm x))) by (apply norm_fun_convex; lra).
    pose proof (euclid_prox_spec sigma t p Hs Ht) as Hq'. assert (Eq : q = (1 - t * sigma / Rmax (norm p) (t * sigma)) [*] p) by (apply (prox_unique (etot (fun x : E => sigma * norm x)) t p); auto).
    set (k := t * sigma / Rmax (norm p) (t * sigma)) in *. assert (Hts : 0 < t * sigma) by nra. pose proof (Rmax_r (norm p) (t * sigma)) as Hm.
    assert (Hk : 0 <= k <= 1). { unfold k. split; [apply Rmult_le_pos; [lra|left; apply Rinv_0_lt_compat; lra]|]. apply Rmult_le_reg_r with (Rmax (norm p) (t * sigma)); [lra|]. unfold Rdiv. rewrite Rmult_assoc, Rinv_l by lra. lra. }
    apply (homog_keep (fun x : E => sigma * norm x) p q u); auto; [intros c y Hc; rewrite norm_scal, Rabs_pos_eq by auto; ring|].
    rewrite Eq. replace (p [-] (1 - k) [*] p) with (k [*] p) by vring. rewrite !norm_scal, !Rabs_pos_eq by lra. lra.
  - intros n lam Hl t p q u Ht Hu Hq. change (etot (fun x : Vec n => lam * sum_abs x)) with (etot (l1n (n:=n) lam)) in *.
    pose (o := obj 2 (l1_body (n:=n) (fun _ => const_sigma n lam) None 0%nat (fun _ _ => 0%nat))). assert (Ho : is_L1 o lam) by (exists 0%nat, (fun _ _ => 0%nat); reflexivity).
    destruct (L1_facts n o lam Hl Ho) as (Hp & _ & _). destruct (L1_entries n o lam t Ho Ht) as (D & HDo & HD). destruct (Hp p t Ht) as (q' & E1 & Q'). rewrite HDo in E1.
    assert (Eq : q = D p) by (apply (prox_unique (etot (l1n lam)) t p); auto; [apply l1n_convex; auto|congruence]).
    apply (homog_keep (l1n lam) p q u); auto.
    + intros c y Hc. unfold l1n. rewrite (RS_ext n _ (fun i => c * Rabs (get y i))) by (intros i Hi; rewrite get_scal, Rabs_mult, (Rabs_pos_eq c) by auto; reflexivity). rewrite RS_scal. ring.
    + unfold l1n. rewrite <- Rmult_plus_distr_l. apply Rmult_le_compat_l; [auto|]. rewrite <- RS_add. apply RS_le. intros i Hi. rewrite get_sub by auto. rewrite Eq, HD by auto.
      assert (Htl : 0 <= t * lam) by nra. unfold soft, sgn, Rmax. destruct (Rltb_spec (get p i) 0) as [[G1 G1']|[G1 G1']]; destruct (Rltb_spec 0 (get p i)) as [[G2 G2']|[G2 G2']]; rewrite ?G1', ?G2';
        unfold Rabs; destruct (Rle_dec _ _); repeat destruct (Rcase_abs _); lra.
  - intros E a t p q u Ht [_ Hu] _. split; [exact I|]. intros y _. cbn [eval etot] in *. specialize (Hu (p [+] (y [-] q)) I). replace (p [+] (y [-] q) [-] p) with (y [-] q) in Hu by vring. rewrite inner_add_r in Hu.
    replace (<< a, y >>) with (<< a, q >> + << a, y [-] q >>) by iring. lra.
  - intros E C t p q u Ht Hu Hq. assert (Hp : C p) by exact (proj1 Hu). destruct Hq as [Dq Hq]. specialize (Hq p Hp). cbn [eval indic] in Hq. rewrite vsub_diag, norm2_zero in Hq. pose proof (norm2_nonneg (q [-] p)).
    assert (0 < / (2 * t)) by (apply Rinv_0_lt_compat; lra). assert (Hz : norm2 (q [-] p) = 0) by nra. apply norm2_eq0 in Hz. apply vsub_eq in Hz. subst q. exact Hu.
Qed.

(*! C110_l1 : k >= 1 iterations of ProximalPoint with L1(sigma=lam): entries of x0 of absolute value at most k tau lam are exactly 0, all others are moved towards 0 by exactly k tau lam *)
Lemma C110_l1_l : forall n (o : Op (Vec n)) lam x0 tau k, is_L1 o lam -> 0 <= lam -> 0 < tau -> let T := INR (S k) * tau * lam in
  exists x tr, ProximalPoint o x0 tau (S k) None = Ok (x, tr) /\ forall i, (i < n)%nat ->
    (Rabs (get x0 i) <= T -> get x i = 0) /\ (T <= get x0 i -> get x i = get x0 i - T) /\ (get x0 i <= - T -> get x i = get x0 i + T).
Proof.
  intros n o lam x0 tau k Ho Hl Ht T. destruct (L1_facts n o lam Hl Ho) as (Hp & _ & _). destruct (C110_split_l (Vec n) o (etot (l1n lam)) Hp (l1n_convex n lam Hl) (proj1 (proj2 C110_keeps_l) n lam Hl)) as [_ H].
  destruct (H x0 tau k Ht) as (x & tr & E1 & E2). exists x, tr. split; [exact E1|]. assert (Hkt : 0 < INR (S k) * tau) by (apply Rmult_lt_0_compat; [apply lt_0_INR; lia|auto]).
  destruct (L1_entries n o lam (INR (S k) * tau) Ho Hkt) as (D & HDo & HD). rewrite HDo in E2. assert (x = D x0) as -> by congruence. intros i Hi. rewrite HD by auto. fold T. assert (HT : 0 <= T) by (unfold T; nra).
  unfold soft, sgn, Rmax. destruct (Rltb_spec (get x0 i) 0) as [[G1 G1']|[G1 G1']]; destruct (Rltb_spec 0 (get x0 i)) as [[G2 G2']|[G2 G2']]; rewrite ?G1', ?G2'; unfold Rabs; destruct (Rcase_abs _); destruct (Rle_dec _ _); repeat split; intros; lra.
Qed.

(*! C110_euclidean : k iterations of ProximalPoint with Euclidean(sigma) return x0 shortened by exactly k tau sigma, and exactly 0 once |x0| <= k tau sigma *)
Lemma C110_euclidean_l : forall (E : IPS) fuel sigma x0 tau k, 0 < sigma -> 0 < tau -> let T := INR (S k) * tau * sigma in
  exists x tr, ProximalPoint (obj (S fuel) (euclid_body (E:=E) sigma)) x0 tau (S k) None = Ok (x, tr) /\
    (norm x0 <= T -> x = vzero) /\ (T < norm x0 -> x = (1 - T / norm x0) [*] x0).
Proof.
  intros E fuel sigma x0 tau k Hs Ht T. destruct (euclidean_prox E fuel sigma Hs) as [Hp _]. assert (Hcx : convex (etot (fun x : E => sigma * norm x))) by (apply norm_fun_convex; lra).
  destruct (C110_split_l E _ _ Hp Hcx (proj1 C110_keeps_l E sigma Hs)) as [_ H]. destruct (H x0 tau k Ht) as (x & tr & E1 & E2). exists x, tr. split; [exact E1|].
  assert (Hkt : 0 < INR (S k) * tau) by (apply Rmult_lt_0_compat; [apply lt_0_INR; lia|auto]). destruct (Hp x0 _ Hkt) as (r & E3 & P3). assert (r = x) as -> by congruence.
  assert (Ex : x = (1 - T / Rmax (norm x0) T) [*] x0) by (apply (prox_unique (etot (fun x : E => sigma * norm x)) (INR (S k) * tau) x0); auto; exact (euclid_prox_spec sigma _ x0 Hs Hkt)).
  assert (HT : 0 < T) by (unfold T; nra). split; intro Hn.
  - rewrite Ex, Rmax_right by lra. vfield. lra.
  - rewrite Ex, Rmax_left by lra. reflexivity.
Qed.

(*! C110_split_refuted : steps cannot be split for every convex function: with L2(Op=I, b=0, sigma=1), x = 12 and steps 1 and 1 two steps give 3, one step with 2 gives 4 *)
Lemma C110_split_refuted_l : exists (o : Op (Vec 1)) (x p q r : Vec 1), is_L2 o (id_linop (Vec 1)) vzero 1 /\ o_prox o x 1 = Ok p /\ o_prox o p 1 = Ok q /\ o_prox o x 2 = Ok r /\ get q 0 = 3 /\ get r 0 = 4.
Proof.
  assert (HL : exists o : Op (Vec 1), is_L2 o (id_linop (Vec 1)) vzero 1).
  { eexists. apply (L2_exists 1 (Vec 1) (id_linop (Vec 1)) vzero 1 (mkL2 (WithOp (id_linop (Vec 1)) true vzero) None 1 true (fun _ => 10%nat) true Legacy DenseDefault) None); reflexivity. }
  destruct HL as [o Ho]. destruct (L2_facts o (id_linop (Vec 1)) vzero 1 ltac:(lra) Ho) as (Hp & _ & _). set (f := sfit (id_linop (Vec 1)) vzero 1) in *.
  assert (Hcx : convex (etot f)) by (apply sfit_convex; lra).
  assert (P : forall x t, 0 < t -> o_prox o x t = Ok (/ (1 + t) [*] x)).
  { intros x t Ht. destruct (Hp x t Ht) as (p & E1 & P1). rewrite E1. f_equal. apply (prox_unique (etot f) t x); auto. apply subgrad_prox; auto. split; [exact I|]. intros y _. cbn [eval etot]. unfold f, sfit. cbn [id_linop lapp]. rewrite !vsub_0_r.
    set (v := / (1 + t) [*] x). replace (/ t [*] (x [-] v)) with v by (unfold v; vfield; lra). replace y with (v [+] (y [-] v)) at 2 by vring. rewrite norm2_add. pose proof (norm2_nonneg (y [-] v)). lra. }
  set (x := vtab 1 (fun _ => 12)). exists o, x, (/ (1 + 1) [*] x), (/ (1 + 1) [*] (/ (1 + 1) [*] x)), (/ (1 + 2) [*] x). split; [exact Ho|]. split; [apply P; lra|]. split; [apply P; lra|]. split; [apply P; lra|].
  unfold x. rewrite !get_scal, get_vtab by lia. split; lra.
Qed.

(*!ex C110_example : Euclidean(2) is convex with exact prox and a sharp minimum of slope 2 at the origin; from a point with |x0| = 3 and tau = 1/2 three iterations return exactly 0 *)
Lemma C110_example_l : let f : efun (Vec 2) := etot (fun x => 2 * norm x) in let o := obj 1 (euclid_body (E:=Vec 2) 2) in
  impl_prox o f /\ convex f /\ sharp_min f 2 vzero /\ keeps_subgrads f /\ forall x0, norm x0 = 3 -> exists tr, ProximalPoint o x0 (1 / 2) 3 None = Ok (vzero, tr).
Proof.
  intros f o. assert (Hp : impl_prox o f) by (apply euclidean_prox; lra). assert (Hc : convex f) by (apply norm_fun_convex; lra).
  assert (Hs : sharp_min f 2 vzero). { split; [exact I|]. intros y _. unfold f. cbn [eval etot]. rewrite vsub_0_r, norm_zero. lra. }
  split; [exact Hp|]. split; [exact Hc|]. split; [exact Hs|]. split; [apply (proj1 C110_keeps_l); lra|]. intros x0 Hx. destruct (C110_sharp_l (Vec 2) o f 2 vzero x0 (1 / 2) 3 Hp Hc ltac:(lra) ltac:(lra) Hs) as (x & tr & E1 & _ & E2).
  exists tr. rewrite E1, E2; [reflexivity|]. rewrite vsub_0_r, Hx. cbn [INR]. lra.
Qed.

Lemma lin_prox {E : IPS} (g : efun E) e tau (w d p : E) : 0 < e -> 0 < tau -> is_prox g (e * tau) (w [-] tau [*] d) p -> is_prox (elin (escal e g) d) tau w p.
Proof.
  intros He Ht [Dp Hp]. split; [exact Dp|]. intros y Hy. specialize (Hp y Hy). cbn [eval elin escal].
  assert (Q : forall z : E, e * (/ (2 * (e * tau)) * norm2 (z [-] (w [-] tau [*] d))) = / (2 * tau) * norm2 (z [-] w) + << d, z >> - << d, w >> + tau / 2 * norm2 d).
  { intro z. replace (z [-] (w [-] tau [*] d)) with ((z [-] w) [+] tau [*] d) by vring. rewrite norm2_add, norm2_scal, inner_scal_r. replace (<< z [-] w, d >>) with (<< d, z >> - << d, w >>) by (rewrite (inner_sym (z [-] w)); iring). field. lra. }
  apply (Rmult_le_compat_l e) in Hp; [|lra]. rewrite !Rmult_plus_distr_l, !Q in Hp. lra.
Qed.
Lemma lin_sharp {E : IPS} (f : E -> R) df L (g : efun E) e c xo : L_smooth f df L -> 0 < L -> convex g -> 0 < e -> sharp_min (eadd (etot f) (escal e g)) c xo -> sharp_min (elin (escal e g) (df xo)) c xo.
Proof.
  intros Hs HL Hg He [[_ Ho] Hm]. split; [exact Ho|]. intros y Hy. cbn [eval elin escal edom eadd etot] in *. set (d := df xo) in *.
  assert (0 <= e * eval g y + << d, y >> - (e * eval g xo + << d, xo >> + c * norm (y [-] xo))); [|lra].
  apply (small_t _ (L / 2 * norm2 (y [-] xo))); [apply Rmult_le_pos; [lra|apply norm2_nonneg]|]. intros t Ht.
  destruct (Hg xo y t Ho Hy ltac:(lra)) as [Dz Vz]. set (z := (1 - t) [*] xo [+] t [*] y) in *. specialize (Hm z (Logic.conj I Dz)). pose proof (descent_lemma f df L xo z Hs) as Df. fold d in Df.
  assert (Ez : z [-] xo = t [*] (y [-] xo)) by (unfold z; vring). rewrite Ez in *. rewrite norm_scal, Rabs_pos_eq in Hm by lra. rewrite norm2_scal, inner_scal_r in Df. replace (<< d, y [-] xo >>) with (<< d, y >> - << d, xo >>) in Df by iring.
  apply (Rmult_le_compat_l e) in Vz; [|lra]. apply Rmult_le_reg_l with t; [lra|]. set (N := norm2 (y [-] xo)) in *. set (M := norm (y [-] xo)) in *. nra.
Qed.

(*! C110_gradient : the same for ProximalGradient: if f + e g (f smooth convex with L-Lipschitz gradient, g convex) grows at least with slope c > 0 around its minimiser xo, every iteration with
   0 < tau <= 2/L, without relaxation and acceleration, comes nearer to xo by c tau until it has reached it, and from |x0 - xo|/(c tau) iterations on the result is exactly xo *)
Lemma C110_gradient_l : forall (E : IPS) (of og : Op E) f df L (g : efun E) e c xo x0 tau beta niterback accel k,
  smooth_op of f df L -> impl_prox og g -> convex g -> 0 < e -> 0 < tau -> tau * L <= 2 -> accel = None \/ accel = Some "None"%string -> 0 < c -> sharp_min (eadd (etot f) (escal e g)) c xo ->
  exists x tr, ProximalGradient of og x0 [e] (Some tau) false beta 1 (S k) niterback accel None = Ok (x, tr) /\
    norm (x [-] xo) <= Rmax 0 (norm (x0 [-] xo) - INR (S k) * (c * tau)) /\ (norm (x0 [-] xo) <= INR (S k) * (c * tau) -> x = xo).
Proof.
  intros E of og f df L g e c xo x0 tau beta nb accel k (_ & Hgr & Hc & HL & Hs) Hp Hg He Ht HtL Hac Hcp Hm. assert (Hth : 0 < e * tau) by nra.
  set (D := fun v => match o_prox og v (e * tau) with Ok p => p | Err _ => v end).
  assert (HD : forall v, o_prox og v (e * tau) = Ok (D v) /\ is_prox g (e * tau) v (D v)) by (intro v; unfold D; destruct (Hp v (e * tau) Hth) as (p & -> & H); auto).
  destruct (pg_maps of og df D e x0 tau beta 1 nb accel Hgr (fun v => proj1 (HD v))) as (xs & X0 & Hrun & Hst); [destruct Hac as [-> | ->]; [left|right; left]; reflexivity|].
  assert (Hx : forall j, xs (S j) = D (xs j [-] tau [*] df (xs j))) by (intro j; rewrite Hst; vring).
  pose proof (lin_sharp f df L g e c xo Hs HL Hg He Hm) as Hsh. assert (Hcx : convex (elin (escal e g) (df xo))).
  { intros a b t Ha Hb Htt. destruct (Hg a b t Ha Hb Htt) as [D1 V1]. split; [exact D1|]. cbn [eval elin escal]. apply (Rmult_le_compat_l e) in V1; [|lra]. rewrite inner_add_r, !inner_scal_r. lra. }
  assert (Step : forall j, norm (xs (S j) [-] xo) <= Rmax 0 (norm (xs j [-] xo) - c * tau)).
  { intro j. set (w := xs j [-] tau [*] df (xs j) [+] tau [*] df xo). destruct (HD (xs j [-] tau [*] df (xs j))) as [_ P1]. rewrite <- Hx in P1. replace (xs j [-] tau [*] df (xs j)) with (w [-] tau [*] df xo) in P1 by (unfold w; vring).
    apply lin_prox in P1; auto. pose proof (sharp_step _ c xo tau w _ Hcx Ht Hcp Hsh P1) as H1. assert (Hw : norm (w [-] xo) <= norm (xs j [-] xo)).
    { replace (w [-] xo) with ((xs j [-] tau [*] df (xs j)) [-] (xo [-] tau [*] df xo)) by (unfold w; vring). apply (step_nonexp f df L tau Hc HL Hs Ht HtL). }
    eapply Rle_trans; [exact H1|]. unfold Rmax. repeat destruct (Rle_dec _ _); lra. }
  assert (K : forall j, norm (xs j [-] xo) <= Rmax 0 (norm (x0 [-] xo) - INR j * (c * tau))).
  { induction j as [|j IH].
    - rewrite X0. cbn [INR]. eapply Rle_trans; [|apply Rmax_r]. lra.
    - specialize (Step j). rewrite S_INR. assert (0 < c * tau) by nra. eapply Rle_trans; [exact Step|]. unfold Rmax in *. repeat destruct (Rle_dec _ _); lra. }
  exists (xs (S k)), (map xs (seq 1 (S k))). split; [apply Hrun|]. specialize (K (S k)). split; [exact K|]. intro Hk. rewrite Rmax_left in K by lra.
  assert (Hz : norm (xs (S k) [-] xo) = 0) by (pose proof (norm_nonneg (xs (S k) [-] xo)); lra). apply norm_eq0 in Hz. apply vsub_eq. exact Hz.
Qed.

(*! C110_lasso_zero : LASSO with a weight above its largest useful value: if every entry of s A^T b is at most e lam - c in absolute value with c > 0, ProximalGradient with L2(Op=A, b, sigma=s) and
   L1(sigma=lam) returns exactly the zero vector from |x0|/(c tau) iterations on *)
Lemma C110_lasso_zero_l : forall n (F : IPS) (A : linop (Vec n) F) b s L lam e c (of og : Op (Vec n)) x0 tau beta niterback accel k,
  is_L2 of A b s -> is_L1 og lam -> 0 < s -> 0 < L -> (forall v, s * norm2 (A v) <= L * norm2 v) -> 0 <= lam -> 0 < e -> 0 < tau -> tau * L <= 2 -> accel = None \/ accel = Some "None"%string ->
  0 < c -> (forall i, (i < n)%nat -> Rabs (s * get (ladj A b) i) <= e * lam - c) -> norm x0 <= INR (S k) * (c * tau) ->
  exists tr, ProximalGradient of og x0 [e] (Some tau) false beta 1 (S k) niterback accel None = Ok (vzero, tr).
Proof.
  intros n F A b s L lam e c of og x0 tau beta nb accel k Hf Hg Hs HL HA Hl He Ht HtL Hac Hc Hi Hn.
  destruct (L1_facts n og lam Hl Hg) as (Hp & _ & _).
  assert (Hsm : smooth_op of (sfit A b s) (dsfit A b s) L) by (apply L2_smooth_op; auto).
  destruct (C110_gradient_l (Vec n) of og (sfit A b s) (dsfit A b s) L (etot (l1n lam)) e c vzero x0 tau beta nb accel k Hsm Hp (l1n_convex n lam Hl) He Ht HtL Hac Hc) as (x & tr & E1 & _ & E2).
  - split; [split; exact I|]. intros y _. cbn [eval eadd etot escal]. destruct Hsm as (_ & _ & Hcv & _ & Hsm). destruct (L_smooth_convex _ _ _ Hcv Hsm) as [H1 _]. specialize (H1 vzero y). rewrite vsub_0_r in *.
    assert (Z : l1n (n:=n) lam vzero = 0). { unfold l1n. rewrite (RS_ext n _ (fun _ => 0 * 0)) by (intros i Hi'; rewrite get_zero, Rabs_R0; ring). rewrite RS_scal. ring. }
    rewrite Z. pose proof (norm_le_l1 n y) as Hny. assert (Hd : - RS n (fun i => (e * lam - c) * Rabs (get y i)) <= << dsfit A b s vzero, y >>).
    { rewrite vec_inner. rewrite <- (Rmult_1_l (RS n _)), Ropp_mult_distr_l, <- RS_scal. apply RS_le. intros i Hi'.
      assert (Eg : get (dsfit A b s vzero) i = - (s * get (ladj A b) i)). { unfold dsfit. replace (A vzero [-] b) with ((-1) [*] b) by (rewrite lapp_zero; vring). rewrite get_scal, ladj_scal, get_scal by auto. ring. }
      rewrite Eg. specialize (Hi i Hi'). pose proof (Rabs_pos (get y i)). assert (Rabs (s * get (ladj A b) i) * Rabs (get y i) <= (e * lam - c) * Rabs (get y i)) by (apply Rmult_le_compat_r; auto).
      rewrite <- Rabs_mult in H0. pose proof (Rle_abs (s * get (ladj A b) i * get y i)). lra. }
    rewrite RS_scal in Hd. unfold l1n. set (S1 := RS n (fun i => Rabs (get y i))) in *. nra.
  - rewrite vsub_0_r in E2. rewrite (E2 Hn) in E1. exists tr. exact E1.
Qed.

(*!ex C110_lasso_example : A the identity on two entries, b = (3, -2), s = 1, L = 1, lam = 4, e = 1, c = 1, tau = 1 meet the hypotheses, for instance from x0 with |x0| = 5 and 5 iterations *)
Lemma C110_lasso_example_l : exists (of og : Op (Vec 2)), let b := vtab 2 (fun i => if Nat.eqb i 0 then 3 else -2) in
  is_L2 of (id_linop (Vec 2)) b 1 /\ is_L1 og 4 /\ (forall v, 1 * norm2 (id_linop (Vec 2) v) <= 1 * norm2 v) /\
  (forall i, (i < 2)%nat -> Rabs (1 * get (ladj (id_linop (Vec 2)) b) i) <= 1 * 4 - 1) /\
  forall x0 : Vec 2, norm x0 = 5 -> exists tr, ProximalGradient of og x0 [1] (Some 1) false (1/2) 1 5 10 None None = Ok (vzero, tr).
Proof.
  set (b := vtab 2 (fun i => if Nat.eqb i 0 then 3 else -2)).
  eexists. exists (obj 2 (l1_body (n:=2) (fun _ => const_sigma 2 4) None 0%nat (fun _ _ => 0%nat))). cbv zeta.
  match goal with |- ?P /\ _ => assert (H1 : P) by (apply (L2_exists 2 (Vec 2) (id_linop (Vec 2)) b 1 (mkL2 (WithOp (id_linop (Vec 2)) true b) None 1 true (fun _ => 10%nat) true Legacy DenseDefault) None); reflexivity) end.
  split; [exact H1|]. match goal with |- ?P /\ _ => assert (H2 : P) by (exists 0%nat, (fun _ _ => 0%nat); reflexivity) end. split; [exact H2|].
  match goal with |- ?P /\ _ => assert (H3 : P) by (intro v; cbn [id_linop lapp]; lra) end. split; [exact H3|].
  match goal with |- ?P /\ _ => assert (H4 : P) by (intros i Hi; cbn [id_linop ladj]; unfold b; rewrite get_vtab by auto; destruct (Nat.eqb i 0); unfold Rabs; destruct (Rcase_abs _); lra) end. split; [exact H4|].
  intros x0 Hx. apply (C110_lasso_zero_l 2 (Vec 2) (id_linop (Vec 2)) b 1 1 4 1 1 _ _ x0 1 (1/2) 10 None 4 H1 H2); auto; try lra. rewrite Hx. cbn [INR]. lra.
Qed.
