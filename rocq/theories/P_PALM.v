(** * PALM: documented recursion and descent, the refuted claims *)
From Verif Require Import Base Space Spec SpecOps ConvexFacts Smooth M_ProxOp P_ProxOp M_Norms P_Norms M_Loop LoopFacts M_PALM SeqFacts.
From Coq Require Import Psatz.
From Verif Require Export S_PALM.
Open Scope result_scope.

(** *** Specification *)

Section Steps.
Context {E : IPS}.
Lemma opt_prox_spec (o : option (Op E)) f z tau : opt_impl o f -> 0 < tau ->
  exists p, opt_prox o z tau = Ok p /\ is_prox f tau z p.
Proof.
  destruct o as [o|]; simpl; intros H Ht; [auto|]. exists z. split; auto. split; [apply H|]. intros y Hy.
  rewrite !(proj2 (H _)). assert (0 <= / (2 * tau)) by (apply Rlt_le, Rinv_0_lt_compat; lra).
  replace (z [-] z) with (vzero : E) by vring. unfold norm2 at 1. rewrite inner_zero_l.
  pose proof (inner_pos (y [-] z)). unfold norm2. nra.
Qed.

(** one proximal-gradient step decreases f + h *)
Lemma block_descent (f : efun E) (h : E -> R) (g : E) x p tau L : 0 < tau -> edom f x ->
  is_prox f tau (x [-] tau [*] g) p -> h p <= h x + << g, p [-] x >> + L / 2 * norm2 (p [-] x) ->
  edom f p /\ eval f p + h p + (1 / tau - L) / 2 * norm2 (p [-] x) <= eval f x + h x.
Proof.
  intros Ht Hx [Hp Hm] Hu. split; auto. specialize (Hm x Hx).
  replace (norm2 (p [-] (x [-] tau [*] g))) with (norm2 (p [-] x) + 2 * tau * << g, p [-] x >> + tau * tau * norm2 g) in Hm
    by (unfold norm2; iexp; ring).
  replace (norm2 (x [-] (x [-] tau [*] g))) with (tau * tau * norm2 g) in Hm by (unfold norm2; iexp; ring).
  replace (/ (2 * tau) * (norm2 (p [-] x) + 2 * tau * << g, p [-] x >> + tau * tau * norm2 g)) with
    (1 / tau / 2 * norm2 (p [-] x) + << g, p [-] x >> + / (2 * tau) * (tau * tau * norm2 g)) in Hm by (field; lra).
  lra.
Qed.

Lemma palm_fixed_inv (l : R) (gr : E -> E) o f gm z p : 0 <= l -> 0 < gm -> opt_impl o f ->
  palm_fixed (Ok l) (fun v => Ok (gr v)) o gm z = Ok p ->
  0 < l /\ is_prox f (1 / (gm * l)) (z [-] (1 / (gm * l)) [*] gr z) p.
Proof.
  intros Hl Hg Ho. unfold palm_fixed. cbn [bind]. unfold pydiv. destruct (Reqb_spec (gm * l) 0) as [[H ->]|[H ->]]; cbn [bind]; [discriminate|].
  assert (0 < l) by (destruct (Req_dec l 0) as [->|]; [exfalso; apply H; ring|lra]).
  assert (0 < 1 / (gm * l)) by (apply Rdiv_lt_0_compat; nra).
  intro Hp. split; auto. destruct (opt_prox_spec o f (z [-] (1 / (gm * l)) [*] gr z) (1 / (gm * l)) Ho) as [p' [E1 E2]]; auto. congruence.
Qed.

Lemma palm_bt_loop_spec (h : E -> R) o f beta x g L n : forall z tau,
  opt_impl o f -> (forall y, h y <= h x + << g, y [-] x >> + L / 2 * norm2 (y [-] x)) ->
  0 < beta < 1 -> 0 < tau -> (0 < n)%nat -> tau * beta ^ (n - 1) * L <= 1 -> L <= 10 ^ 12 -> 0 <= L ->
  exists p tau', palm_bt_loop (fun v => Ok (h v)) o beta x g n z tau = Ok (p, tau') /\ 0 < tau' <= tau /\
    is_prox f tau' (x [-] tau' [*] g) p /\ h p <= h x + << g, p [-] x >> + (1 / tau') / 2 * norm2 (p [-] x).
Proof.
  induction n as [|n IH]; intros z tau Ho Hu Hb Ht Hn Hbt HL HL0; [lia|]. cbn [palm_bt_loop].
  destruct (opt_prox_spec o f (x [-] tau [*] g) tau Ho Ht) as [p [-> Hp]]. cbn [bind]. unfold palm_ftilde. cbn [bind].
  rewrite pydiv_ok by lra. cbn [bind].
  assert (Hq : forall t, 0 < t -> t * L <= 1 -> L / 2 <= 1 / (2 * t)).
  { intros t Ht' H. apply le_div; [lra|]. nra. }
  assert (Hacc : tau * L <= 1 -> h p <= h x + << g, p [-] x >> + 1 / (2 * tau) * norm2 (p [-] x)).
  { intro H. specialize (Hq tau Ht H). pose proof (Hu p). pose proof (inner_pos (p [-] x)). fold (norm2 (p [-] x)) in *. nra. }
  destruct (Rleb_spec (h p) (h x + << g, p [-] x >> + 1 / (2 * tau) * norm2 (p [-] x))) as [[H1 ->]|[H1 ->]]; cbn [orb].
  - exists p, tau. split; auto. split; [lra|]. split; auto. replace (1 / tau / 2) with (1 / (2 * tau)) by (field; lra). exact H1.
  - destruct (Rltb_spec tau (1 / 10 ^ 12)) as [[H2 ->]|[H2 ->]].
    + exfalso. assert (0 < 10 ^ 12) by (apply pow_lt; lra).
      assert (tau * 10 ^ 12 < 1). { replace 1 with (1 / 10 ^ 12 * 10 ^ 12) by (field; lra). apply Rmult_lt_compat_r; auto. }
      assert (tau * L <= 1) by nra. apply Hacc in H3. lra.
    + destruct n as [|n].
      * exfalso. simpl in Hbt. assert (tau * L <= 1) by lra. apply Hacc in H. lra.
      * destruct (IH p (tau * beta)) as [p' [t' [E1 [E2 [E3 E4]]]]]; auto; try lia.
        { apply Rmult_lt_0_compat; lra. }
        { replace (S n - 1)%nat with n by lia. replace (S (S n) - 1)%nat with (S n) in Hbt by lia. simpl in Hbt. nra. }
        exists p', t'. split; auto. split; [nra|]. auto.
Qed.
End Steps.

Lemma palm_bt_loop_ext {E : IPS} (c1 c2 : E -> result R) o beta x g : (forall v, c1 v = c2 v) ->
  forall n z tau, palm_bt_loop c1 o beta x g n z tau = palm_bt_loop c2 o beta x g n z tau.
Proof.
  intros Hc. induction n as [|n IH]; intros z tau; cbn [palm_bt_loop]; auto.
  destruct (opt_prox _ _ _); cbn [bind]; auto. unfold palm_ftilde. rewrite Hc. destruct (c2 x); cbn [bind]; auto.
  destruct (pydiv _ _); cbn [bind]; auto. rewrite Hc. destruct (c2 a); cbn [bind]; auto. destruct (_ || _)%bool; auto.
Qed.


(** *** The documented scheme on sequences *)
Section Doc.
Context {E F : IPS} (f : efun E) (g : efun F) (h : E -> F -> R) (gx : E -> F -> E) (gy : E -> F -> F) (lx : E -> R) (ly : F -> R).
Local Notation palm_doc := (S_PALM.palm_doc f g gx gy lx ly).
Local Notation palm_obj := (S_PALM.palm_obj f g h).
End Doc.

Lemma mode_step_run {E : IPS} (f : efun E) o gamma beta nb Lmax (l : R) (h : E -> R) (gr : E -> E) x tau0 r :
  0 <= l -> opt_impl o f -> 0 < beta < 1 -> mode_ok gamma beta Lmax nb l -> q_upper h gr l -> edom f x ->
  (gamma = None -> exists t, tau0 = Some t /\ 0 < t <= 1) ->
  (match gamma with
   | Some gm => x' <- palm_fixed (Ok l) (fun v => Ok (gr v)) o gm x ;; Ok (x', tau0)
   | None => tauf <- read_var tau0 ;; r <- palm_bt (fun v => Ok (h v)) (fun v => Ok (gr v)) o beta nb x tauf ;; Ok (fst r, Some (snd r))
   end) = Ok r ->
  exists tau, 0 < tau /\ is_prox f tau (x [-] tau [*] gr x) (fst r) /\ mode_step gamma l tau /\ edom f (fst r) /\
    eval f (fst r) + h (fst r) + mode_gain gamma l * norm2 (fst r [-] x) <= eval f x + h x /\
    (gamma = None -> exists t, snd r = Some t /\ 0 < t <= 1).
Proof.
  intros Hl Ho Hb Hm Hu Hx Ht. destruct gamma as [gm|]; simpl in Hm.
  - destruct (palm_fixed (Ok l) (fun v => Ok (gr v)) o gm x) as [p|] eqn:Ep; cbn [bind]; [|discriminate].
    intro Hr; injection Hr as <-. cbn [fst snd]. destruct (palm_fixed_inv l gr o f gm x p Hl ltac:(lra) Ho Ep) as [Hl' Hp].
    assert (0 < 1 / (gm * l)) by (apply Rdiv_lt_0_compat; nra).
    exists (1 / (gm * l)). split; auto. split; auto. split; [reflexivity|].
    destruct (block_descent f h (gr x) x p _ l H Hx Hp (Hu x p)) as [D1 D2]. split; auto. split; [|discriminate].
    unfold mode_gain. replace (1 / (1 / (gm * l)) - l) with ((gm - 1) * l) in D2 by (field; split; nra). exact D2.
  - destruct (Ht eq_refl) as [t [-> Ht']]. cbn [read_var bind]. unfold palm_bt. cbn [bind].
    destruct Hm as [M1 [M2 [M3 M4]]].
    destruct (palm_bt_loop_spec h o f beta x (gr x) l nb x t Ho (Hu x) Hb ltac:(lra) M3) as [p [t' [E1 [E2 [E3 E4]]]]]; auto; try lra.
    { assert (0 < beta ^ (nb - 1)) by (apply pow_lt; lra).
      assert (beta ^ (nb - 1) * l <= 1) by nra. assert (0 <= beta ^ (nb - 1) * l) by nra.
      rewrite Rmult_assoc. nra. }
    rewrite E1. cbn [bind]. intro Hr; injection Hr as <-. cbn [fst snd].
    exists t'. split; [lra|]. split; auto. split; [unfold mode_step; lra|].
    destruct (block_descent f h (gr x) x p t' (1 / t') ltac:(lra) Hx E3 E4) as [D1 D2]. split; auto. split.
    + unfold mode_gain. replace ((1 / t' - 1 / t') / 2) with 0 in D2 by lra. exact D2.
    + intros _. exists t'. split; auto. lra.
Qed.

(** states of a loop that never breaks *)
Lemma for_loop_states_inv {S} (body : nat -> S -> result (S * bool)) n s0 s' k :
  (forall j s s' b, body j s = Ok (s', b) -> b = false) -> for_loop body n 0 s0 = Ok (s', k) ->
  k = n /\ exists st : nat -> S, st 0%nat = s0 /\ st n = s' /\ forall j, (j < n)%nat -> body j (st j) = Ok (st (Datatypes.S j), false).
Proof.
  intros Hb H. pose proof (for_loop_count body n 0 s0 s' k Hb H) as Hk. simpl in Hk. subst k. split; auto.
  destruct (for_loop_exit body n 0 s0 s' n H) as [st [S0 [Sn [_ [H1 H2]]]]]. exists st. split; auto. split; auto.
  intros j Hj. destruct (Nat.eq_dec (Datatypes.S j) n) as [He|He].
  - destruct H2 as [j' [b [E1 [_ [E2 _]]]]]; [lia|]. assert (j' = j) by lia. subst j'. rewrite He. rewrite E2. f_equal. f_equal. eapply Hb; eauto.
  - apply H1; lia.
Qed.

Section Run.
Context {E F : IPS} (H : Bilin E F) (h : E -> F -> R) (gx : E -> F -> E) (gy : E -> F -> F) (lx : E -> R) (ly : F -> R).

Lemma palm_body_rel proxf proxg (f : efun E) (g : efun F) gammaf gammag beta nb Lmax j s s' b :
  bilin_spec H h gx gy lx ly -> 0 < beta < 1 ->
  opt_impl (option_map on_x proxf) f -> opt_impl (if is_none gammag then option_map on_y proxf else proxg) g ->
  (forall y, edom g y -> mode_ok gammaf beta Lmax nb (ly y)) -> (forall x, edom f x -> mode_ok gammag beta Lmax nb (lx x)) ->
  ps_hy s = ps_y s -> edom f (ps_x s) -> edom g (ps_y s) ->
  (gammaf = None -> exists t, ps_tauf s = Some t /\ 0 < t <= 1) -> (gammag = None -> exists t, ps_taug s = Some t /\ 0 < t <= 1) ->
  palm_body H proxf proxg gammaf gammag beta nb j s = Ok (s', b) ->
  b = false /\ ps_hy s' = ps_y s' /\ edom f (ps_x s') /\ edom g (ps_y s') /\
  (gammaf = None -> exists t, ps_tauf s' = Some t /\ 0 < t <= 1) /\ (gammag = None -> exists t, ps_taug s' = Some t /\ 0 < t <= 1) /\
  ps_tr s' = ps_tr s ++ [(ps_x s', ps_y s')] /\
  (exists tf tg, 0 < tf /\ 0 < tg /\ mode_step gammaf (ly (ps_y s)) tf /\ mode_step gammag (lx (ps_x s')) tg /\
    is_prox f tf (ps_x s [-] tf [*] gx (ps_x s) (ps_y s)) (ps_x s') /\
    is_prox g tg (ps_y s [-] tg [*] gy (ps_x s') (ps_y s)) (ps_y s')) /\
  palm_obj f g h (ps_x s') (ps_y s') + mode_gain gammaf (ly (ps_y s)) * norm2 (ps_x s' [-] ps_x s) +
    mode_gain gammag (lx (ps_x s')) * norm2 (ps_y s' [-] ps_y s) <= palm_obj f g h (ps_x s) (ps_y s).
Proof.
  intros HH Hbeta Hf Hg Mf Mg Hhy Hx Hy Tf Tg. destruct HH as [Hc Hgx Hgy Hlx Hly Hux Huy]. unfold palm_body. rewrite Hhy.
  assert (Efx : forall y, h_ly H y = Ok (ly y)) by (intro; apply Hly). assert (Efy : forall x, h_lx H x = Ok (lx x)) by (intro; apply Hlx).
  intro Hr.
  match type of Hr with bind ?r _ = _ => destruct r as [xt|] eqn:Ex; cbn [bind] in Hr; [|discriminate] end.
  match type of Hr with bind ?r _ = _ => destruct r as [yt|] eqn:Ey; cbn [bind] in Hr; [|discriminate] end.
  injection Hr as <- <-. cbn [ps_x ps_y ps_hx ps_hy ps_tauf ps_taug ps_tr].
  assert (Ex' : (match gammaf with
   | Some gm => x' <- palm_fixed (Ok (ly (ps_y s))) (fun v => Ok (gx v (ps_y s))) (option_map on_x proxf) gm (ps_x s) ;; Ok (x', ps_tauf s)
   | None => tauf <- read_var (ps_tauf s) ;; r <- palm_bt (fun v => Ok (h v (ps_y s))) (fun v => Ok (gx v (ps_y s))) (option_map on_x proxf) beta nb (ps_x s) tauf ;; Ok (fst r, Some (snd r))
   end) = Ok xt).
  { rewrite <- Ex. destruct gammaf as [gm|].
    - rewrite Efx. unfold palm_fixed. cbn [bind]. rewrite Hgx. reflexivity.
    - destruct (Tf eq_refl) as [t [-> _]]. cbn [read_var bind]. unfold palm_bt. rewrite Hgx. cbn [bind].
      rewrite (palm_bt_loop_ext _ _ _ _ _ _ (fun v => eq_sym (Hc v (ps_y s)))). reflexivity. }
  destruct (mode_step_run f _ gammaf beta nb Lmax (ly (ps_y s)) (fun v => h v (ps_y s)) (fun v => gx v (ps_y s)) (ps_x s) (ps_tauf s) xt
     (proj2 (Hly _)) Hf Hbeta (Mf _ Hy) (Hux _) Hx Tf Ex') as [tf [A1 [A2 [A3 [A4 [A5 A6]]]]]].
  assert (Ey' : (match gammag with
   | Some gm => x' <- palm_fixed (Ok (lx (fst xt))) (fun v => Ok (gy (fst xt) v)) (if is_none gammag then option_map on_y proxf else proxg) gm (ps_y s) ;; Ok (x', ps_taug s)
   | None => tauf <- read_var (ps_taug s) ;; r <- palm_bt (fun v => Ok (h (fst xt) v)) (fun v => Ok (gy (fst xt) v)) (if is_none gammag then option_map on_y proxf else proxg) beta nb (ps_y s) tauf ;; Ok (fst r, Some (snd r))
   end) = Ok yt).
  { rewrite <- Ey. destruct gammag as [gm|]; cbn [is_none].
    - rewrite Efy. unfold palm_fixed. cbn [bind]. rewrite Hgy. reflexivity.
    - destruct (Tg eq_refl) as [t [-> _]]. cbn [read_var bind]. unfold palm_bt. rewrite Hgy. cbn [bind].
      rewrite (palm_bt_loop_ext _ _ _ _ _ _ (fun v => eq_sym (Hc (fst xt) v))). reflexivity. }
  destruct (mode_step_run g _ gammag beta nb Lmax (lx (fst xt)) (h (fst xt)) (gy (fst xt)) (ps_y s) (ps_taug s) yt
     (proj2 (Hlx _)) Hg Hbeta (Mg _ A4) (Huy _) Hy Tg Ey') as [tg [B1 [B2 [B3 [B4 [B5 B6]]]]]].
  split; auto. split; auto. split; auto. split; auto. split; auto. split; auto. split; auto. split.
  - exists tf, tg. repeat split; auto; apply A2 || apply B2.
  - unfold palm_obj. lra.
Qed.
End Run.

(*! C60_palm_descent : every H with block-Lipschitz partial gradients whose stored y is y0, all f and g (convex or not) with correct proximal
   operators (None: the zero function), every combination of fixed steps (gamma >= 1) and backtracking (enough passes for
   the constants on the domains of f and g), where in
   backtracking mode for y the operator passed for f also implements g.  Whenever PALM returns, its n callbacks are the documented recursion
   and each iteration decreases f + g + H by at least (gamma-1) L/2 times the squared block steps *)
Lemma C60_palm_descent_l : forall (E F : IPS) (H : Bilin E F) h gx gy lx ly hx0 proxf proxg (f : efun E) (g : efun F) x0 y0 gammaf gammag beta Lmax n nb r,
  bilin_spec H h gx gy lx ly -> 0 < beta < 1 ->
  opt_impl (option_map on_x proxf) f -> opt_impl (match gammag with None => option_map on_y proxf | Some _ => proxg end) g ->
  (forall y, edom g y -> mode_ok gammaf beta Lmax nb (ly y)) -> (forall x, edom f x -> mode_ok gammag beta Lmax nb (lx x)) ->
  edom f x0 -> edom g y0 ->
  PALM H hx0 y0 proxf proxg x0 y0 gammaf gammag beta n nb = Ok r ->
  exists xs ys, r = (xs n, ys n, map (fun j => (xs j, ys j)) (seq 1 n)) /\ xs 0%nat = x0 /\ ys 0%nat = y0 /\
    palm_doc f g gx gy lx ly gammaf gammag xs ys n /\
    (forall j, (j < n)%nat ->
      palm_obj f g h (xs (S j)) (ys (S j)) + mode_gain gammaf (ly (ys j)) * norm2 (xs (S j) [-] xs j) +
        mode_gain gammag (lx (xs (S j))) * norm2 (ys (S j) [-] ys j) <= palm_obj f g h (xs j) (ys j)) /\
    palm_obj f g h (xs n) (ys n) <= palm_obj f g h x0 y0.
Proof.
  intros E F H h gx gy lx ly hx0 proxf proxg f g x0 y0 gammaf gammag beta Lmax n nb r HH Hb Hf Hg Mf Mg Dx Dy Hr.
  assert (Hg' : opt_impl (if is_none gammag then option_map on_y proxf else proxg) g) by (destruct gammag; exact Hg). clear Hg. rename Hg' into Hg.
  unfold PALM in Hr. set (s0 := PS x0 y0 hx0 y0 _ _ x0 y0 []) in Hr.
  destruct (for_loop (palm_body H proxf proxg gammaf gammag beta nb) n 0 s0) as [[s' k]|] eqn:El; cbn [bind fst] in Hr; [|discriminate].
  apply for_loop_states_inv in El.
  2:{ intros j s s1 b Hs. unfold palm_body in Hs.
      match type of Hs with bind ?r _ = _ => destruct r; cbn [bind] in Hs; [|discriminate] end.
      match type of Hs with bind ?r _ = _ => destruct r; cbn [bind] in Hs; [|discriminate] end. congruence. }
  destruct El as [-> [st [S0 [Sn Hst]]]].
  set (P := fun s : palm_state E F => ps_hy s = ps_y s /\ edom f (ps_x s) /\ edom g (ps_y s) /\
     (gammaf = None -> exists t, ps_tauf s = Some t /\ 0 < t <= 1) /\ (gammag = None -> exists t, ps_taug s = Some t /\ 0 < t <= 1)).
  assert (HP : forall j, (j <= n)%nat -> P (st j)).
  { induction j as [|j IH]; intro Hj.
    - rewrite S0. unfold P, s0. cbn [ps_hy ps_y ps_x ps_tauf ps_taug]. split; auto. split; auto. split; auto.
      split; intros ->; cbn [is_none]; exists 1; split; auto; lra.
    - destruct (IH ltac:(lia)) as [P1 [P2 [P3 [P4 P5]]]].
      destruct (palm_body_rel H h gx gy lx ly proxf proxg f g gammaf gammag beta nb Lmax j _ _ _ HH Hb Hf Hg Mf Mg P1 P2 P3 P4 P5 (Hst j ltac:(lia)))
        as [_ [Q1 [Q2 [Q3 [Q4 [Q5 _]]]]]]. unfold P. auto. }
  assert (HR : forall j, (j < n)%nat -> ltac:(let t := type of (fun P1 P2 P3 P4 P5 => palm_body_rel H h gx gy lx ly proxf proxg f g gammaf gammag beta nb Lmax j (st j) (st (S j)) false HH Hb Hf Hg Mf Mg P1 P2 P3 P4 P5) in match t with _ -> _ -> _ -> _ -> _ -> _ -> ?Q => exact Q end)) by
   (intros j Hj; destruct (HP j ltac:(lia)) as [P1 [P2 [P3 [P4 P5]]]];
    exact (palm_body_rel H h gx gy lx ly proxf proxg f g gammaf gammag beta nb Lmax j _ _ _ HH Hb Hf Hg Mf Mg P1 P2 P3 P4 P5 (Hst j Hj))).
  exists (fun j => ps_x (st j)), (fun j => ps_y (st j)).
  split.
  { injection Hr as <-. rewrite <- Sn. f_equal. apply (trace_states st ps_tr (fun s => (ps_x s, ps_y s))); [rewrite S0; reflexivity|].
    intros j Hj. destruct (HR j Hj) as [_ [_ [_ [_ [_ [_ [HT _]]]]]]]. exact HT. }
  split; [rewrite S0; reflexivity|]. split; [rewrite S0; reflexivity|].
  split. { intros j Hj. destruct (HR j Hj) as [_ [_ [_ [_ [_ [_ [_ [HT _]]]]]]]]. exact HT. }
  assert (HD : forall j, (j < n)%nat -> palm_obj f g h (ps_x (st (S j))) (ps_y (st (S j))) + mode_gain gammaf (ly (ps_y (st j))) * norm2 (ps_x (st (S j)) [-] ps_x (st j)) +
        mode_gain gammag (lx (ps_x (st (S j)))) * norm2 (ps_y (st (S j)) [-] ps_y (st j)) <= palm_obj f g h (ps_x (st j)) (ps_y (st j))).
  { intros j Hj. destruct (HR j Hj) as [_ [_ [_ [_ [_ [_ [_ [_ HX]]]]]]]]. exact HX. }
  split; [exact HD|].
  assert (HG : forall gm beta l, mode_ok gm beta Lmax nb l -> 0 <= l -> 0 <= mode_gain gm l).
  { intros [gm|] b l; unfold mode_ok, mode_gain; intros; [nra|lra]. }
  assert (HM : forall j, (j <= n)%nat -> palm_obj f g h (ps_x (st j)) (ps_y (st j)) <= palm_obj f g h x0 y0).
  { induction j as [|j IH]; intro Hj; [rewrite S0; apply Rle_refl|]. specialize (HD j ltac:(lia)). specialize (IH ltac:(lia)).
    pose proof (HG _ _ _ (Mf (ps_y (st j)) (proj1 (proj2 (proj2 (HP j ltac:(lia)))))) (proj2 (bs_ly _ _ _ _ _ _ HH _))). pose proof (HG _ _ _ (Mg (ps_x (st (S j))) (proj1 (proj2 (HP (S j) Hj)))) (proj2 (bs_lx _ _ _ _ _ _ HH _))).
    pose proof (inner_pos (ps_x (st (S j)) [-] ps_x (st j))). pose proof (inner_pos (ps_y (st (S j)) [-] ps_y (st j))). unfold norm2 in HD. nra. }
  apply HM; lia.
Qed.
