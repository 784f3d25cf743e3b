(** * PALM: it runs, refuted claims; iPALM *)
From Verif Require Import Base Space Spec SpecOps ConvexFacts Smooth M_ProxOp P_ProxOp M_Norms P_Norms M_Loop LoopFacts M_PALM SeqFacts P_PALM.
From Coq Require Import Psatz.
From Verif Require Export S_PALM2.
Open Scope result_scope.

Section Total.
Context {E F : IPS} (H : Bilin E F) (h : E -> F -> R) (gx : E -> F -> E) (gy : E -> F -> F) (lx : E -> R) (ly : F -> R).
Lemma palm_bt_loop_total {G : IPS} (c : G -> R) o f beta x g : opt_impl o f -> 0 < beta -> forall n z tau, 0 < tau ->
  exists p t, palm_bt_loop (fun v => Ok (c v)) o beta x g n z tau = Ok (p, t) /\ 0 < t.
Proof.
  intros Ho Hb. induction n as [|n IH]; intros z tau Ht; cbn [palm_bt_loop]; [eauto|].
  destruct (opt_prox_spec o f (x [-] tau [*] g) tau Ho Ht) as [p [-> _]]. cbn [bind]. unfold palm_ftilde. cbn [bind]. rewrite pydiv_ok by lra. cbn [bind].
  destruct (_ || _)%bool; [eauto|]. apply IH. nra.
Qed.
Lemma palm_block_total {G : IPS} (c : G -> result R) c' (gr : G -> result G) gr' o f beta nb l gamma z tau0 :
  opt_impl o f -> 0 < beta -> (forall v, c v = Ok (c' v)) -> (forall v, gr v = Ok (gr' v)) ->
  match gamma with Some gm => 0 < gm /\ exists l', l = Ok l' /\ 0 < l' | None => exists t, tau0 = Some t /\ 0 < t end ->
  exists r, (match gamma with
   | Some gm => x' <- palm_fixed l gr o gm z ;; Ok (x', tau0)
   | None => tauf <- read_var tau0 ;; r <- palm_bt c gr o beta nb z tauf ;; Ok (fst r, Some (snd r))
   end) = Ok r /\ (gamma = None -> exists t, snd r = Some t /\ 0 < t).
Proof.
  intros Ho Hb Hc Hg Hm. destruct gamma as [gm|].
  - destruct Hm as [Hgm [l' [-> Hl]]]. unfold palm_fixed. cbn [bind]. assert (0 < gm * l') by nra. rewrite pydiv_ok by lra. cbn [bind]. rewrite Hg. cbn [bind].
    destruct (opt_prox_spec o f (z [-] (1 / (gm * l')) [*] gr' z) (1 / (gm * l')) Ho) as [p [-> _]]; [apply Rdiv_lt_0_compat; lra|].
    cbn [bind]. eexists. split; [reflexivity|discriminate].
  - destruct Hm as [t [-> Ht]]. cbn [read_var bind]. unfold palm_bt. rewrite Hg. cbn [bind]. rewrite (palm_bt_loop_ext _ _ _ _ _ _ Hc).
    destruct (palm_bt_loop_total c' o f beta z (gr' z) Ho Hb nb z t Ht) as [p [t' [-> Ht']]]. cbn [bind]. eexists. split; [reflexivity|]. intros _. exists t'. auto.
Qed.
End Total.

(*! C60_palm_runs : PALM returns for every start, stored arrays, iteration count and every combination of fixed steps and backtracking,
   as long as the block constants in use are positive *)
Lemma C60_palm_runs_l : forall (E F : IPS) (H : Bilin E F) h gx gy lx ly hx0 hy0 proxf proxg (f : efun E) (g : efun F) x0 y0 gammaf gammag beta n nb,
  bilin_spec H h gx gy lx ly -> 0 < beta ->
  opt_impl (option_map on_x proxf) f -> opt_impl (match gammag with None => option_map on_y proxf | Some _ => proxg end) g ->
  (forall gm, gammaf = Some gm -> 0 < gm /\ forall y, 0 < ly y) -> (forall gm, gammag = Some gm -> 0 < gm /\ forall x, 0 < lx x) ->
  exists r, PALM H hx0 hy0 proxf proxg x0 y0 gammaf gammag beta n nb = Ok r.
Proof.
  intros E F H h gx gy lx ly hx0 hy0 proxf proxg f g x0 y0 gammaf gammag beta n nb [Hc Hgx Hgy Hlx Hly Hux Huy] Hb Hf Hg Mf Mg.
  set (P := fun (_ : nat) (s : palm_state E F) => (gammaf = None -> exists t, ps_tauf s = Some t /\ 0 < t) /\ (gammag = None -> exists t, ps_taug s = Some t /\ 0 < t)).
  unfold PALM. set (s0 := PS x0 y0 hx0 hy0 _ _ x0 y0 []).
  destruct (for_loop_total (palm_body H proxf proxg gammaf gammag beta nb) P n 0 s0) as [s' [k Hk]].
  - intros j s _ [P1 P2]. unfold palm_body.
    destruct (palm_block_total (fun v => h_call H v (ps_y s)) (fun v => h v (ps_y s)) (h_gradx H (ps_hy s)) (fun v => gx v (ps_hy s)) (option_map on_x proxf) f beta nb
      (h_ly H (ps_y s)) gammaf (ps_x s) (ps_tauf s) Hf Hb) as [xt [-> HX]]; auto.
    { destruct gammaf as [gm|]; [|auto]. split; [apply (Mf gm eq_refl)|]. exists (ly (ps_y s)). split; [apply Hly|apply (Mf gm eq_refl)]. }
    cbn [bind].
    destruct (palm_block_total (fun v => h_call H (fst xt) v) (h (fst xt)) (h_grady H (fst xt)) (gy (fst xt)) (match gammag with None => option_map on_y proxf | Some _ => proxg end) g beta nb
      (h_lx H (fst xt)) gammag (ps_y s) (ps_taug s) Hg Hb) as [yt [HY HY']]; auto.
    { destruct gammag as [gm|]; [|auto]. split; [apply (Mg gm eq_refl)|]. exists (lx (fst xt)). split; [apply Hlx|apply (Mg gm eq_refl)]. }
    destruct gammag as [gm|]; rewrite HY; cbn [bind]; eexists; eexists; (split; [reflexivity|]); split; auto.
  - split; intros ->; exists 1; split; auto; lra.
  - rewrite Hk. cbn [bind]. eauto.
Qed.

(*! C60_g_ignored_refuted : with backtracking for y (gammag=None) the operator given for g is never used: the result is the same for any two of them *)
Lemma C60_g_ignored_refuted_l : forall (E F : IPS) (H : Bilin E F) hx0 hy0 proxf proxg proxg' x0 y0 gammaf beta n nb,
  PALM H hx0 hy0 proxf proxg x0 y0 gammaf None beta n nb = PALM H hx0 hy0 proxf proxg' x0 y0 gammaf None beta n nb.
Proof. reflexivity. Qed.

Lemma lr1_spec d : bilin_spec (lr1 d) (fun x y => (d - x * y) * (d - x * y) / 2) (fun x y => - (d - x * y) * y : R_IPS) (fun x y => - (d - x * y) * x : R_IPS)
  (fun x => x * x) (fun y => y * y).
Proof.
  constructor; intros; try reflexivity; try (split; [reflexivity|apply Rle_0_sqr]).
  - intros a b. unfold norm2; cbn. nra.
  - intros a b. unfold norm2; cbn. nra.
Qed.
Lemma nonneg1_prox : impl_prox nonneg1 (indic (fun x : R_IPS => 0 <= (x : R))).
Proof.
  intros x tau Ht. simpl. destruct (Rltb_spec 0 tau) as [[_ ->]|[Hc _]]; [|lra]. exists (Rmax x 0 : R). split; auto. split; [apply Rmax_r|].
  intros y Hy. simpl in *. assert (0 < / (2 * tau)) by (apply Rinv_0_lt_compat; lra). unfold norm2; cbn. unfold Rmax. destruct (Rle_dec x 0).
  - assert ((0 + -1 * x) * (0 + -1 * x) <= (y + -1 * x) * (y + -1 * x)) by nra. nra.
  - assert (0 <= (y + -1 * x) * (y + -1 * x)) by apply Rle_0_sqr. nra.
Qed.

(*! C60_constraint_violated_refuted : concretely, f = 0 (None), g the indicator of y >= 0, H = (-4 - x y)^2/2 from x = y = 1 with gammaf = 10,
   gammag=None: after one iteration PALM returns x = 1/2, y = -5/4, outside the domain of g *)
Lemma C60_constraint_violated_refuted_l :
  opt_impl (Some nonneg1) (indic (fun y : R_IPS => 0 <= (y : R))) /\
  PALM (lr1 (-4)) (1 : R_IPS) (1 : R_IPS) None (Some nonneg1) (1 : R_IPS) (1 : R_IPS) (Some 10) None (1 / 2) 1 100 =
    Ok ((1 / 2 : R), (- 5 / 4 : R), [((1 / 2 : R), (- 5 / 4 : R))]).
Proof.
  split; [apply nonneg1_prox|]. unfold PALM. cbn [for_loop]. unfold palm_body at 1. cbn [ps_x ps_y ps_hy ps_tauf ps_taug option_map is_none].
  unfold palm_fixed, opt_prox. cbn [lr1 h_ly h_gradx h_grady h_call bind]. rewrite pydiv_ok by lra. cbn [bind fst snd read_var ps_tr app].
  set (x1 := vsub _ _). assert (Hx1 : x1 = ((1 / 2 : R) : R_IPS)) by (unfold x1; cbn; field). rewrite Hx1. clear x1 Hx1.
  unfold palm_bt. cbn [bind]. set (g := (- (-4 - 1 / 2 * 1) * (1 / 2))). change 100%nat with (S 99). cbn [palm_bt_loop opt_prox bind].
  set (z := vsub (1 : R_IPS) _). assert (Hz : z = ((- 5 / 4 : R) : R_IPS)) by (unfold z, g; cbn; field). rewrite Hz. clear z Hz.
  unfold palm_ftilde. cbn [bind]. rewrite pydiv_ok by lra. cbn [bind].
  set (f := (-4 - 1 / 2 * (- 5 / 4)) * _ / 2). set (ft := _ + _ + _). destruct (Rleb_spec f ft) as [[_ ->]|[Hc _]].
  2:{ exfalso. revert Hc. unfold f, ft, g, norm2. cbn. lra. }
  cbn [orb bind fst snd]. reflexivity.
Qed.

(*! C60_stale_y_refuted : the first x step reads the y stored in H, not y0: starting at an exact solution x = y = 1 of H = (1 - x y)^2/2 with 2
   stored in H (as a previous run leaves), gammaf = 1, gammag = 2, one iteration raises H from 0 to 1/2 *)
Lemma C60_stale_y_refuted_l : exists x y : R_IPS,
  PALM (lr1 1) (1 : R_IPS) (2 : R_IPS) None None (1 : R_IPS) (1 : R_IPS) (Some 1) (Some 2) (1 / 2) 1 10 = Ok (x, y, [(x, y)]) /\
  h_call (lr1 1) (1 : R_IPS) (1 : R_IPS) = Ok 0 /\ h_call (lr1 1) x y = Ok (1 / 2).
Proof.
  exists (-1 : R), (0 : R). unfold PALM. cbn [for_loop]. unfold palm_body at 1. cbn [ps_x ps_y ps_hy ps_tauf ps_taug option_map is_none].
  unfold palm_fixed, opt_prox. cbn [lr1 h_ly h_lx h_gradx h_grady h_call bind]. rewrite pydiv_ok by lra. cbn [bind fst snd ps_tr app].
  set (x1 := vsub _ _). assert (Hx1 : x1 = ((-1 : R) : R_IPS)) by (unfold x1; cbn; field). rewrite Hx1. clear x1 Hx1.
  rewrite pydiv_ok by lra. cbn [bind fst snd]. set (y1 := vsub _ _). assert (Hy1 : y1 = ((0 : R) : R_IPS)) by (unfold y1; cbn; field). rewrite Hy1.
  split; [reflexivity|]. split; f_equal; field.
Qed.

(*! C60_zero_start_refuted : y0 = 0 makes the block constant of the low-rank function zero and PALM raises ZeroDivisionError *)
Lemma C60_zero_start_refuted_l : forall d hx0 hy0 proxf proxg x0 gm gammag beta n nb, (0 < n)%nat ->
  PALM (lr1 d) hx0 hy0 proxf proxg x0 (0 : R_IPS) (Some gm) gammag beta n nb = Err ZeroDivisionError.
Proof.
  intros. destruct n as [|n]; [lia|]. unfold PALM. cbn [for_loop]. unfold palm_body at 1. cbn [ps_x ps_y ps_hy]. unfold palm_fixed. cbn [lr1 h_ly bind].
  unfold pydiv. destruct (Reqb_spec (gm * (0 * 0)) 0) as [[_ ->]|[Hc _]]; [reflexivity|exfalso; apply Hc; ring].
Qed.

(** H(x,y) = (x - y)^2 / 2, both block constants 1 *)
Definition cpl1 : Bilin R_IPS R_IPS := mkBilin (E:=R_IPS) (F:=R_IPS)
  (fun x y => Ok ((x - y) * (x - y) / 2)) (fun y x => Ok (x - y : R_IPS)) (fun x y => Ok (y - x : R_IPS)) (fun x => Ok 1) (fun y => Ok 1).
Lemma cpl1_spec : bilin_spec cpl1 (fun x y => (x - y) * (x - y) / 2) (fun x y => (x - y) : R_IPS) (fun x y => (y - x) : R_IPS) (fun _ => 1) (fun _ => 1).
Proof.
  constructor; intros; try reflexivity; try (split; [reflexivity|lra]).
  - intros a b. unfold norm2; cbn. nra.
  - intros a b. unfold norm2; cbn. nra.
Qed.
(*!ex C60_example : the hypotheses of C60_palm_descent and C60_palm_runs hold for H = (x-y)^2/2, f = 0, g the indicator of y >= 0, gammaf = None
   (backtracking), gammag = 2; and those of C60_palm_descent for the low-rank H with gammaf = gammag = 2, from x0 = 1, y0 = 1 *)
Lemma C60_example_l : let z := etot (E:=R_IPS) (fun _ : R_IPS => 0) in let g := indic (fun y : R_IPS => 0 <= (y : R)) in
  bilin_spec cpl1 (fun x y => (x - y) * (x - y) / 2) (fun x y => (x - y) : R_IPS) (fun x y => (y - x) : R_IPS) (fun _ => 1) (fun _ => 1) /\
  0 < 1 / 2 < 1 /\ opt_impl (E:=R_IPS) None z /\ opt_impl (Some nonneg1) g /\ mode_ok None (1 / 2) 1 5 1 /\ mode_ok (Some 2) (1 / 2) 1 5 1 /\
  edom z (3 : R) /\ edom g (2 : R) /\
  (exists r, PALM cpl1 (3 : R_IPS) (2 : R_IPS) None (Some nonneg1) (3 : R_IPS) (2 : R_IPS) None (Some 2) (1 / 2) 7 5 = Ok r) /\
  (exists lx ly hx gx gy, bilin_spec (lr1 4) hx gx gy lx ly /\ forall y : R_IPS, mode_ok (Some 2) (1 / 2) 1 5 (ly y)).
Proof.
  intros z g. split; [apply cpl1_spec|]. split; [lra|]. split; [simpl; auto|]. split; [apply nonneg1_prox|].
  split; [unfold mode_ok; simpl; repeat split; try lra; try lia|]. split; [simpl; lra|]. split; [exact I|]. split; [simpl; lra|]. split.
  - apply (C60_palm_runs_l R_IPS R_IPS cpl1 _ _ _ _ _ (3 : R) (2 : R) None (Some nonneg1) z g (3 : R) (2 : R) None (Some 2) (1 / 2) 7 5 cpl1_spec); simpl; auto; try lra.
    + apply nonneg1_prox.
    + discriminate.
    + intros gm [= <-]. split; [lra|intros; lra].
  - do 5 eexists. split; [apply lr1_spec|]. intro y. simpl. lra.
Qed.

(** ** iPALM *)
(*! C60_ipalm_no_inertia : with a = (0, 0) and both steps of the same kind (both fixed or both backtracking) iPALM returns exactly what PALM returns *)
Lemma C60_ipalm_no_inertia_l : forall (E F : IPS) (H : Bilin E F) hx0 hy0 proxf proxg x0 y0 gammaf gammag beta n nb,
  is_none gammaf = is_none gammag ->
  iPALM H hx0 hy0 proxf proxg x0 y0 gammaf gammag 0 0 beta n nb = PALM H hx0 hy0 proxf proxg x0 y0 gammaf gammag beta n nb.
Proof.
  intros E F H hx0 hy0 proxf proxg x0 y0 gammaf gammag beta n nb Hn. unfold iPALM, PALM. rewrite Hn.
  set (s0 := PS x0 y0 hx0 hy0 _ _ x0 y0 []). f_equal. generalize s0. generalize 0%nat. clear s0.
  induction n as [|n IH]; intros i s; cbn [for_loop]; auto.
  assert (Hz : forall (G : IPS) (a b : G), a [+] 0 [*] b = a) by (intros; vring).
  assert (Eb : ipalm_body H proxf proxg gammaf gammag 0 0 beta nb i s = palm_body H proxf proxg gammaf gammag beta nb i s).
  { unfold ipalm_body, palm_body. rewrite !Hz. reflexivity. }
  rewrite Eb. destruct (palm_body H proxf proxg gammaf gammag beta nb i s) as [[s' b]|]; cbn [bind fst snd]; auto. destruct b; auto.
Qed.

(*! C60_ipalm_gammag_none_refuted : a fixed step for x with backtracking for y (gammag=None), which the documentation allows, never runs:
   iPALM raises UnboundLocalError in the first iteration *)
Lemma C60_ipalm_gammag_none_refuted_l : forall (E F : IPS) (H : Bilin E F) h gx gy lx ly hx0 hy0 proxf proxg (f : efun E) x0 y0 gm ax ay beta n nb,
  bilin_spec H h gx gy lx ly -> opt_impl (option_map on_x proxf) f -> 0 < gm -> 0 < ly y0 -> (0 < n)%nat ->
  iPALM H hx0 hy0 proxf proxg x0 y0 (Some gm) None ax ay beta n nb = Err UnboundLocalError.
Proof.
  intros E F H h gx gy lx ly hx0 hy0 proxf proxg f x0 y0 gm ax ay beta n nb HH Hf Hg Hl Hn. destruct n as [|n]; [lia|].
  unfold iPALM. cbn [for_loop is_none]. unfold ipalm_body at 1. cbn [ps_x ps_y ps_hy ps_xo ps_yo ps_tauf ps_taug].
  unfold palm_fixed. rewrite (proj1 (bs_ly _ _ _ _ _ _ HH y0)). cbn [bind]. assert (0 < gm * ly y0) by nra. rewrite pydiv_ok by lra. cbn [bind].
  rewrite (bs_gradx _ _ _ _ _ _ HH). cbn [bind].
  match goal with |- context [opt_prox _ ?v ?t] => destruct (opt_prox_spec (option_map on_x proxf) f v t Hf) as [p [-> _]]; [apply Rdiv_lt_0_compat; lra|] end.
  reflexivity.
Qed.

(*! C60_ipalm_y_inertia_refuted : in backtracking mode the inertial parameter of y has no effect: the result is the same for all values *)
Lemma C60_ipalm_y_inertia_refuted_l : forall (E F : IPS) (H : Bilin E F) hx0 hy0 proxf proxg proxg' x0 y0 gammaf ax ay ay' beta n nb,
  iPALM H hx0 hy0 proxf proxg x0 y0 gammaf None ax ay beta n nb = iPALM H hx0 hy0 proxf proxg' x0 y0 gammaf None ax ay' beta n nb.
Proof. reflexivity. Qed.

(** *** inertial descent *)

Lemma inertial_descent {E : IPS} (f : efun E) (h : E -> R) (gr : E -> E) (x xo p : E) a gm l : 0 < l -> 1 <= gm -> 0 <= a <= 1 -> edom f x ->
  let z := x [+] a [*] (x [-] xo) in let t := 1 / (gm * l) in
  is_prox f t (z [-] t [*] gr z) p -> q_upper h gr l -> q_lower h gr l ->
  edom f p /\ eval f p + h p + (gm - 1) * l * (1 - a) / 2 * norm2 (p [-] x) <=
    eval f x + h x + (gm * a + 2 * (a * a) - a) * l / 2 * norm2 (x [-] xo).
Proof.
  intros Hl Hg Ha Hx z t [Hp Hm] Hu Hlo. split; auto. specialize (Hm x Hx). specialize (Hu z p). specialize (Hlo z x).
  assert (Hgl : 0 < gm * l) by nra. assert (Ht : 0 < t) by (apply Rdiv_lt_0_compat; lra).
  replace (norm2 (p [-] (z [-] t [*] gr z))) with (norm2 (p [-] z) + 2 * t * << gr z, p [-] z >> + t * t * norm2 (gr z)) in Hm by (unfold norm2; iexp; ring).
  replace (norm2 (x [-] (z [-] t [*] gr z))) with (norm2 (x [-] z) + 2 * t * << gr z, x [-] z >> + t * t * norm2 (gr z)) in Hm by (unfold norm2; iexp; ring).
  assert (Hi : / (2 * t) = gm * l / 2) by (unfold t; field; lra).
  assert (Hi2 : gm * l / 2 * t = 1 / 2) by (unfold t; field; lra).
  rewrite Hi in Hm.
  assert (E1 : gm * l / 2 * (2 * t * << gr z, p [-] z >>) = << gr z, p [-] z >>) by (replace (gm * l / 2 * (2 * t * << gr z, p [-] z >>)) with (gm * l / 2 * t * 2 * << gr z, p [-] z >>) by ring; rewrite Hi2; lra).
  assert (E2 : gm * l / 2 * (2 * t * << gr z, x [-] z >>) = << gr z, x [-] z >>) by (replace (gm * l / 2 * (2 * t * << gr z, x [-] z >>)) with (gm * l / 2 * t * 2 * << gr z, x [-] z >>) by ring; rewrite Hi2; lra).
  assert (E3 : norm2 (x [-] z) = a * a * norm2 (x [-] xo)) by (unfold z, norm2; iexp; ring).
  assert (E4 : (1 - a) * norm2 (p [-] x) - a * (1 - a) * norm2 (x [-] xo) <= norm2 (p [-] z)).
  { assert (0 <= a * norm2 ((p [-] x) [-] (x [-] xo))) by (apply Rmult_le_pos; [lra|apply inner_pos]).
    replace (norm2 (p [-] z)) with ((1 - a) * norm2 (p [-] x) - a * (1 - a) * norm2 (x [-] xo) + a * norm2 ((p [-] x) [-] (x [-] xo))) by (unfold z, norm2; iexp; ring). lra. }
  rewrite E3 in Hlo, Hm.
  assert (E5 : (gm - 1) * l / 2 * ((1 - a) * norm2 (p [-] x) - a * (1 - a) * norm2 (x [-] xo)) <= (gm - 1) * l / 2 * norm2 (p [-] z)).
  { apply Rmult_le_compat_l; auto. nra. }
  nra.
Qed.


(*! C60_ipalm_inertial : both steps fixed, inertia in [0,1], H with stored y equal to y0 and two-sided block-quadratic bounds.  Whenever iPALM returns, its
   callbacks follow the documented inertial recursion, and if dx, dy separate the constants ((gamma a + 2 a^2 - a) L <= d <= (gamma-1)(1-a) L)
   then f + g + H + dx/2 |x_j - x_(j-1)|^2 + dy/2 |y_j - y_(j-1)|^2 never increases *)
Lemma C60_ipalm_inertial_l : forall (E F : IPS) (H : Bilin E F) h gx gy lx ly hx0 proxf proxg (f : efun E) (g : efun F) x0 y0 gf gg ax ay beta n nb r,
  bilin_spec H h gx gy lx ly -> opt_impl (option_map on_x proxf) f -> opt_impl proxg g -> 1 <= gf -> 1 <= gg ->
  edom f x0 -> edom g y0 ->
  iPALM H hx0 y0 proxf proxg x0 y0 (Some gf) (Some gg) ax ay beta n nb = Ok r ->
  exists xs ys, r = (xs n, ys n, map (fun j => (xs j, ys j)) (seq 1 n)) /\ xs 0%nat = x0 /\ ys 0%nat = y0 /\
    ipalm_doc f g gx gy lx ly gf gg ax ay xs ys n /\
    (0 <= ax <= 1 -> 0 <= ay <= 1 -> (forall y, q_lower (fun x => h x y) (fun x => gx x y) (ly y)) -> (forall x, q_lower (h x) (gy x) (lx x)) ->
     forall dx dy, (forall y, edom g y -> (gf * ax + 2 * (ax * ax) - ax) * ly y <= dx <= (gf - 1) * (1 - ax) * ly y) ->
       (forall x, edom f x -> (gg * ay + 2 * (ay * ay) - ay) * lx x <= dy <= (gg - 1) * (1 - ay) * lx x) ->
     let V j := palm_obj f g h (xs j) (ys j) + dx / 2 * norm2 (xs j [-] xs (pred j)) + dy / 2 * norm2 (ys j [-] ys (pred j)) in
     forall j, (j < n)%nat -> V (S j) <= V j).
Proof.
  intros E F H h gx gy lx ly hx0 proxf proxg f g x0 y0 gf gg ax ay beta n nb r HH Hf Hg Gf Gg Dx Dy Hr.
  unfold iPALM in Hr. cbn [is_none] in Hr. set (s0 := PS x0 y0 hx0 y0 _ _ x0 y0 []) in Hr.
  destruct (for_loop (ipalm_body H proxf proxg (Some gf) (Some gg) ax ay beta nb) n 0 s0) as [[s' k]|] eqn:El; cbn [bind fst] in Hr; [|discriminate].
  apply for_loop_states_inv in El.
  2:{ intros j s s1 b Hs. unfold ipalm_body in Hs.
      match type of Hs with bind ?r _ = _ => destruct r; cbn [bind] in Hs; [|discriminate] end.
      match type of Hs with bind ?r _ = _ => destruct r; cbn [bind] in Hs; [|discriminate] end. congruence. }
  destruct El as [-> [st [S0 [Sn Hst]]]]. destruct HH as [Hc Hgx Hgy Hlx Hly Hux Huy].
  assert (HB : forall j, (j < n)%nat -> ps_hy (st j) = ps_y (st j) ->
     ps_xo (st (S j)) = ps_x (st j) /\ ps_yo (st (S j)) = ps_y (st j) /\ ps_hy (st (S j)) = ps_y (st (S j)) /\
     ps_tr (st (S j)) = ps_tr (st j) ++ [(ps_x (st (S j)), ps_y (st (S j)))] /\
     let zx := ps_x (st j) [+] ax [*] (ps_x (st j) [-] ps_xo (st j)) in let zy := ps_y (st j) [+] ay [*] (ps_y (st j) [-] ps_yo (st j)) in
     0 < ly (ps_y (st j)) /\ 0 < lx (ps_x (st (S j))) /\
     is_prox f (1 / (gf * ly (ps_y (st j)))) (zx [-] (1 / (gf * ly (ps_y (st j)))) [*] gx zx (ps_y (st j))) (ps_x (st (S j))) /\
     is_prox g (1 / (gg * lx (ps_x (st (S j))))) (zy [-] (1 / (gg * lx (ps_x (st (S j))))) [*] gy (ps_x (st (S j))) zy) (ps_y (st (S j)))).
  { intros j Hj Hy. specialize (Hst j Hj). unfold ipalm_body in Hst. rewrite Hy in Hst.
    rewrite (proj1 (Hly _)) in Hst.
    match type of Hst with bind ?r _ = _ => destruct r as [xt|] eqn:Ex; cbn [bind] in Hst; [|discriminate] end.
    rewrite (proj1 (Hlx _)) in Hst.
    match type of Hst with bind ?r _ = _ => destruct r as [yt|] eqn:Ey; cbn [bind] in Hst; [|discriminate] end.
    injection Hst as <-. cbn [ps_x ps_y ps_xo ps_yo ps_hy ps_tr].
    split; auto. split; auto. split; auto. split; auto.
    match type of Ex with bind ?r _ = _ => destruct r as [x'|] eqn:Ex2; cbn [bind] in Ex; [|discriminate] end. injection Ex as <-.
    match type of Ey with bind ?r _ = _ => destruct r as [y'|] eqn:Ey2; cbn [bind] in Ey; [|discriminate] end. injection Ey as <-. cbn [fst snd] in *.
    set (zx := ps_x (st j) [+] ax [*] (ps_x (st j) [-] ps_xo (st j))) in *. set (zy := ps_y (st j) [+] ay [*] (ps_y (st j) [-] ps_yo (st j))) in *.
    assert (Ex3 : palm_fixed (Ok (ly (ps_y (st j)))) (fun v => Ok (gx v (ps_y (st j)))) (option_map on_x proxf) gf zx = Ok x').
    { rewrite <- Ex2. unfold palm_fixed. rewrite Hgx. reflexivity. }
    assert (Ey3 : palm_fixed (Ok (lx x')) (fun v => Ok (gy x' v)) proxg gg zy = Ok y').
    { rewrite <- Ey2. unfold palm_fixed. rewrite Hgy. reflexivity. }
    destruct (palm_fixed_inv _ (fun v => gx v (ps_y (st j))) _ f gf zx x' (proj2 (Hly _)) ltac:(lra) Hf Ex3) as [A1 A2].
    destruct (palm_fixed_inv _ (gy x') _ g gg zy y' (proj2 (Hlx _)) ltac:(lra) Hg Ey3) as [B1 B2]. auto. }
  assert (HI : forall j, (j <= n)%nat -> ps_hy (st j) = ps_y (st j) /\ edom f (ps_x (st j)) /\ edom g (ps_y (st j)) /\ ps_xo (st j) = ps_x (st (pred j)) /\ ps_yo (st j) = ps_y (st (pred j))).
  { induction j as [|j IH]; intro Hj; [rewrite S0; cbn [pred]; rewrite S0; auto|]. cbn [pred].
    destruct (IH ltac:(lia)) as [I1 _]. destruct (HB j ltac:(lia) I1) as [B1 [B2 [B3 [_ [_ [_ [B4 B5]]]]]]]. split; auto. split; [apply B4|]. split; [apply B5|]. auto. }
  exists (fun j => ps_x (st j)), (fun j => ps_y (st j)).
  split.
  { injection Hr as <-. rewrite <- Sn. f_equal. apply (trace_states st ps_tr (fun s => (ps_x s, ps_y s))); [rewrite S0; reflexivity|].
    intros j Hj. apply (HB j Hj). apply HI; lia. }
  split; [rewrite S0; reflexivity|]. split; [rewrite S0; reflexivity|].
  assert (HD : ipalm_doc f g gx gy lx ly gf gg ax ay (fun j => ps_x (st j)) (fun j => ps_y (st j)) n).
  { intros j Hj. destruct (HI j ltac:(lia)) as [I1 [_ [_ [I4 I5]]]]. cbv zeta. rewrite <- I4, <- I5. apply (HB j Hj I1). }
  split; [exact HD|]. intros Hax Hay Lx Ly dx dy Hdx Hdy V j Hj.
  destruct (HD j Hj) as [D1 [D2 [D3 D4]]]. destruct (HI j ltac:(lia)) as [_ [I2 [I3 _]]].
  destruct (inertial_descent f (fun x => h x (ps_y (st j))) (fun x => gx x (ps_y (st j))) _ _ _ ax gf _ D1 Gf Hax I2 D3 (Hux _) (Lx _)) as [X1 X2].
  destruct (inertial_descent g (h (ps_x (st (S j)))) (gy (ps_x (st (S j)))) _ _ _ ay gg _ D2 Gg Hay I3 D4 (Huy _) (Ly _)) as [Y1 Y2].
  unfold V, palm_obj. cbn [pred].
  specialize (Hdx _ I3). specialize (Hdy _ X1).
  pose proof (inner_pos (ps_x (st (S j)) [-] ps_x (st j))) as N1. pose proof (inner_pos (ps_y (st (S j)) [-] ps_y (st j))) as N2.
  pose proof (inner_pos (ps_x (st j) [-] ps_x (st (pred j)))) as N3. pose proof (inner_pos (ps_y (st j) [-] ps_y (st (pred j)))) as N4.
  fold (norm2 (ps_x (st (S j)) [-] ps_x (st j))) in N1. fold (norm2 (ps_y (st (S j)) [-] ps_y (st j))) in N2.
  fold (norm2 (ps_x (st j) [-] ps_x (st (pred j)))) in N3. fold (norm2 (ps_y (st j) [-] ps_y (st (pred j)))) in N4.
  assert (HM : forall a b c, 0 <= c -> a <= b -> a / 2 * c <= b / 2 * c) by (intros; apply Rmult_le_compat_r; lra).
  pose proof (HM _ _ _ N1 (proj2 Hdx)) as M1. pose proof (HM _ _ _ N2 (proj2 Hdy)) as M2. pose proof (HM _ _ _ N3 (proj1 Hdx)) as M3. pose proof (HM _ _ _ N4 (proj1 Hdy)) as M4.
  lra.
Qed.

(*!ex C60_ipalm_example : H = (x-y)^2/2, gammaf = gammag = 2, inertia 1/4 on both blocks, dx = dy = 3/4: the conditions of C60_ipalm_inertial hold, and those of C60_ipalm_gammag_none_refuted *)
Lemma C60_ipalm_example_l :
  bilin_spec cpl1 (fun x y => (x - y) * (x - y) / 2) (fun x y => (x - y) : R_IPS) (fun x y => (y - x) : R_IPS) (fun _ => 1) (fun _ => 1) /\
  (forall y : R_IPS, q_lower (E:=R_IPS) (fun x => (x - y) * (x - y) / 2) (fun x => (x - y) : R_IPS) 1) /\
  (forall x : R_IPS, q_lower (E:=R_IPS) (fun y => (x - y) * (x - y) / 2) (fun y => (y - x) : R_IPS) 1) /\
  (2 * (1 / 4) + 2 * (1 / 4 * (1 / 4)) - 1 / 4) * 1 <= 3 / 4 <= (2 - 1) * (1 - 1 / 4) * 1 /\
  exists r, iPALM cpl1 (3 : R_IPS) (2 : R_IPS) None None (3 : R_IPS) (2 : R_IPS) (Some 2) (Some 2) (1 / 4) (1 / 4) (1 / 2) 1 10 = Ok r.
Proof.
  split; [apply cpl1_spec|]. split; [intros y a b; unfold norm2; cbn; pose proof (Rle_0_sqr ((b:R) - a)) as Hs; unfold Rsqr in Hs; nra|]. split; [intros x a b; unfold norm2; cbn; pose proof (Rle_0_sqr ((b:R) - a)) as Hs; unfold Rsqr in Hs; nra|]. split; [lra|].
  unfold iPALM. cbn [for_loop is_none]. unfold ipalm_body. cbn [ps_x ps_y ps_hy option_map]. unfold palm_fixed, opt_prox. cbn [cpl1 h_ly h_lx h_gradx h_grady bind].
  rewrite pydiv_ok by lra. cbn [bind fst snd]. eauto.
Qed.
