(** * Proofs about PrimalDual (M_PD.v) *)
From Coq Require Import Psatz.
From Verif Require Import Base Space Spec VSum ConvexFacts Smooth M_ProxOp SpecOps P_ProxOp M_Norms P_Norms M_Loop LoopFacts LoopFacts2 SeqFacts M_PG M_PD SplitMath P_PG2 P_PG3 P_Split2 P_Split3.
From Verif Require Export S_PD.
Open Scope result_scope.
Open Scope R_scope.

(** ** Mathematics *)

Lemma convex_avg {E : IPS} (f : efun E) N h : convex f -> (0 < N)%nat -> (forall j, (j < N)%nat -> edom f (h j)) ->
  edom f (avg N h) /\ INR N * eval f (avg N h) <= RS N (fun j => eval f (h j)).
Proof.
  intros Hc HN. induction N as [|N IH]; [lia|]. intro Hd. destruct N as [|N].
  - unfold avg. cbn [VS RS INR]. replace (/ 1 [*] (vzero [+] h 0%nat)) with (h 0%nat) by (vfield). split; [apply Hd; lia|lra].
  - destruct IH as [H1 H2]; [lia|intros; apply Hd; lia|]. set (M := S N) in *. assert (HM : 0 < INR M) by (apply lt_0_INR; unfold M; lia).
    assert (He : avg (S M) h = (1 - / INR (S M)) [*] avg M h [+] / INR (S M) [*] h M).
    { unfold avg. cbn [VS]. rewrite S_INR. vfield. split; lra. }
    rewrite S_INR in *. assert (Ht : 0 <= / (INR M + 1) <= 1).
    { split; [left; apply Rinv_0_lt_compat; lra|]. rewrite <- Rinv_1. apply Rinv_le_contravar; lra. }
    destruct (Hc (avg M h) (h M) (/ (INR M + 1)) H1 (Hd M ltac:(lia)) Ht) as [H3 H4]. rewrite He. split; [exact H3|].
    apply Rmult_le_compat_l with (r := INR M + 1) in H4; [|lra].
    replace ((INR M + 1) * ((1 - / (INR M + 1)) * eval f (avg M h) + / (INR M + 1) * eval f (h M))) with (INR M * eval f (avg M h) + eval f (h M)) in H4 by (field; lra).
    cbn [RS]. lra.
Qed.

(** From the conjugate back to the function, when the function has a prox *)
Lemma conj_subgrad_back {E : IPS} (g gs : efun E) x y : convex g -> is_conj g gs -> (forall u, exists p, is_prox g 1 u p) ->
  is_subgrad gs y x -> is_subgrad g x y.
Proof.
  intros Hc Hg Hp Hs. destruct (Hp (x [+] y)) as [p Hpp]. apply prox_subgrad in Hpp; [|auto|lra].
  replace (/ 1 [*] (x [+] y [-] p)) with (x [+] y [-] p) in Hpp by vfield.
  destruct (subgrad_conj _ _ _ _ Hg Hpp) as [Hq _]. pose proof (subgrad_mono gs _ _ _ _ Hs Hq) as Hm.
  assert (Hn : norm2 (x [-] p) = 0).
  { assert (<< x [-] p, y [-] (x [+] y [-] p) >> = - norm2 (x [-] p)) by iring. pose proof (norm2_nonneg (x [-] p)). lra. }
  apply norm2_eq0 in Hn. apply vsub_eq in Hn. subst p. replace (x [+] y [-] x) with y in Hpp by vring. exact Hpp.
Qed.

Section Math.
Context {E F : IPS} (A : linop E F) (f : efun E) (gs : efun F) (z : E).

Local Notation lagr := (S_PD.lagr A f gs z).
Local Notation saddle := (S_PD.saddle A f gs z).


Lemma saddle_gap xo yo x y : saddle xo yo -> edom f x -> edom gs y -> 0 <= lagr x yo - lagr xo y.
Proof.
  intros [[H1 H2] [H3 H4]] Hx Hy. specialize (H2 x Hx). specialize (H4 y Hy). unfold S_PD.lagr.
  rewrite inner_opp_l in H2. rewrite inner_add_l, ladj_spec', !lapp_sub in H2. rewrite !inner_sub_r in *. rewrite !(inner_sym yo) in H2. lra.
Qed.
Lemma saddle_point xo yo : saddle xo yo -> edom f xo /\ edom gs yo /\
  (forall x, edom f x -> lagr xo yo <= lagr x yo) /\ (forall y, edom gs y -> lagr xo y <= lagr xo yo).
Proof.
  intros H. pose proof (saddle_gap xo yo) as G. destruct H as [[H1 H2] [H3 H4]]. split; auto. split; auto.
  split; [intros x Hx; pose proof (G x yo (conj (conj H1 H2) (conj H3 H4)) Hx H3)|intros y Hy; pose proof (G xo y (conj (conj H1 H2) (conj H3 H4)) H1 Hy)]; lra.
Qed.

Variables (tau mu : R).
Hypothesis Ht : 0 < tau.
Hypothesis Hm : 0 < mu.
Hypothesis HA : forall a, tau * mu * norm2 (lapp A a) <= norm2 a.

Lemma pd_young a b : << lapp A a, b >> <= pd_dist tau mu a b.
Proof.
  unfold pd_dist. specialize (HA a). pose proof (norm2_nonneg (mu [*] lapp A a [-] b)) as H. rewrite norm2_sub, norm2_scal, inner_scal_l in H.
  assert (H1 : << lapp A a, b >> <= mu / 2 * norm2 (lapp A a) + / (2 * mu) * norm2 b).
  { apply (Rmult_le_reg_l (2 * mu)); [lra|]. replace (2 * mu * (mu / 2 * norm2 (lapp A a) + / (2 * mu) * norm2 b)) with (mu * mu * norm2 (lapp A a) + norm2 b) by (field; lra). lra. }
  assert (H2 : mu / 2 * norm2 (lapp A a) <= / (2 * tau) * norm2 a).
  { apply (Rmult_le_reg_l (2 * tau)); [lra|]. replace (2 * tau * (mu / 2 * norm2 (lapp A a))) with (tau * mu * norm2 (lapp A a)) by field.
    replace (2 * tau * (/ (2 * tau) * norm2 a)) with (norm2 a) by (field; lra). exact HA. }
  lra.
Qed.
Lemma pd_young' a b : - << lapp A a, b >> <= pd_dist tau mu a b.
Proof.
  pose proof (pd_young ((-1) [*] a) b) as H. rewrite lapp_scal, inner_scal_l in H. unfold pd_dist in *. rewrite norm2_scal in H. lra.
Qed.

Local Notation pd_metric := (S_PD.pd_metric A tau mu).
Lemma pd_metric_nonneg a b : 0 <= pd_metric a b.
Proof. unfold S_PD.pd_metric. pose proof (pd_young a b). lra. Qed.

Lemma pd_step_f x y x' y' u v : convex f -> convex gs ->
  is_prox f tau (x [-] tau [*] (ladj A y [+] z)) x' -> is_prox gs mu (y [+] mu [*] lapp A (x' [+] 1 [*] (x' [-] x))) y' -> edom f u -> edom gs v ->
  pd_metric (x' [-] u) (y' [-] v) + pd_metric (x' [-] x) (y' [-] y) + (lagr x' v - lagr u y') <= pd_metric (x [-] u) (y [-] v).
Proof.
  intros Hf Hg Px Py Hu Hv. apply prox_subgrad in Px; auto. apply prox_subgrad in Py; auto. destruct Px as [Dx Px]. destruct Py as [Dy Py].
  specialize (Px u Hu). specialize (Py v Hv). unfold S_PD.lagr, pd_metric, pd_dist.
  assert (Hid : / (2 * tau) * norm2 (x [-] u) + / (2 * mu) * norm2 (y [-] v) - << lapp A (x [-] u), y [-] v >>
    - (/ (2 * tau) * norm2 (x' [-] u) + / (2 * mu) * norm2 (y' [-] v) - << lapp A (x' [-] u), y' [-] v >>)
    - (/ (2 * tau) * norm2 (x' [-] x) + / (2 * mu) * norm2 (y' [-] y) - << lapp A (x' [-] x), y' [-] y >>)
    - (<< lapp A x', v >> + << z, x' >> - << lapp A u, y' >> - << z, u >>) =
    - << / tau [*] (x [-] tau [*] (ladj A y [+] z) [-] x'), u [-] x' >> - << / mu [*] (y [+] mu [*] lapp A (x' [+] 1 [*] (x' [-] x)) [-] y'), v [-] y' >>).
  { rewrite !lapp_sub, !lapp_add, !lapp_scal, !lapp_sub. unfold norm2. inner_lin_all. rewrite !ladj_spec'. iexp. field. lra. }
  lra.
Qed.

Local Notation pd_pot := (S_PD.pd_pot A tau mu).
Lemma pd_pot_ge xp x y u v : / (2 * tau) * norm2 (x [-] u) <= pd_pot xp x y u v.
Proof. unfold S_PD.pd_pot. pose proof (pd_young' (x [-] xp) (y [-] v)) as H. unfold pd_dist in *. lra. Qed.

Lemma pd_step_g xp x y x' y' u v : convex f -> convex gs ->
  is_prox gs mu (y [+] mu [*] lapp A (x [+] 1 [*] (x [-] xp))) y' -> is_prox f tau (x [-] tau [*] (ladj A y' [+] z)) x' -> edom f u -> edom gs v ->
  pd_pot x x' y' u v + (lagr x' v - lagr u y') <= pd_pot xp x y u v.
Proof.
  intros Hf Hg Py Px Hu Hv. apply prox_subgrad in Px; auto. apply prox_subgrad in Py; auto. destruct Px as [Dx Px]. destruct Py as [Dy Py].
  specialize (Px u Hu). specialize (Py v Hv). pose proof (pd_young (x [-] xp) (y' [-] y)) as HY. unfold S_PD.lagr, pd_pot, pd_dist in *.
  assert (Hid : / (2 * tau) * norm2 (x [-] u) + / (2 * mu) * norm2 (y [-] v) + << lapp A (x [-] xp), y [-] v >> + << lapp A (x [-] xp), y' [-] y >>
    - / (2 * mu) * norm2 (y' [-] y)
    - (/ (2 * tau) * norm2 (x' [-] u) + / (2 * mu) * norm2 (y' [-] v) + << lapp A (x' [-] x), y' [-] v >> + / (2 * tau) * norm2 (x' [-] x))
    - (<< lapp A x', v >> + << z, x' >> - << lapp A u, y' >> - << z, u >>) =
    - << / tau [*] (x [-] tau [*] (ladj A y' [+] z) [-] x'), u [-] x' >> - << / mu [*] (y [+] mu [*] lapp A (x [+] 1 [*] (x [-] xp)) [-] y'), v [-] y' >>).
  { rewrite !lapp_sub, !lapp_add, !lapp_scal, !lapp_sub. unfold norm2. inner_lin_all. rewrite !ladj_spec'. iexp. field. lra. }
  lra.
Qed.

Lemma gap_avg N xs ys u v : convex f -> convex gs -> (0 < N)%nat -> (forall j, (j < N)%nat -> edom f (xs j) /\ edom gs (ys j)) ->
  INR N * (lagr (avg N xs) v - lagr u (avg N ys)) <= RS N (fun j => lagr (xs j) v - lagr u (ys j)).
Proof.
  intros Hf Hg HN Hd. assert (HI : 0 < INR N) by (apply lt_0_INR; auto).
  destruct (convex_avg f N xs Hf HN (fun j Hj => proj1 (Hd j Hj))) as [_ H1]. destruct (convex_avg gs N ys Hg HN (fun j Hj => proj2 (Hd j Hj))) as [_ H2].
  assert (L1 : INR N * << lapp A (avg N xs), v >> = RS N (fun j => << lapp A (xs j), v >>)).
  { rewrite ladj_spec. unfold avg. rewrite inner_scal_l, inner_VS_l. rewrite (RS_ext N _ (fun j => << lapp A (xs j), v >>)) by (intros; rewrite ladj_spec; auto). field. lra. }
  assert (L2 : INR N * << z, avg N xs >> = RS N (fun j => << z, xs j >>)).
  { unfold avg. rewrite inner_scal_r, inner_VS_r. field. lra. }
  assert (L3 : INR N * << lapp A u, avg N ys >> = RS N (fun j => << lapp A u, ys j >>)).
  { unfold avg. rewrite inner_scal_r, inner_VS_r. field. lra. }
  unfold S_PD.lagr.
  rewrite RS_sub, RS_sub, RS_add, RS_add, RS_sub, RS_add, RS_add, !RS_const, <- L1, <- L2, <- L3. lra.
Qed.

Lemma telescope (P g : nat -> R) n : (forall j, (j < n)%nat -> P (S j) + g j <= P j) -> RS n g + P n <= P 0%nat.
Proof. induction n as [|n IH]; intro H; simpl; [lra|]. pose proof (H n ltac:(lia)). specialize (IH (fun j Hj => H j ltac:(lia))). lra. Qed.
End Math.

Lemma saddle_primal {E F : IPS} (A : linop E F) (f : efun E) (g gs : efun F) z xo yo : convex g -> is_conj g gs -> (forall u, exists p, is_prox g 1 u p) ->
  saddle A f gs z xo yo -> is_min (eadd (elin f z) (epre g (lapp A))) xo.
Proof.
  intros Hc Hg Hp [[H1 H2] H3]. apply (conj_subgrad_back g gs) in H3; auto. destruct H3 as [H3 H4].
  split; [split; auto|]. intros x [Hx Hx']. cbn in Hx, Hx'. specialize (H2 x Hx). specialize (H4 _ Hx'). cbn [eval eadd elin epre].
  rewrite inner_opp_l, inner_add_l, ladj_spec', lapp_sub in H2. rewrite !inner_sub_r in *. lra.
Qed.

(** ** The run *)

Lemma getitem_steps s n j : steps_ok s n -> (j < n)%nat -> getitem (steps_arr s n) j = Ok (step_at s j) /\ 0 < step_at s j.
Proof.
  intros H Hj. unfold getitem. destruct s as [t|l]; simpl in *.
  - split; auto. rewrite nth_error_repeat by auto. reflexivity.
  - destruct H as [H1 H2]. split; [|auto]. rewrite (nth_error_nth' l 0) by lia. reflexivity.
Qed.

Section Run.
Context {E F : IPS} (A : linop E F).
Local Notation pd_doc := (S_PD.pd_doc A).

Lemma rmatvec_plus_ok alias z y : alias = None \/ z = None -> rmatvec_plus A alias z y = (ladj A y [+] zvec z, y).
Proof. intro H. unfold rmatvec_plus. destruct z as [z|]; [destruct H as [->|H]; [reflexivity|discriminate]|]. cbn. f_equal. vring. Qed.

Lemma pd_run proxf proxg f gs alias x0 tau mu y0 z theta n gfirst : impl_prox proxf f -> impl_proxdual proxg gs -> steps_ok tau n -> steps_ok mu n ->
  alias = None \/ z = None ->
  exists xs hs ys, PrimalDual proxf proxg A alias x0 tau mu y0 z theta n gfirst = Ok (xs n, ys n, map (fun j => (xs j, ys j)) (seq 1 n)) /\
    xs 0%nat = x0 /\ hs 0%nat = x0 /\ ys 0%nat = y0vec y0 /\ pd_doc f gs (zvec z) (step_at tau) (step_at mu) theta gfirst xs hs ys n.
Proof.
  intros Hf Hg Htau Hmu Hal.
  set (Rl := fun (j : nat) (s s' : @pd_state E F) (b : bool) => b = false /\ pd_hat s' = pd_x s' [+] theta [*] (pd_x s' [-] pd_x s) /\
    (if gfirst then is_prox gs (step_at mu j) (pd_y s [+] step_at mu j [*] lapp A (pd_hat s)) (pd_y s') /\
                   is_prox f (step_at tau j) (pd_x s [-] step_at tau j [*] (ladj A (pd_y s') [+] zvec z)) (pd_x s')
    else is_prox f (step_at tau j) (pd_x s [-] step_at tau j [*] (ladj A (pd_y s) [+] zvec z)) (pd_x s') /\
         is_prox gs (step_at mu j) (pd_y s [+] step_at mu j [*] lapp A (pd_hat s')) (pd_y s')) /\
    pd_tr s' = pd_tr s ++ [(pd_x s', pd_y s')]).
  destruct (loop_states_brk (pd_body proxf proxg A alias z theta gfirst (steps_arr tau n) (steps_arr mu n)) (fun _ _ => True) Rl n (PD x0 (y0vec y0) x0 []))
    as [st [bs [k [E1 [S0 [Hk [_ [HP [HR [Hb Hl]]]]]]]]]].
  - exact I.
  - intros j s Hj _. destruct (getitem_steps tau n j Htau Hj) as [G1 P1]. destruct (getitem_steps mu n j Hmu Hj) as [G2 P2].
    unfold pd_body. destruct gfirst.
    + rewrite G2. cbn [bind]. destruct (Hg (pd_y s [+] step_at mu j [*] lapp A (pd_hat s)) (step_at mu j) P2) as [y [-> Hy]]. cbn [bind].
      rewrite rmatvec_plus_ok by auto. rewrite G1. cbn [bind].
      destruct (Hf (pd_x s [-] step_at tau j [*] (ladj A y [+] zvec z)) (step_at tau j) P1) as [x [-> Hx]]. cbn [bind].
      eexists. eexists. split; [reflexivity|]. split; [|exact I]. unfold Rl. cbn [pd_x pd_y pd_hat pd_tr]. auto.
    + rewrite rmatvec_plus_ok by auto. rewrite G1. cbn [bind].
      destruct (Hf (pd_x s [-] step_at tau j [*] (ladj A (pd_y s) [+] zvec z)) (step_at tau j) P1) as [x [-> Hx]]. cbn [bind]. rewrite G2. cbn [bind].
      destruct (Hg (pd_y s [+] step_at mu j [*] lapp A (x [+] theta [*] (x [-] pd_x s))) (step_at mu j) P2) as [y [-> Hy]]. cbn [bind].
      eexists. eexists. split; [reflexivity|]. split; [|exact I]. unfold Rl. cbn [pd_x pd_y pd_hat pd_tr]. auto.
  - assert (k = n) as ->. { destruct Hl as [Hl|[j [-> Hl]]]; auto. destruct (HR j ltac:(lia)) as [Hf' _]. rewrite Hf' in Hl. discriminate. }
    exists (fun j => pd_x (st j)), (fun j => pd_hat (st j)), (fun j => pd_y (st j)). split; [|split; [|split; [|split]]].
    + unfold PrimalDual. change (match y0 with Some y => y | None => vzero end) with (y0vec y0) || idtac.
      replace (match y0 with Some y => y | None => vzero end) with (y0vec y0) by (destruct y0; reflexivity). rewrite E1. cbn [bind fst]. do 2 f_equal.
      apply (trace_states st pd_tr (fun s => (pd_x s, pd_y s))); [rewrite S0; auto|]. intros j Hj. destruct (HR j Hj) as [_ [_ [_ H3]]]. exact H3.
    + rewrite S0. reflexivity.
    + rewrite S0. reflexivity.
    + rewrite S0. reflexivity.
    + intros j Hj. destruct (HR j Hj) as [_ [H1 [H2 _]]]. split; [exact H1|]. destruct gfirst; exact H2.
Qed.

Local Notation pd_potential := (S_PD.pd_potential A).

Lemma pd_potential_step f gs z tau mu gfirst xs hs ys n : convex f -> convex gs -> 0 < tau -> 0 < mu ->
  (forall a, tau * mu * norm2 (lapp A a) <= norm2 a) -> hs 0%nat = xs 0%nat -> pd_doc f gs z (fun _ => tau) (fun _ => mu) 1 gfirst xs hs ys n ->
  forall j u v, (j < n)%nat -> edom f u -> edom gs v ->
    pd_potential tau mu gfirst xs ys (S j) u v + (lagr A f gs z (xs (S j)) v - lagr A f gs z u (ys (S j))) <= pd_potential tau mu gfirst xs ys j u v.
Proof.
  intros Hf Hg Ht Hm HA H0 Hd j u v Hj Hu Hv. destruct (Hd j Hj) as [H1 H2]. unfold S_PD.pd_potential. destruct gfirst.
  - replace (S j - 1)%nat with j by lia. destruct H2 as [H2 H3]. eapply pd_step_g; eauto.
    replace (xs j [+] 1 [*] (xs j [-] xs (j - 1)%nat)) with (hs j); [exact H2|]. destruct j as [|j].
    + simpl. rewrite H0. vring.
    + replace (S j - 1)%nat with j by lia. apply (Hd j ltac:(lia)).
  - destruct H2 as [H2 H3]. rewrite H1 in H3. pose proof (pd_step_f A f gs z tau mu Ht Hm (xs j) (ys j) (xs (S j)) (ys (S j)) u v Hf Hg H2 H3 Hu Hv).
    pose proof (pd_metric_nonneg A tau mu Ht Hm HA (xs (S j) [-] xs j) (ys (S j) [-] ys j)). lra.
Qed.
End Run.

(*! C57_recursion : proxf implements prox of f, proxg's proxdual the prox of the conjugate gs; scalar or array steps that are
   positive and long enough; any theta, z, y0 and update order; rmatvec returns a fresh array (or z is None).  PrimalDual never raises,
   follows the documented recursion of the chosen order, calls back once per iteration; an iteration that leaves x and y unchanged
   (with the extrapolated point equal to x) is at a saddle point, and then x minimises f + <z,.> + g(A .) *)
Lemma C57_recursion_l : forall (E F : IPS) (A : linop E F) proxf proxg f g gs alias x0 tau mu y0 z theta n gfirst,
  impl_prox proxf f -> impl_proxdual proxg gs -> convex f -> convex g -> is_conj g gs -> (forall u, exists p, is_prox g 1 u p) ->
  steps_ok tau n -> steps_ok mu n -> alias = None \/ z = None ->
  exists xs hs ys, PrimalDual proxf proxg A alias x0 tau mu y0 z theta n gfirst = Ok (xs n, ys n, map (fun j => (xs j, ys j)) (seq 1 n)) /\
    xs 0%nat = x0 /\ hs 0%nat = x0 /\ ys 0%nat = y0vec y0 /\ pd_doc A f gs (zvec z) (step_at tau) (step_at mu) theta gfirst xs hs ys n /\
    forall j, (j < n)%nat -> xs (S j) = xs j -> ys (S j) = ys j -> hs j = xs j ->
      saddle A f gs (zvec z) (xs j) (ys j) /\ is_min (eadd (elin f (zvec z)) (epre g (lapp A))) (xs j).
Proof.
  intros E F A proxf proxg f g gs alias x0 tau mu y0 z theta n gfirst Hf Hg Cf Cg Hc Hp Ht Hm Ha.
  destruct (pd_run A proxf proxg f gs alias x0 tau mu y0 z theta n gfirst Hf Hg Ht Hm Ha) as [xs [hs [ys [E1 [X0 [H0 [Y0 Hd]]]]]]].
  exists xs, hs, ys. split; [exact E1|]. split; [exact X0|]. split; [exact H0|]. split; [exact Y0|]. split; [exact Hd|].
  intros j Hj Hx Hy Hh. destruct (Hd j Hj) as [H1 H2]. destruct (getitem_steps tau n j Ht Hj) as [_ P1]. destruct (getitem_steps mu n j Hm Hj) as [_ P2].
  assert (Hsad : saddle A f gs (zvec z) (xs j) (ys j)).
  { assert (Hh' : hs (S j) = xs j) by (rewrite H1, Hx; vring). pose proof (conj_convex _ _ Hc) as Cgs.
    rewrite Hx, Hy, ?Hh, ?Hh' in H2.
    assert (H3 : is_prox f (step_at tau j) (xs j [-] step_at tau j [*] (ladj A (ys j) [+] zvec z)) (xs j) /\ is_prox gs (step_at mu j) (ys j [+] step_at mu j [*] lapp A (xs j)) (ys j)) by (destruct gfirst; tauto).
    destruct H3 as [H3 H4]. apply prox_subgrad in H3; auto. apply prox_subgrad in H4; auto. split.
    - replace (vopp (ladj A (ys j) [+] zvec z)) with (/ step_at tau j [*] (xs j [-] step_at tau j [*] (ladj A (ys j) [+] zvec z) [-] xs j)); [exact H3|]. vfield. lra.
    - replace (lapp A (xs j)) with (/ step_at mu j [*] (ys j [+] step_at mu j [*] lapp A (xs j) [-] ys j)); [exact H4|]. vfield. lra. }
  split; [exact Hsad|]. apply (saddle_primal A f g gs (zvec z) (xs j) (ys j)); auto.
Qed.

(*! C57_certificates : theta = 1, constant steps with tau mu |A a|^2 <= |a|^2, either order.  With the potential of that order
   (g first: distance^2/(2 step) plus cross terms; f first: the natural metric), at every iteration and against every (u, v):
   potential' + (L(x',v) - L(u,y')) <= potential, and the potential is never negative (it bounds |x-u|^2/(2tau) when g is first).
   Hence the iterates are Fejer monotone towards every saddle point, and the averages of the first N iterates have primal-dual gap
   at most (initial potential)/N *)
Lemma C57_certificates_l : forall (E F : IPS) (A : linop E F) proxf proxg f gs alias x0 tau mu y0 z n gfirst,
  impl_prox proxf f -> impl_proxdual proxg gs -> convex f -> convex gs -> 0 < tau -> 0 < mu -> alias = None \/ z = None ->
  (forall a, tau * mu * norm2 (lapp A a) <= norm2 a) ->
  let L := lagr A f gs (zvec z) in
  exists xs ys, PrimalDual proxf proxg A alias x0 (Scalar tau) (Scalar mu) y0 z 1 n gfirst = Ok (xs n, ys n, map (fun j => (xs j, ys j)) (seq 1 n)) /\
    xs 0%nat = x0 /\ ys 0%nat = y0vec y0 /\
    let P := pd_potential A tau mu gfirst xs ys in
    (forall j u v, (j <= n)%nat -> 0 <= P j u v /\ (gfirst = true -> / (2 * tau) * norm2 (xs j [-] u) <= P j u v)) /\
    (forall j u v, (j < n)%nat -> edom f u -> edom gs v -> P (S j) u v + (L (xs (S j)) v - L u (ys (S j))) <= P j u v) /\
    (forall j xo yo, (j < n)%nat -> saddle A f gs (zvec z) xo yo -> P (S j) xo yo <= P j xo yo) /\
    (forall N u v, (1 <= N <= n)%nat -> edom f u -> edom gs v ->
       L (avg N (fun j => xs (S j))) v - L u (avg N (fun j => ys (S j))) <= P 0%nat u v / INR N).
Proof.
  intros E F A proxf proxg f gs alias x0 tau mu y0 z n gfirst Hf Hg Cf Cg Ht Hm Hal HA L.
  destruct (pd_run A proxf proxg f gs alias x0 (Scalar tau) (Scalar mu) y0 z 1 n gfirst Hf Hg Ht Hm Hal) as [xs [hs [ys [E1 [X0 [H0 [Y0 Hd]]]]]]].
  pose proof (pd_potential_step A f gs (zvec z) tau mu gfirst xs hs ys n Cf Cg Ht Hm HA ltac:(congruence) Hd) as Hst. fold L in Hst.
  exists xs, ys. split; [exact E1|]. split; [exact X0|]. split; [exact Y0|]. intro P.
  assert (HP0 : forall j u v, 0 <= P j u v /\ (gfirst = true -> / (2 * tau) * norm2 (xs j [-] u) <= P j u v)).
  { intros j u v. unfold P, pd_potential. destruct gfirst.
    - pose proof (pd_pot_ge A tau mu Ht Hm HA (xs (j - 1)%nat) (xs j) (ys j) u v) as H.
      assert (0 <= / (2 * tau) * norm2 (xs j [-] u)) by (apply Rmult_le_pos; [left; apply Rinv_0_lt_compat; lra|apply norm2_nonneg]). split; [lra|auto].
    - split; [apply pd_metric_nonneg; auto|discriminate]. }
  split; [intros j u v _; apply HP0|]. split; [exact Hst|].
  assert (Hdom : forall j, (j < n)%nat -> edom f (xs (S j)) /\ edom gs (ys (S j))).
  { intros j Hj. destruct (Hd j Hj) as [_ H2]. destruct gfirst; destruct H2 as [[Ha _] [Hb _]]; auto. }
  split.
  - intros j xo yo Hj Hs. destruct (Hdom j Hj) as [D1 D2]. destruct (saddle_point _ _ _ _ _ _ Hs) as [S1 [S2 _]].
    pose proof (Hst j xo yo Hj S1 S2) as H. pose proof (saddle_gap _ _ _ _ _ _ (xs (S j)) (ys (S j)) Hs D1 D2) as G. fold L in G. unfold P. lra.
  - intros N u v HN Hu Hv. assert (HI : 0 < INR N) by (apply lt_0_INR; lia).
    pose proof (gap_avg A f gs (zvec z) N (fun j => xs (S j)) (fun j => ys (S j)) u v Cf Cg ltac:(lia) (fun j Hj => Hdom j ltac:(lia))) as Hg1. fold L in Hg1.
    pose proof (telescope (fun j => P j u v) (fun j => L (xs (S j)) v - L u (ys (S j))) N (fun j Hj => Hst j u v ltac:(lia) Hu Hv)) as Ht1. cbv beta in Ht1.
    destruct (HP0 N u v) as [HN0 _]. apply (Rmult_le_reg_l (INR N)); auto. replace (INR N * (P 0%nat u v / INR N)) with (P 0%nat u v) by (field; lra). lra.
Qed.
