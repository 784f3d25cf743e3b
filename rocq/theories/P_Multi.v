(** * Proofs about PPXA, ConsensusADMM and GeneralizedProximalGradient (M_Multi.v) *)
From Coq Require Import Psatz String.
From Verif Require Import Base Space Spec VSum ConvexFacts Smooth M_ProxOp SpecOps P_ProxOp M_Norms P_Norms M_Loop LoopFacts LoopFacts2 SeqFacts M_PG M_Multi SplitMath P_PG2 P_PG3 P_Split2 P_Split3.
From Verif Require Export S_Multi.
Open Scope result_scope.
Open Scope R_scope.


Lemma mapM_pydiv tau w : (forall i, (i < List.length w)%nat -> 0 < nthr w i) ->
  mapM (pydiv tau) w = Ok (map (fun a => tau / a) w).
Proof.
  induction w as [|a w IH]; intro H; [reflexivity|]. cbn [mapM map]. pose proof (H 0%nat ltac:(simpl; lia)) as Ha. unfold nthr in Ha. simpl in Ha.
  rewrite pydiv_ok by lra. cbn [bind]. rewrite IH; [reflexivity|]. intros i Hi. apply (H (S i)). simpl; lia.
Qed.

Lemma prox_all_ok {E : IPS} (os : list (Op E)) : forall (f : nat -> efun E) ys taus, impl_all os f -> List.length ys = List.length os -> List.length taus = List.length os ->
  (forall i, (i < List.length os)%nat -> 0 < nthr taus i) ->
  exists ps, prox_all os ys taus = Ok ps /\ List.length ps = List.length os /\
    forall i, (i < List.length os)%nat -> is_prox (f i) (nthr taus i) (nthv ys i) (nthv ps i).
Proof.
  induction os as [|o os IH]; intros f ys taus Hf Hy Ht Hpos; [exists []; split; [reflexivity|]; split; [reflexivity|simpl; intros; lia]|].
  destruct ys as [|y ys]; [discriminate|]. destruct taus as [|t taus]; [discriminate|]. cbn [prox_all].
  destruct (Hf 0%nat o eq_refl y t) as [p [-> Hp]]; [apply (Hpos 0%nat); simpl; lia|]. cbn [bind].
  destruct (IH (fun i => f (S i)) ys taus) as [ps [-> [Hl Hps]]].
  - intros i o' Ho. apply (Hf (S i)). exact Ho.
  - simpl in Hy; lia.
  - simpl in Ht; lia.
  - intros i Hi. apply (Hpos (S i)). simpl; lia.
  - exists (p :: ps). split; [reflexivity|]. split; [simpl; lia|]. intros i Hi. destruct i; [exact Hp|]. apply Hps. simpl in Hi; lia.
Qed.

Lemma stack_all_ok {E : IPS} (os : list (Op E)) (f : nat -> efun E) ys taus : impl_all os f -> (0 < List.length os)%nat -> List.length ys = List.length os -> List.length taus = List.length os ->
  (forall i, (i < List.length os)%nat -> 0 < nthr taus i) ->
  exists ps, stack_all os ys taus = Ok ps /\ List.length ps = List.length os /\
    forall i, (i < List.length os)%nat -> is_prox (f i) (nthr taus i) (nthv ys i) (nthv ps i).
Proof.
  intros Hf Hm Hy Ht Hpos. destruct (prox_all_ok os f ys taus Hf Hy Ht Hpos) as [ps [E1 [Hl Hp]]]. exists ps. unfold stack_all. rewrite E1. cbn [bind].
  destruct ps; [simpl in Hl; lia|]. auto.
Qed.

Lemma wsum_VS {E : IPS} w (l : list E) : List.length w = List.length l -> wsum w l = VS (List.length l) (fun i => nthr w i [*] nthv l i).
Proof.
  intro H. unfold wsum. rewrite vsum_VS, map2_length, H by auto. apply VS_ext. intros i Hi. unfold nthv, nthr. apply nth_map2; auto; lia.
Qed.
Lemma vmean_VS {E : IPS} (l : list E) : vmean l = / INR (List.length l) [*] VS (List.length l) (nthv l).
Proof. unfold vmean. rewrite vsum_VS. reflexivity. Qed.

(** ** PPXA *)
Section PX.
Context {E : IPS}.

Lemma ppxa_run (os : list (Op E)) f (w : list R) tau eta amax t y n :
  let m := List.length os in impl_all os f -> (0 < m)%nat -> List.length w = m -> List.length y = m -> 0 < tau -> (forall i, (i < m)%nat -> 0 < nthr w i) ->
  exists xs ys ps k, for_loop (ppxa_body os w tau eta amax (Some t)) n 0 (PX y (vmean y) (vmean y) []) = Ok (PX (map (ys k) (seq 0 m)) (xs k) (xs k) (map xs (seq 1 k)), k) /\
    xs 0%nat = vmean y /\ (forall i, ys 0%nat i = nthv y i) /\ ppxa_doc m f (nthr w) tau eta xs ys ps k /\
    stops_when (fun j => amax (xs j [-] xs (j - 1)%nat) < t) n k.
Proof.
  intros m Hf Hm Hw Hy Ht Hpos.
  set (Rl := fun (j : nat) (s s' : ppxa_state E) (b : bool) => exists p : list E, List.length p = m /\
    (forall i, (i < m)%nat -> is_prox (f i) (tau / nthr w i) (nthv (px_y s) i) (nthv p i) /\
       nthv (px_y s') i = nthv (px_y s) i [+] eta [*] (2 [*] VS m (fun i => nthr w i [*] nthv p i) [-] px_x s [-] nthv p i)) /\
    px_x s' = px_x s [+] eta [*] (VS m (fun i => nthr w i [*] nthv p i) [-] px_x s) /\
    px_tr s' = px_tr s ++ [px_x s'] /\ (b = true <-> amax (px_x s' [-] px_x s) < t)).
  destruct (loop_states_brk (ppxa_body os w tau eta amax (Some t)) (fun _ s => List.length (px_y s) = m /\ px_old s = px_x s) Rl n (PX y (vmean y) (vmean y) []))
    as [st [bs [k [E1 [S0 [Hk [_ [HP [HR [Hb Hl]]]]]]]]]].
  - split; auto.
  - intros j s _ [Hly Hold]. unfold ppxa_body. rewrite mapM_pydiv by (rewrite Hw; auto). cbn [bind].
    destruct (stack_all_ok os f (px_y s) (map (fun a => tau / a) w) Hf) as [p [-> [Hlp Hp]]]; auto.
    { rewrite map_length; auto. }
    { intros i Hi. unfold nthr. rewrite (map_nth_lt _ _ _ 0) by (rewrite Hw; auto). apply Rdiv_lt_0_compat; auto. apply Hpos; auto. }
    cbn [bind abs_stop]. eexists. eexists. split; [reflexivity|]. split.
    + exists p. split; auto. cbn [px_y px_x px_tr]. rewrite wsum_VS by (fold m in Hlp; lia). fold m in Hlp. rewrite Hlp. split; [|split; [reflexivity|split; [reflexivity|]]].
      * intros i Hi. split.
        -- specialize (Hp i Hi). unfold nthr in Hp. rewrite (map_nth_lt _ _ _ 0) in Hp by (rewrite Hw; auto). exact Hp.
        -- unfold nthv at 1. rewrite (nth_map2 _ _ _ _ vzero vzero) by lia. reflexivity.
      * rewrite Hold. apply Rltb_true.
    + cbn [px_y px_old px_x]. split; [|reflexivity]. rewrite map2_length by (fold m in Hlp; lia). exact Hly.
  - set (xs := fun j => px_x (st j)). set (ys := fun j i => nthv (px_y (st j)) i).
    assert (Hps : forall q, exists ps : nat -> nat -> E, forall j, (j < k)%nat -> (j < q)%nat -> 
      (forall i, (i < m)%nat -> is_prox (f i) (tau / nthr w i) (ys j i) (ps j i) /\
         ys (S j) i = ys j i [+] eta [*] (2 [*] VS m (fun i => nthr w i [*] ps j i) [-] xs j [-] ps j i)) /\
      xs (S j) = xs j [+] eta [*] (VS m (fun i => nthr w i [*] ps j i) [-] xs j)).
    { induction q as [|q [ps IH]]; [exists (fun _ _ => vzero); intros; lia|].
      destruct (Nat.ltb_spec q k) as [Hq|Hq].
      - destruct (HR q Hq) as [p [_ [H1 [H2 _]]]]. exists (upd ps q (nthv p)). intros j Hj Hjq. destruct (Nat.eq_dec j q) as [->|Hne].
        + rewrite upd_eq. split; [exact H1|exact H2].
        + rewrite upd_ne by auto. apply IH; auto; lia.
      - exists ps. intros j Hj _. apply IH; lia. }
    destruct (Hps k) as [ps Hq]. exists xs, ys, ps, k. split; [|split; [|split; [|split]]].
    + rewrite E1. do 2 f_equal. pose proof (HP k ltac:(lia)) as [Hlk Hok]. destruct (st k) as [yk xk ok tk] eqn:Ek. cbn [px_y px_old px_x] in *. subst ok.
      assert (Hx : xs k = xk) by (unfold xs; rewrite Ek; reflexivity). rewrite Hx. f_equal.
      * assert (Hys : forall i, ys k i = nthv yk i) by (intro; unfold ys; rewrite Ek; reflexivity).
        apply (nth_ext _ _ vzero vzero); [rewrite map_length, seq_length; auto|]. intros i Hi.
        rewrite (map_nth_lt _ _ _ 0%nat) by (rewrite seq_length; lia). rewrite seq_nth by lia. simpl. rewrite Hys. reflexivity.
      * change tk with (px_tr (PX yk xk xk tk)). rewrite <- Ek. apply (trace_states st px_tr px_x); [rewrite S0; auto|].
        intros j Hj. destruct (HR j Hj) as [p [_ [_ [_ [H3 _]]]]]. exact H3.
    + unfold xs. rewrite S0. reflexivity.
    + intro i. unfold ys. rewrite S0. reflexivity.
    + intros j Hj. apply Hq; auto.
    + apply (stops_when_intro _ bs); auto. intros j Hj. destruct (HR j Hj) as [p [_ [_ [_ [_ H4]]]]].
      replace (S j - 1)%nat with j by lia. exact H4.
Qed.

Lemma ppxa_offset m (f : nat -> efun E) w tau eta xs ys ps n : RS m w = 1 -> ppxa_doc m f w tau eta xs ys ps n ->
  forall k, (k <= n)%nat -> VS m (fun i => w i [*] ys k i) [-] xs k = VS m (fun i => w i [*] ys 0%nat i) [-] xs 0%nat.
Proof.
  intros Hw Hd. induction k as [|k IH]; intro Hk; [reflexivity|]. rewrite <- IH by lia. destruct (Hd k Hk) as [H1 H2].
  rewrite H2. set (pn := VS m (fun i => w i [*] ps k i)) in *.
  rewrite (VS_ext m _ (fun i => w i [*] ys k i [+] (w i [*] (eta [*] (2 [*] pn [-] xs k)) [-] eta [*] (w i [*] ps k i)))).
  - rewrite VS_add, VS_sub, VS_scal, VS_wconst, Hw. fold pn. vring.
  - intros i Hi. destruct (H1 i Hi) as [_ ->]. vring.
Qed.

(** Fejer step: xs = weighted mean of the y_i. *)
Lemma ppxa_fejer m f w tau eta x (y p y' : nat -> E) xo (v : nat -> E) :
  (forall i, (i < m)%nat -> convex (f i)) -> (forall i, (i < m)%nat -> 0 < w i) -> RS m w = 1 -> 0 < tau -> 0 < eta ->
  x = VS m (fun i => w i [*] y i) ->
  (forall i, (i < m)%nat -> is_prox (f i) (tau / w i) (y i) (p i)) ->
  (forall i, (i < m)%nat -> is_subgrad (f i) xo (v i)) -> VS m v = vzero ->
  let pn := VS m (fun i => w i [*] p i) in let r := fun i => 2 [*] pn [-] x [-] p i in let yo := fun i => xo [+] (tau / w i) [*] v i in
  RS m (fun i => w i * norm2 (y i [+] eta [*] r i [-] yo i)) + eta * (2 - eta) * RS m (fun i => w i * norm2 (r i)) <= RS m (fun i => w i * norm2 (y i [-] yo i)).
Proof.
  intros Hc Hw Hs Ht He Hx Hp Hv Hv0 pn r yo.
  set (a := x [-] xo). set (eb := pn [-] xo). set (b := 2 [*] eb [-] a).
  set (L := fun i => << (y i [-] yo i) [-] 2 [*] (p i [-] xo), b >> + norm2 b).
  assert (Hpt : forall i, (i < m)%nat -> w i * norm2 (y i [+] eta [*] r i [-] yo i) + eta * (2 - eta) * (w i * norm2 (r i)) <= w i * norm2 (y i [-] yo i) + 2 * eta * (w i * L i)).
  { intros i Hi. specialize (Hw i Hi). assert (Hti : 0 < tau / w i) by (apply Rdiv_lt_0_compat; auto).
    pose proof (prox_subgrad (f i) (tau / w i) (y i) (p i) (Hc i Hi) Hti (Hp i Hi)) as Hg.
    pose proof (subgrad_mono (f i) _ _ _ _ Hg (Hv i Hi)) as Hm.
    assert (Hm' : 0 <= << (y i [-] yo i) [-] (p i [-] xo), p i [-] xo >>).
    { replace (<< (y i [-] yo i) [-] (p i [-] xo), p i [-] xo >>) with (tau / w i * << / (tau / w i) [*] (y i [-] p i) [-] v i, p i [-] xo >>).
      - apply Rmult_le_pos; lra.
      - unfold yo. inner_lin_all. field. lra. }
    assert (Hr : r i = b [-] (p i [-] xo)) by (unfold r, b, eb, a; vring).
    assert (Hid : norm2 (y i [-] yo i) + 2 * eta * L i - (norm2 (y i [+] eta [*] r i [-] yo i) + eta * (2 - eta) * norm2 (r i)) =
       2 * eta * << (y i [-] yo i) [-] (p i [-] xo), p i [-] xo >>).
    { unfold L. rewrite Hr. generalize (yo i); intro yoi. iring. }
    assert (0 <= w i * (2 * eta * << (y i [-] yo i) [-] (p i [-] xo), p i [-] xo >>)).
    { apply Rmult_le_pos; [lra|]. apply Rmult_le_pos; [lra|]. exact Hm'. }
    rewrite <- Hid in H. lra. }
  assert (HL : RS m (fun i => w i * L i) = 0).
  { unfold L. rewrite (RS_ext m _ (fun i => << w i [*] y i [-] w i [*] xo [-] tau [*] v i [-] 2 [*] (w i [*] p i [-] w i [*] xo), b >> + w i * norm2 b)).
    - rewrite RS_add, RS_scal_r, Hs, <- inner_VS_l, VS_sub, VS_sub, VS_sub, VS_scal, VS_scal, VS_sub, VS_wconst, Hs, Hv0, <- Hx. fold pn.
      unfold b, eb, a. iring.
    - intros i Hi. specialize (Hw i Hi). unfold yo. rewrite Rmult_plus_distr_l. f_equal. inner_lin_all. field. lra. }
  pose proof (RS_le m _ _ Hpt) as H. rewrite !RS_add, !RS_scal, HL in H. lra.
Qed.
End PX.

Lemma sum_kkt_min {E : IPS} m (f : nat -> efun E) x v : sum_kkt m f x v -> is_min (esum m f) x.
Proof. intros [H1 H2]. apply subgrad_zero_min. rewrite <- H2. apply esum_subgrad; auto. Qed.

Lemma jensen {E : IPS} m (w : nat -> R) (h : nat -> E) : (forall i, (i < m)%nat -> 0 <= w i) -> RS m w = 1 ->
  norm2 (VS m (fun i => w i [*] h i)) <= RS m (fun i => w i * norm2 (h i)).
Proof.
  intros Hw Hs. set (hb := VS m (fun i => w i [*] h i)).
  assert (H : 0 <= RS m (fun i => w i * norm2 (h i [-] hb))).
  { apply RS_nonneg. intros i Hi. apply Rmult_le_pos; [auto|apply norm2_nonneg]. }
  rewrite (RS_ext m _ (fun i => w i * norm2 (h i) - 2 * << w i [*] h i, hb >> + w i * norm2 hb)) in H.
  - rewrite RS_add, RS_sub, RS_scal, RS_scal_r, Hs, <- inner_VS_l in H. fold hb in H. unfold norm2 in *. lra.
  - intros i _. rewrite inner_scal_l, norm2_sub. ring.
Qed.

Lemma ppxa_weights_ok weights m : (0 < m)%nat ->
  (match weights with None => c <- pydiv 1 (INR m) ;; Ok (repeat c m) | Some w => Ok w end) = Ok (ppxa_weights weights m).
Proof. intro H. destruct weights; [reflexivity|]. assert (0 < INR m) by (apply lt_0_INR; auto). rewrite pydiv_ok by lra. reflexivity. Qed.

Lemma nthr_repeat c m i : (i < m)%nat -> nthr (repeat c m) i = c.
Proof. intro H. unfold nthr. revert i H. induction m as [|m IH]; intros i H; [lia|]. destruct i; simpl; auto. apply IH; lia. Qed.
Lemma nthv_repeat {E : IPS} (c : E) m i : (i < m)%nat -> nthv (repeat c m) i = c.
Proof. intro H. unfold nthv. revert i H. induction m as [|m IH]; intros i H; [lia|]. destruct i; simpl; auto. apply IH; lia. Qed.

Lemma weights_facts weights m : (0 < m)%nat -> good_weights weights m ->
  let w := ppxa_weights weights m in List.length w = m /\ (forall i, (i < m)%nat -> 0 < nthr w i) /\ RS m (nthr w) = 1.
Proof.
  intros Hm Hg. assert (0 < INR m) by (apply lt_0_INR; auto). destruct weights as [w|]; simpl in *.
  - destruct Hg as [H1 [H2 H3]]. split; auto. split; auto. rewrite Rsum_RS, H1 in H3. auto.
  - split; [apply repeat_length|]. split.
    + intros i Hi. rewrite nthr_repeat by auto. apply Rdiv_lt_0_compat; lra.
    + rewrite (RS_ext m _ (fun _ => 1 / INR m)) by (intros; apply nthr_repeat; auto). rewrite RS_const. field. lra.
Qed.


Lemma vmean_common {E : IPS} (x : E) m : (0 < m)%nat -> vmean (repeat x m) = x.
Proof.
  intro Hm. assert (0 < INR m) by (apply lt_0_INR; auto). rewrite vmean_VS, repeat_length.
  rewrite (VS_ext m _ (fun _ => x)) by (intros; apply nthv_repeat; auto). rewrite VS_const. vfield. lra.
Qed.

(*! C53_ppxa : m >= 1 convex functions, admissible weights (given or default), a common initial vector or, with the default
   weights, one per function; tau > 0, 0 < eta < 2, tol given.  The run never raises, follows the documented recursion, stops at
   the first iteration where the largest change is below tol (else at niter); an iteration that leaves every y_i unchanged is at a
   minimiser of the sum; for every solution xo with multipliers v_i, D_k = sum_i w_i |y_i - xo - (tau/w_i) v_i|^2 bounds |x_k - xo|^2,
   and decreases by eta(2-eta) sum_i w_i |2p - x - p_i|^2 >= (2-eta)/eta |x_(k+1) - x_k|^2 *)
Lemma C53_ppxa_l : forall (E : IPS) (os : list (Op E)) (f : nat -> efun E) x0 tau eta weights niter amax t,
  let m := List.length os in let w := nthr (ppxa_weights weights m) in
  impl_all os f -> (forall i, (i < m)%nat -> convex (f i)) -> (0 < m)%nat -> 0 < tau -> 0 < eta < 2 ->
  good_weights weights m -> ppxa_start_ok x0 weights m ->
  exists xs ys ps k, PPXA os x0 tau eta weights niter amax (Some t) = Ok (xs k, map xs (seq 1 k)) /\
    (forall i, (i < m)%nat -> ys 0%nat i = nthv (ppxa_ys0 x0 m) i) /\ xs 0%nat = VS m (fun i => w i [*] ys 0%nat i) /\
    ppxa_doc m f w tau eta xs ys ps k /\ stops_when (fun j => amax (xs j [-] xs (j - 1)%nat) < t) niter k /\
    (forall j, (j < k)%nat -> (forall i, (i < m)%nat -> ys (S j) i = ys j i) -> is_min (esum m f) (xs j)) /\
    forall xo v, sum_kkt m f xo v -> let D := fun j => RS m (fun i => w i * norm2 (ys j i [-] (xo [+] (tau / w i) [*] v i))) in
      (forall j, (j <= k)%nat -> norm2 (xs j [-] xo) <= D j) /\
      (forall j, (j < k)%nat -> D (S j) + (2 - eta) / eta * norm2 (xs (S j) [-] xs j) <= D j).
Proof.
  intros E os f x0 tau eta weights niter amax t m w Hf Hc Hm Ht He Hg Hx0.
  destruct (weights_facts weights m Hm Hg) as [Lw [Pw Sw]].
  assert (Ly : List.length (ppxa_ys0 x0 m) = m) by (destruct x0; simpl; [apply repeat_length|apply Hx0]).
  destruct (ppxa_run os f (ppxa_weights weights m) tau eta amax t (ppxa_ys0 x0 m) niter Hf Hm Lw Ly Ht Pw) as [xs [ys [ps [k [E1 [X0 [Y0 [Hd Hst]]]]]]]].
  fold m in E1, Hd; fold w in Hd, Pw, Sw.
  assert (HX0 : xs 0%nat = VS m (fun i => w i [*] ys 0%nat i)).
  { rewrite X0. rewrite (VS_ext m _ (fun i => w i [*] nthv (ppxa_ys0 x0 m) i)) by (intros; rewrite Y0; auto). destruct x0 as [x|l].
    - unfold ppxa_ys0. rewrite vmean_common by auto. rewrite (VS_ext m _ (fun i => w i [*] x)) by (intros; rewrite nthv_repeat; auto).
      rewrite VS_wconst. rewrite Sw. vring.
    - destruct Hx0 as [_ ->]. simpl in *. rewrite vmean_VS, Ly.
      rewrite (VS_ext m (fun i => w i [*] nthv l i) (fun i => 1 / INR m [*] nthv l i)) by (intros; unfold w, ppxa_weights; rewrite nthr_repeat; auto). rewrite VS_scal. f_equal. field.
      assert (0 < INR m) by (apply lt_0_INR; auto). lra. }
  assert (Hmean : forall j, (j <= k)%nat -> xs j = VS m (fun i => w i [*] ys j i)).
  { intros j Hj. symmetry. apply vsub_eq. rewrite (ppxa_offset m f w tau eta xs ys ps k Sw Hd j Hj), HX0. vring. }
  exists xs, ys, ps, k. split.
  { unfold PPXA. fold m. rewrite ppxa_weights_ok by auto. cbn [bind].
    change (match x0 with Common x => repeat x m | PerFun l => l end) with (ppxa_ys0 x0 m). rewrite Lw, Ly, Nat.eqb_refl. cbn [negb andb].
    rewrite E1. reflexivity. }
  split; [auto|]. split; [exact HX0|]. split; [exact Hd|]. split; [exact Hst|]. split.
  - intros j Hj Hfix. destruct (Hd j Hj) as [H1 H2]. set (pn := VS m (fun i => w i [*] ps j i)) in *.
    assert (Hpi : forall i, (i < m)%nat -> ps j i = 2 [*] pn [-] xs j).
    { intros i Hi. destruct (H1 i Hi) as [_ Hy]. rewrite Hfix in Hy by auto. apply (f_equal (fun z => / eta [*] (z [-] ys j i))) in Hy.
      replace (/ eta [*] (ys j i [-] ys j i)) with (vzero : E) in Hy by vring. symmetry. apply vsub_eq. rewrite Hy. vfield. lra. }
    assert (Hpn : pn = xs j).
    { assert (pn = 2 [*] pn [-] xs j). { unfold pn at 1. rewrite (VS_ext m _ (fun i => w i [*] (2 [*] pn [-] xs j))) by (intros; rewrite Hpi; auto). rewrite VS_wconst. rewrite Sw. vring. }
      apply (f_equal (fun z => 2 [*] pn [-] z)) in H. replace (2 [*] pn [-] (2 [*] pn [-] xs j)) with (xs j) in H by vring. rewrite <- H. vring. }
    apply subgrad_zero_min. replace (vzero : E) with (VS m (fun i => / (tau / w i) [*] (ys j i [-] xs j))).
    + apply esum_subgrad. intros i Hi. destruct (H1 i Hi) as [Hp _]. specialize (Pw i Hi). fold w in Pw.
      apply prox_subgrad in Hp; [|auto|apply Rdiv_lt_0_compat; auto]. rewrite Hpi, Hpn in Hp by auto.
      replace (2 [*] xs j [-] xs j) with (xs j) in Hp by vring. exact Hp.
    + rewrite (VS_ext m _ (fun i => / tau [*] (w i [*] ys j i [-] w i [*] xs j))).
      * rewrite VS_scal, VS_sub, VS_wconst, <- Hmean by lia. rewrite Sw. vring.
      * intros i Hi. specialize (Pw i Hi). fold w in Pw. vfield. lra.
  - intros xo v [Hv1 Hv2] D. split.
    + intros j Hj. assert (Hxj : xs j [-] xo = VS m (fun i => w i [*] (ys j i [-] (xo [+] (tau / w i) [*] v i)))).
      { rewrite (VS_ext m _ (fun i => w i [*] ys j i [-] w i [*] xo [-] tau [*] v i)).
        - rewrite !VS_sub, VS_scal, VS_wconst, Hv2, <- Hmean by auto. rewrite Sw. vring.
        - intros i Hi. specialize (Pw i Hi). fold w in Pw. vfield. lra. }
      rewrite Hxj. apply jensen; auto. intros i Hi. left. apply Pw; auto.
    + intros j Hj. destruct (Hd j Hj) as [H1 H2].
      pose proof (ppxa_fejer m f w tau eta (xs j) (ys j) (ps j) (ys (S j)) xo v Hc Pw Sw Ht ltac:(lra) (Hmean j ltac:(lia))
        (fun i Hi => proj1 (H1 i Hi)) Hv1 Hv2) as Hfe. cbv zeta in Hfe. set (pn := VS m (fun i => w i [*] ps j i)) in *.
      assert (Hres : norm2 (pn [-] xs j) <= RS m (fun i => w i * norm2 (2 [*] pn [-] xs j [-] ps j i))).
      { assert (He2 : pn [-] xs j = VS m (fun i => w i [*] (2 [*] pn [-] xs j [-] ps j i))).
        { rewrite (VS_ext m _ (fun i => w i [*] (2 [*] pn [-] xs j) [-] w i [*] ps j i)) by (intros; vring).
          rewrite VS_sub, VS_wconst. rewrite Sw. fold pn. vring. }
        rewrite He2 at 1. apply jensen; auto. intros i Hi. left. apply Pw; auto. }
      assert (HD : D (S j) = RS m (fun i => w i * norm2 (ys j i [+] eta [*] (2 [*] pn [-] xs j [-] ps j i) [-] (xo [+] (tau / w i) [*] v i)))).
      { unfold D. apply RS_ext. intros i Hi. destruct (H1 i Hi) as [_ ->]. reflexivity. }
      rewrite HD, H2. replace (xs j [+] eta [*] (pn [-] xs j) [-] xs j) with (eta [*] (pn [-] xs j)) by vring. rewrite norm2_scal.
      replace ((2 - eta) / eta * (eta * eta * norm2 (pn [-] xs j))) with (eta * (2 - eta) * norm2 (pn [-] xs j)) by (field; lra).
      assert (0 <= eta * (2 - eta)) by nra.
      pose proof (Rmult_le_compat_l _ _ _ H Hres). unfold D. lra.
Qed.

(*! C53_per_function_weights_refuted : with one initial vector per function and non-uniform admissible weights PPXA starts from the
   unweighted mean and converges to a wrong point: f1 = (x-1)^2/2, f2 = x^2/2, w = (1/4, 3/4), tau = eta = 1, x0 = (-1/4, 7/4):
   for every niter >= 1 it returns 3/4 while the only minimiser is 1/2 *)
Lemma C53_per_function_weights_refuted_l : forall n amax t,
  let fs := fun i => match i with O => etot (E:=R_IPS) (fun x : R_IPS => 1 / 2 * ((x - 1) * (x - 1))) | _ => etot (E:=R_IPS) (fun x : R_IPS => 1 / 2 * (x * x)) end in
  impl_all [shifted1; quad1 1] fs /\
  (exists tr, PPXA [shifted1; quad1 1] (PerFun [-(1/4) : R_IPS; 7/4]) 1 1 (Some [1/4; 3/4]) (S n) amax (Some t) = Ok (3/4, tr)) /\
  (forall x, is_min (esum 2 fs) x <-> x = 1/2).
Proof.
  intros n amax t fs. split; [|split].
  - intros i o H. destruct i as [|[|i]]; simpl in H; [injection H as <-|injection H as <-|destruct i; discriminate].
    + apply shifted1_prox.
    + apply quad1_prox. lra.
  - unfold PPXA. cbn [List.length Nat.eqb andb negb bind].
    assert (Hb : forall i tr, exists b, ppxa_body (E:=R_IPS) [shifted1; quad1 1] [1/4; 3/4] 1 1 amax (Some t) i (PX [-(1/4) : R_IPS; 7/4] (3/4 : R_IPS) (3/4 : R_IPS) tr) =
       Ok (PX [-(1/4) : R_IPS; 7/4] (3/4 : R_IPS) (3/4 : R_IPS) (tr ++ [3/4]), b)).
    { intros i tr. unfold ppxa_body. cbn [mapM]. rewrite !pydiv_ok by lra. cbn -[Rdiv Rmult Rplus Ropp].
      match goal with |- context [amax ?e] => generalize (Rltb (amax e) t) end. intro b. exists b. f_equal. f_equal.
      assert (H1 : 1 / 4 * ((- (1 / 4) + 1 / (1 / 4)) / (1 + 1 / (1 / 4))) + (3 / 4 * (7 / 4 / (1 + 1 / (3 / 4) * 1)) + 0) = 3/4) by field.
      f_equal; try (rewrite ?H1; field). f_equal; [rewrite ?H1; field|]. f_equal. rewrite ?H1; field. f_equal. f_equal. rewrite H1. field. }
    assert (Hx : vmean (E:=R_IPS) [-(1/4) : R_IPS; 7/4] = 3/4) by (unfold vmean; cbn -[Rdiv Rmult Rplus Ropp Rinv]; field).
    rewrite Hx.
    assert (G : forall m i tr, exists tr' j, for_loop (ppxa_body (E:=R_IPS) [shifted1; quad1 1] [1/4; 3/4] 1 1 amax (Some t)) m i (PX [-(1/4) : R_IPS; 7/4] (3/4 : R_IPS) (3/4 : R_IPS) tr) =
       Ok (PX [-(1/4) : R_IPS; 7/4] (3/4 : R_IPS) (3/4 : R_IPS) tr', j)).
    { induction m as [|m IH]; intros i tr; [exists tr, i; reflexivity|]. cbn [for_loop]. destruct (Hb i tr) as [b ->]. cbn [bind snd fst].
      destruct b; [eauto|apply IH]. }
    destruct (G (S n) 0%nat []) as [tr [j Hr]]. exists tr. rewrite Hr. reflexivity.
  - intro x. split.
    + intros [_ H]. specialize (H (1/2) ltac:(intros [|[|i]]; simpl; auto)). cbn in H. assert (Hs : (x - 1/2) * (x - 1/2) <= 0) by nra.
      assert (x - 1/2 = 0); [|lra]. apply Rsqr_0_uniq. unfold Rsqr. pose proof (Rle_0_sqr (x - 1/2)). unfold Rsqr in *. lra.
    + intros ->. split; [intros [|[|i]]; simpl; auto|]. intros y _. cbn. pose proof (Rle_0_sqr (y - 1/2)). unfold Rsqr in *. nra.
Qed.
