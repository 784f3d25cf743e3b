(** * PPXA (continued) and ConsensusADMM *)
From Coq Require Import Psatz String.
From Verif Require Import Base Space Spec VSum ConvexFacts Smooth M_ProxOp SpecOps P_ProxOp M_Norms P_Norms M_Loop LoopFacts LoopFacts2 SeqFacts M_PG M_Multi SplitMath P_PG2 P_PG3 P_Split2 P_Split3 P_Multi.
From Verif Require Export S_Multi2.
Open Scope result_scope.
Open Scope R_scope.

Lemma sh_quad_impl c : 0 < c -> impl_all [shifted1; quad1 c] (sh_quad c).
Proof.
  intros Hc i o H. destruct i as [|[|i]]; simpl in H; [injection H as <-|injection H as <-|destruct i; discriminate].
  - apply shifted1_prox.
  - apply quad1_prox. lra.
Qed.
Lemma sh_quad_convex c : 0 < c -> forall i, (i < 2)%nat -> convex (sh_quad c i).
Proof.
  intros Hc i Hi. destruct i as [|i].
  - intros x y a _ _ Ha. split; [exact I|]. cbn.
    assert (0 <= a * (1 - a) * ((x - y) * (x - y))). { apply Rmult_le_pos; [apply Rmult_le_pos; lra|apply Rle_0_sqr]. } nra.
  - apply (quad1_smooth c); lra.
Qed.
Lemma sh_quad_kkt c : 0 < c -> sum_kkt 2 (sh_quad c) (/ (1 + c) : R_IPS) (fun i => match i with O => - (c / (1 + c)) | _ => c / (1 + c) end).
Proof.
  intro Hc. split.
  - intros i Hi. destruct i as [|[|i]]; [| |lia]; (split; [exact I|]); intros y _; cbn; set (p := / (1 + c)); pose proof (Rle_0_sqr (y - p)); unfold Rsqr in *.
    + replace (c / (1 + c)) with (1 - p) by (unfold p; field; lra). nra.
    + replace (c / (1 + c)) with (c * p) by (unfold p, Rdiv; ring). assert (0 <= c * ((y - p) * (y - p))) by (apply Rmult_le_pos; lra). nra.
  - cbn. ring.
Qed.
Lemma sh_quad_min c : 0 < c -> forall x, is_min (esum 2 (sh_quad c)) x <-> x = / (1 + c).
Proof.
  intros Hc x. split.
  - intros [_ H]. specialize (H (/ (1 + c)) ltac:(intros [|[|i]]; simpl; auto)). cbn in H. set (p := / (1 + c)) in *.
    assert (Hp : (1 + c) * p = 1) by (unfold p; field; lra).
    assert (Hs : (1 + c) * ((x - p) * (x - p)) <= 0). { replace ((1 + c) * ((x - p) * (x - p))) with ((1 + c) * (x * x) - 2 * ((1 + c) * p) * x + ((1 + c) * p) * p) by ring. rewrite Hp.
      assert (c * p = 1 - p) by lra. assert (c * (p * p) = (1 - p) * p) by (rewrite <- H0; ring). lra. }
    assert (x - p = 0); [|lra]. apply Rsqr_0_uniq. unfold Rsqr. pose proof (Rle_0_sqr (x - p)). unfold Rsqr in *. nra.
  - intros ->. apply (sum_kkt_min _ _ _ _ (sh_quad_kkt c Hc)).
Qed.

(*! C53_early_stop_refuted : stopping by tol does not certify a minimiser: f1 = (x-1)^2/2, f2 = 3x^2/2, common start 2/5, tau = 1/2,
   eta = 1, default weights: for every tol > 0 and niter >= 1 PPXA stops after one iteration and returns 2/5; the only minimiser is 1/4 *)
Lemma C53_early_stop_refuted_l : forall n amax t, amax (0 : R_IPS) = 0 -> 0 < t ->
  impl_all [shifted1; quad1 3] (sh_quad 3) /\
  PPXA [shifted1; quad1 3] (Common (2/5 : R_IPS)) (1/2) 1 None (S n) amax (Some t) = Ok (2/5, [2/5]) /\
  (forall x, is_min (esum 2 (sh_quad 3)) x <-> x = 1/4).
Proof.
  intros n amax t Ha Ht. split; [apply sh_quad_impl; lra|]. split.
  - unfold PPXA. rewrite pydiv_ok by (simpl; lra). cbn [List.length Nat.eqb andb negb repeat bind]. pose proof (vmean_common (E:=R_IPS) (2/5) 2 ltac:(lia)) as Hv. cbn [repeat] in Hv. rewrite Hv. cbn [for_loop].
    unfold ppxa_body at 1. cbn [mapM]. replace (1 / INR 2) with (1/2) by (simpl; field). rewrite !pydiv_ok by lra. cbn -[Rdiv Rmult Rplus Ropp INR].
    match goal with |- context [amax ?e] => replace e with (0 : R_IPS) end.
    + rewrite Ha. destruct (Rltb_spec 0 t) as [[_ ->]|[H _]]; [|lra]. cbn -[Rdiv Rmult Rplus Ropp]. f_equal. f_equal; [field|]. f_equal. field.
    + cbn. field.
  - intro x. replace (1/4) with (/ (1 + 3)) by field. apply sh_quad_min. lra.
Qed.

(*! C53_no_tol_raises : with tol left at None every run with at least one iteration and working proxes raises TypeError *)
Lemma C53_no_tol_raises_l : forall (E : IPS) (os : list (Op E)) f x0 tau eta weights n amax, let m := List.length os in
  impl_all os f -> (0 < m)%nat -> 0 < tau -> good_weights weights m ->
  (match x0 with Common _ => True | PerFun l => List.length l = m end) ->
  PPXA os x0 tau eta weights (S n) amax None = Err TypeError.
Proof.
  intros E os f x0 tau eta weights n amax m Hf Hm Ht Hg Hx0. destruct (weights_facts weights m Hm Hg) as [Lw [Pw Sw]].
  assert (Ly : List.length (ppxa_ys0 x0 m) = m) by (destruct x0; simpl; [apply repeat_length|apply Hx0]).
  unfold PPXA. fold m. rewrite ppxa_weights_ok by auto. cbn [bind].
  change (match x0 with Common x => repeat x m | PerFun l => l end) with (ppxa_ys0 x0 m). rewrite Lw, Ly, Nat.eqb_refl. cbn [negb andb for_loop].
  unfold ppxa_body at 1. rewrite mapM_pydiv by (rewrite Lw; auto). cbn [bind px_y].
  destruct (stack_all_ok os f (ppxa_ys0 x0 m) (map (fun a => tau / a) (ppxa_weights weights m)) Hf) as [p [-> _]]; auto.
  - rewrite map_length; auto.
  - intros i Hi. unfold nthr. rewrite (map_nth_lt _ _ _ 0) by (rewrite Lw; auto). apply Rdiv_lt_0_compat; auto. apply Pw; auto.
Qed.

(*!ex C53_example : two quadratics with weights (1/4, 3/4) meet the hypotheses of C53_ppxa, with solution 1/2 *)
Lemma C53_example_l : let m := List.length [shifted1; quad1 1] in
  impl_all [shifted1; quad1 1] (sh_quad 1) /\ (forall i, (i < m)%nat -> convex (sh_quad 1 i)) /\ (0 < m)%nat /\
  good_weights (Some [1/4; 3/4]) m /\ ppxa_start_ok (Common (7 : R_IPS)) (Some [1/4; 3/4]) m /\
  sum_kkt m (sh_quad 1) (1/2 : R_IPS) (fun i => match i with O => -(1/2) | _ => 1/2 end).
Proof.
  intro m. split; [apply sh_quad_impl; lra|]. split; [apply sh_quad_convex; lra|]. split; [unfold m; simpl; lia|]. split; [|split; [exact I|]].
  - split; [reflexivity|]. split; [|simpl; field]. intros i Hi. destruct i as [|[|i]]; cbn; try lra. unfold m in Hi. simpl in Hi. lia.
  - replace (1/2) with (1 / (1 + 1)) by field. replace (1 / (1 + 1) : R) with (/ (1 + 1)) at 1 by field. apply (sh_quad_kkt 1). lra.
Qed.

(** ** ConsensusADMM *)
Section CA.
Context {E : IPS}.

Lemma consensus_run (os : list (Op E)) f tau amax t x0 n :
  let m := List.length os in impl_all os f -> (0 < m)%nat -> 0 < tau ->
  exists xs ys us k, for_loop (cadmm_body os tau amax (Some t)) n 0 (CA x0 x0 (repeat vzero m) []) =
      Ok (CA (xs k) (xs k) (map (ys k) (seq 0 m)) (map xs (seq 1 k)), k) /\
    xs 0%nat = x0 /\ (forall i, (i < m)%nat -> ys 0%nat i = vzero) /\ consensus_doc m f tau xs ys us k /\
    stops_when (fun j => amax (xs j [-] xs (j - 1)%nat) < t) n k.
Proof.
  intros m Hf Hm Ht.
  set (Rl := fun (j : nat) (s s' : cadmm_state E) (b : bool) => exists p : list E, List.length p = m /\
    (forall i, (i < m)%nat -> is_prox (f i) tau (ca_xbar s [-] nthv (ca_y s) i) (nthv p i)) /\
    ca_xbar s' = / INR m [*] VS m (nthv p) /\
    (forall i, (i < m)%nat -> nthv (ca_y s') i = nthv (ca_y s) i [+] nthv p i [-] ca_xbar s') /\
    ca_tr s' = ca_tr s ++ [ca_xbar s'] /\ (b = true <-> amax (ca_xbar s' [-] ca_xbar s) < t)).
  destruct (loop_states_brk (cadmm_body os tau amax (Some t)) (fun _ s => List.length (ca_y s) = m /\ ca_old s = ca_xbar s) Rl n (CA x0 x0 (repeat vzero m) []))
    as [st [bs [k [E1 [S0 [Hk [_ [HP [HR [Hb Hl]]]]]]]]]].
  - split; auto. apply repeat_length.
  - intros j s _ [Hly Hold]. unfold cadmm_body.
    destruct (stack_all_ok os f (map (fun yi => ca_xbar s [-] yi) (ca_y s)) (repeat tau (List.length os)) Hf Hm) as [p [-> [Hlp Hp]]].
    { rewrite map_length; auto. }
    { apply repeat_length. }
    { intros i Hi. rewrite nthr_repeat; auto. }
    cbn [bind abs_stop]. eexists. eexists. split; [reflexivity|]. fold m in Hlp. split.
    + exists p. split; auto. cbn [ca_y ca_xbar ca_tr]. rewrite vmean_VS, Hlp. split; [|split; [reflexivity|split; [|split; [reflexivity|]]]].
      * intros i Hi. specialize (Hp i Hi). rewrite nthr_repeat in Hp by auto. unfold nthv at 1 in Hp. rewrite (map_nth_lt _ _ _ vzero) in Hp by lia. exact Hp.
      * intros i Hi. unfold nthv at 1. rewrite (nth_map2 _ _ _ _ vzero vzero) by lia. reflexivity.
      * rewrite Hold. apply Rltb_true.
    + cbn [ca_y ca_old ca_xbar]. split; [|reflexivity]. rewrite map2_length by lia. exact Hly.
  - set (xs := fun j => ca_xbar (st j)). set (ys := fun j i => nthv (ca_y (st j)) i).
    assert (Hps : forall q, exists us : nat -> nat -> E, forall j, (j < k)%nat -> (j < q)%nat -> 
      (forall i, (i < m)%nat -> is_prox (f i) tau (xs j [-] ys j i) (us j i)) /\ xs (S j) = / INR m [*] VS m (us j) /\
      (forall i, (i < m)%nat -> ys (S j) i = ys j i [+] us j i [-] xs (S j))).
    { induction q as [|q [us IH]]; [exists (fun _ _ => vzero); intros; lia|].
      destruct (Nat.ltb_spec q k) as [Hq|Hq].
      - destruct (HR q Hq) as [p [_ [H1 [H2 [H3 _]]]]]. exists (upd us q (nthv p)). intros j Hj Hjq. destruct (Nat.eq_dec j q) as [->|Hne].
        + rewrite upd_eq. split; [exact H1|split; [exact H2|exact H3]].
        + rewrite upd_ne by auto. apply IH; auto; lia.
      - exists us. intros j Hj _. apply IH; lia. }
    destruct (Hps k) as [us Hq]. exists xs, ys, us, k. split; [|split; [|split; [|split]]].
    + rewrite E1. do 2 f_equal. pose proof (HP k ltac:(lia)) as [Hlk Hok]. destruct (st k) as [xk ok yk tk] eqn:Ek. cbn [ca_y ca_old ca_xbar] in *. subst ok.
      assert (Hx : xs k = xk) by (unfold xs; rewrite Ek; reflexivity). rewrite Hx. f_equal.
      * assert (Hys : forall i, ys k i = nthv yk i) by (intro; unfold ys; rewrite Ek; reflexivity).
        apply (nth_ext _ _ vzero vzero); [rewrite map_length, seq_length; auto|]. intros i Hi.
        rewrite (map_nth_lt _ _ _ 0%nat) by (rewrite seq_length; lia). rewrite seq_nth by lia. simpl. rewrite Hys. reflexivity.
      * change tk with (ca_tr (CA xk xk yk tk)). rewrite <- Ek. apply (trace_states st ca_tr ca_xbar); [rewrite S0; auto|].
        intros j Hj. destruct (HR j Hj) as [p [_ [_ [_ [_ [H3 _]]]]]]. exact H3.
    + unfold xs. rewrite S0. reflexivity.
    + intros i Hi. unfold ys. rewrite S0. cbn [ca_y]. apply nthv_repeat; auto.
    + intros j Hj. apply Hq; auto.
    + apply (stops_when_intro _ bs); auto. intros j Hj. destruct (HR j Hj) as [p [_ [_ [_ [_ [_ H4]]]]]].
      replace (S j - 1)%nat with j by lia. exact H4.
Qed.

Lemma consensus_fejer m f tau x (y u y' : nat -> E) x' xo (v : nat -> E) : (forall i, (i < m)%nat -> convex (f i)) -> 0 < tau ->
  (forall i, (i < m)%nat -> is_prox (f i) tau (x [-] y i) (u i)) -> (forall i, (i < m)%nat -> y' i = y i [+] u i [-] x') ->
  VS m y = vzero -> VS m y' = vzero -> sum_kkt m f xo v ->
  INR m * norm2 (x' [-] xo) + RS m (fun i => norm2 (y' i [+] tau [*] v i)) + (INR m * norm2 (x' [-] x) + RS m (fun i => norm2 (y' i [-] y i))) <=
  INR m * norm2 (x [-] xo) + RS m (fun i => norm2 (y i [+] tau [*] v i)).
Proof.
  intros Hc Ht Hp Hy' Hy0 Hy'0 [Hv Hv0]. rewrite <- !RS_const.
  assert (Hpt : forall i, (i < m)%nat -> norm2 (x' [-] xo) + norm2 (y' i [+] tau [*] v i) + (norm2 (x' [-] x) + norm2 (y' i [-] y i)) <=
     norm2 (x [-] xo) + norm2 (y i [+] tau [*] v i) + 2 * << y' i [-] y i, x [-] x' >> - 2 * << y' i [+] tau [*] v i, x' [-] xo >>).
  { intros i Hi. pose proof (prox_subgrad (f i) tau _ _ (Hc i Hi) Ht (Hp i Hi)) as Hg.
    pose proof (subgrad_mono (f i) _ _ _ _ Hg (Hv i Hi)) as Hm. rewrite (Hy' i Hi).
    assert (Hm' : 0 <= tau * << / tau [*] (x [-] y i [-] u i) [-] v i, u i [-] xo >>) by (apply Rmult_le_pos; lra).
    replace (tau * << / tau [*] (x [-] y i [-] u i) [-] v i, u i [-] xo >>) with (<< x [-] y i [-] u i [-] tau [*] v i, u i [-] xo >>) in Hm' by (inner_lin_all; field; lra).
    match goal with |- ?L <= ?R => assert (HH : R - L = 2 * << x [-] y i [-] u i [-] tau [*] v i, u i [-] xo >>) by iring end. lra. }
  pose proof (RS_le m _ _ Hpt) as H. rewrite RS_add, RS_add, RS_add in H. rewrite RS_sub, RS_add, RS_add, !RS_scal, <- !inner_VS_l, VS_add, VS_sub, VS_scal, Hy0, Hy'0, Hv0 in H.
  replace ((vzero : E) [-] vzero) with (vzero : E) in H by vring. replace ((vzero : E) [+] tau [*] vzero) with (vzero : E) in H by vring.
  rewrite !inner_zero_l in H. lra.
Qed.
End CA.

(*! C54_consensus_admm : m >= 1 convex functions, any start and tau > 0, tol given.  The run never raises, follows the documented
   recursion, stops at the first iteration where the largest change of xbar is below tol (else at niter); the dual variables always
   sum to zero; an iteration leaving xbar and all duals unchanged has all local copies equal to xbar and xbar minimises the sum; for
   every solution with multipliers v_i, V_k = m |xbar_k - xo|^2 + sum_i |y_i + tau v_i|^2 decreases at every iteration by at least
   m |xbar' - xbar|^2 + sum_i |u_i - xbar'|^2 (u_i the local copies) *)
Lemma C54_consensus_admm_l : forall (E : IPS) (os : list (Op E)) (f : nat -> efun E) x0 tau niter amax t, let m := List.length os in
  impl_all os f -> (forall i, (i < m)%nat -> convex (f i)) -> (0 < m)%nat -> 0 < tau ->
  exists xs ys us k, ConsensusADMM os x0 tau niter amax (Some t) = Ok (xs k, map xs (seq 1 k)) /\
    xs 0%nat = x0 /\ (forall i, (i < m)%nat -> ys 0%nat i = vzero) /\
    consensus_doc m f tau xs ys us k /\ stops_when (fun j => amax (xs j [-] xs (j - 1)%nat) < t) niter k /\
    (forall j, (j <= k)%nat -> VS m (ys j) = vzero) /\
    (forall j, (j < k)%nat -> xs (S j) = xs j -> (forall i, (i < m)%nat -> ys (S j) i = ys j i) ->
       (forall i, (i < m)%nat -> us j i = xs j) /\ is_min (esum m f) (xs j)) /\
    forall xo v, sum_kkt m f xo v -> let V := fun j => INR m * norm2 (xs j [-] xo) + RS m (fun i => norm2 (ys j i [+] tau [*] v i)) in
      forall j, (j < k)%nat -> V (S j) + (INR m * norm2 (xs (S j) [-] xs j) + RS m (fun i => norm2 (us j i [-] xs (S j)))) <= V j.
Proof.
  intros E os f x0 tau niter amax t m Hf Hc Hm Ht.
  destruct (consensus_run os f tau amax t x0 niter Hf Hm Ht) as [xs [ys [us [k [E1 [X0 [Y0 [Hd Hst]]]]]]]]. fold m in E1, Y0, Hd.
  assert (HIm : 0 < INR m) by (apply lt_0_INR; auto).
  assert (HS : forall j, (j <= k)%nat -> VS m (ys j) = vzero).
  { induction j as [|j IH]; intro Hj.
    - rewrite (VS_ext m _ (fun _ => vzero)) by auto. apply VS_zero.
    - destruct (Hd j Hj) as [_ [H2 H3]]. rewrite (VS_ext m _ (fun i => ys j i [+] us j i [-] xs (S j))) by auto.
      rewrite VS_sub, VS_add, VS_const, IH by lia. rewrite H2. vfield. lra. }
  exists xs, ys, us, k. split; [unfold ConsensusADMM; fold m; rewrite E1; reflexivity|]. split; auto. split; auto. split; auto. split; auto. split; auto. split.
  - intros j Hj Hx Hy. destruct (Hd j Hj) as [H1 [H2 H3]].
    assert (Hu : forall i, (i < m)%nat -> us j i = xs j).
    { intros i Hi. specialize (H3 i Hi). rewrite (Hy i Hi), Hx in H3. apply (f_equal (fun z => z [-] ys j i [+] xs j)) in H3.
      replace (ys j i [-] ys j i [+] xs j) with (xs j) in H3 by vring. rewrite H3. vring. }
    split; [exact Hu|]. apply subgrad_zero_min. replace (vzero : E) with (VS m (fun i => / tau [*] (xs j [-] ys j i [-] us j i))).
    + apply esum_subgrad. intros i Hi. pose proof (prox_subgrad (f i) tau _ _ (Hc i Hi) Ht (H1 i Hi)) as Hg. rewrite (Hu i Hi) in *. exact Hg.
    + rewrite (VS_ext m _ (fun i => (- / tau) [*] ys j i)) by (intros i Hi; rewrite (Hu i Hi); vring). rewrite VS_scal, HS by lia. vring.
  - intros xo v Hk V j Hj. destruct (Hd j Hj) as [H1 [H2 H3]].
    pose proof (consensus_fejer m f tau (xs j) (ys j) (us j) (ys (S j)) (xs (S j)) xo v Hc Ht H1 H3 (HS j ltac:(lia)) (HS (S j) ltac:(lia)) Hk) as H.
    rewrite (RS_ext m (fun i => norm2 (us j i [-] xs (S j))) (fun i => norm2 (ys (S j) i [-] ys j i))); [exact H|].
    intros i Hi. rewrite (H3 i Hi). f_equal. vring.
Qed.

(*! C54_early_stop_refuted : stopping by tol does not certify near optimality: f1 = (x-1)^2/2, f2 = 3x^2/2, start 2/5, tau = 1: for
   every tol > 0 and niter >= 1 ConsensusADMM stops after one iteration and returns 2/5; the only minimiser is 1/4 *)
Lemma C54_early_stop_refuted_l : forall n amax t, amax (0 : R_IPS) = 0 -> 0 < t ->
  impl_all [shifted1; quad1 3] (sh_quad 3) /\
  ConsensusADMM [shifted1; quad1 3] (2/5 : R_IPS) 1 (S n) amax (Some t) = Ok (2/5, [2/5]) /\
  (forall x, is_min (esum 2 (sh_quad 3)) x <-> x = 1/4).
Proof.
  intros n amax t Ha Ht. split; [apply sh_quad_impl; lra|]. split.
  - unfold ConsensusADMM. cbn [for_loop]. unfold cadmm_body at 1. cbn -[Rdiv Rmult Rplus Ropp Rinv].
    match goal with |- context [amax ?e] => replace e with (0 : R_IPS) end.
    + rewrite Ha. destruct (Rltb_spec 0 t) as [[_ ->]|[H _]]; [|lra]. cbn -[Rdiv Rmult Rplus Ropp]. f_equal. f_equal; [cbn; field|]. f_equal. cbn; field.
    + cbn. field.
  - intro x. replace (1/4) with (/ (1 + 3)) by field. apply sh_quad_min. lra.
Qed.

(*! C54_no_tol_raises : with tol left at None every run with at least one function, one iteration and working proxes raises TypeError *)
Lemma C54_no_tol_raises_l : forall (E : IPS) (os : list (Op E)) f x0 tau n amax, impl_all os f -> (0 < List.length os)%nat -> 0 < tau ->
  ConsensusADMM os x0 tau (S n) amax None = Err TypeError.
Proof.
  intros E os f x0 tau n amax Hf Hm Ht. unfold ConsensusADMM. cbn [for_loop]. unfold cadmm_body at 1. cbn [ca_xbar ca_y].
  destruct (stack_all_ok os f (map (fun yi => x0 [-] yi) (repeat vzero (List.length os))) (repeat tau (List.length os)) Hf Hm) as [p [-> _]].
  - rewrite map_length, repeat_length; auto.
  - apply repeat_length.
  - intros i Hi. rewrite nthr_repeat; auto.
  - reflexivity.
Qed.

(*!ex C54_example : two quadratics on the real line meet the hypotheses of C54_consensus_admm *)
Lemma C54_example_l : let m := List.length [shifted1; quad1 3] in
  impl_all [shifted1; quad1 3] (sh_quad 3) /\ (forall i, (i < m)%nat -> convex (sh_quad 3 i)) /\ (0 < m)%nat /\
  sum_kkt m (sh_quad 3) (/ (1 + 3) : R_IPS) (fun i => match i with O => -(3/(1+3)) | _ => 3/(1+3) end).
Proof.
  intro m. split; [apply sh_quad_impl; lra|]. split; [apply sh_quad_convex; lra|]. split; [unfold m; simpl; lia|]. apply (sh_quad_kkt 3). lra.
Qed.
