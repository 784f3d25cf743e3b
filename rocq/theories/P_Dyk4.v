(** * Proofs about Sum with the parallel Dykstra-like algorithm (M_Dyk.v) *)
From Coq Require Import Psatz.
From Verif Require Import Base Space Spec SpecOps ConvexFacts VSum M_ProxOp M_Norms M_Loop LoopFacts LoopFacts2 SeqConv M_PG M_Multi M_Dyk P_PG3 P_Norms P_Split2 P_Multi P_Dyk P_Dyk3 P_Proj.
From Verif Require Export S_Dyk4.
Open Scope result_scope.
Open Scope R_scope.

(** ** Specification: the documented recursion (Sum.py:63-74) with weights w and steps t *)

Section Math.
Context {E : IPS} (m : nat) (f : nat -> efun E) (w t : nat -> R) (x0 : E) (xs : nat -> E) (zs ps : nat -> nat -> E).
Hypothesis Hf : forall i, (i < m)%nat -> convex (f i).
Hypothesis Hw : forall i, (i < m)%nat -> 0 < w i.
Hypothesis HW : RS m w = 1.
Hypothesis Ht : forall i, (i < m)%nat -> 0 < t i.
Hypothesis HD : par_seq m f w t x0 xs zs ps.

Lemma par_inv k : VS m (fun i => w i [*] zs k i) = x0.
Proof.
  destruct HD as [_ [H0 H]]. induction k as [|k IH].
  - rewrite (VS_ext m _ (fun i => w i [*] x0)) by (intros i Hi; rewrite H0 by auto; reflexivity). rewrite VS_wconst, HW. vring.
  - destruct (H k) as [Hk Hx]. rewrite (VS_ext m _ (fun i => (w i [*] zs k i [+] w i [*] xs (S k)) [-] w i [*] ps k i)).
    + rewrite VS_sub, VS_add, IH, VS_wconst, HW, <- Hx. vring.
    + intros i Hi. destruct (Hk i Hi) as [_ ->]. vring.
Qed.
Lemma par_split_prox c z u : (forall i, (i < m)%nat -> 0 <= c i) -> par_split m f c x0 z u -> is_prox (esum m (fun i => escal (c i) (f i))) 1 x0 z.
Proof.
  intros Hc [Hu Hs]. apply subgrad_prox; [lra|]. rewrite Rinv_1, vscal_1, Hs. apply esum_subgrad. intros i Hi. apply subgrad_scal; auto.
Qed.
Lemma par_agree k : (forall i, (i < m)%nat -> ps k i = xs (S k)) -> is_prox (esum m (fun i => escal (w i * t i) (f i))) 1 x0 (xs (S k)).
Proof.
  intro HA. apply par_split_prox with (fun i => / t i [*] (zs k i [-] xs (S k))).
  - intros i Hi. specialize (Hw i Hi). specialize (Ht i Hi). nra.
  - split.
    + intros i Hi. destruct HD as [_ [_ H]]. destruct (H k) as [Hk _]. destruct (Hk i Hi) as [Hp _]. rewrite (HA i Hi) in Hp. apply prox_subgrad; auto.
    + rewrite (VS_ext m _ (fun i => w i [*] zs k i [-] w i [*] xs (S k))) by (intros i Hi; specialize (Ht i Hi); vfield; lra).
      rewrite VS_sub, par_inv, VS_wconst, HW. vring.
Qed.
Lemma par_fejer z u k : par_split m f (fun i => w i * t i) x0 z u ->
  RS m (fun i => w i * norm2 (zs (S k) i [-] xs (S k) [-] t i [*] u i)) + RS m (fun i => w i * norm2 (ps k i [-] z)) + norm2 (xs k [-] z) <= RS m (fun i => w i * norm2 (zs k i [-] xs k [-] t i [*] u i)).
Proof.
  intros [Hu Hs]. pose proof HD as [_ [_ H]]. destruct (H k) as [Hk Hx].
  (* per index *)
  assert (HI : forall i, (i < m)%nat ->
    w i * norm2 (zs (S k) i [-] xs (S k) [-] t i [*] u i) + w i * norm2 (ps k i [-] z) + w i * norm2 (xs k [-] z) +
      (2 * << z [-] xs k, w i [*] zs (S k) i [-] w i [*] xs (S k) [-] (w i * t i) [*] u i >> - 2 * << w i [*] ps k i [-] w i [*] z, xs k [-] z >>)
    <= w i * norm2 (zs k i [-] xs k [-] t i [*] u i)).
  { intros i Hi. destruct (Hk i Hi) as [Hp HZ].
    assert (Hm : 0 <= << t i [*] (/ t i [*] (zs k i [-] ps k i) [-] u i), ps k i [-] z >>).
    { rewrite inner_scal_l. apply Rmult_le_pos; [specialize (Ht i Hi); lra|]. apply subgrad_mono with (f := f i); [apply prox_subgrad; auto|apply Hu; auto]. }
    replace (t i [*] (/ t i [*] (zs k i [-] ps k i) [-] u i)) with (zs k i [-] ps k i [-] t i [*] u i) in Hm by (specialize (Ht i Hi); vfield; lra).
    assert (EZ : zs k i [-] ps k i = zs (S k) i [-] xs (S k)) by (rewrite HZ; vring).
    assert (E1 : w i * norm2 (zs k i [-] xs k [-] t i [*] u i) =
      w i * norm2 (zs k i [-] ps k i [-] t i [*] u i) + w i * norm2 (ps k i [-] z) + w i * norm2 (xs k [-] z) +
      (2 * << z [-] xs k, w i [*] (zs k i [-] ps k i) [-] (w i * t i) [*] u i >> - 2 * << w i [*] ps k i [-] w i [*] z, xs k [-] z >>) +
      2 * w i * << zs k i [-] ps k i [-] t i [*] u i, ps k i [-] z >>) by iring.
    rewrite EZ in E1, Hm. replace (w i [*] (zs (S k) i [-] xs (S k))) with (w i [*] zs (S k) i [-] w i [*] xs (S k)) in E1 by vring.
    specialize (Hw i Hi). nra. }
  assert (HS := RS_le m _ _ HI). rewrite !RS_add in HS. rewrite RS_sub, !RS_scal, RS_scal_r, HW in HS.
  rewrite <- inner_VS_r, <- inner_VS_l in HS. rewrite !VS_sub, (par_inv (S k)), !VS_wconst, HW, <- Hx, <- Hs in HS.
  assert (EC : 2 * << z [-] xs k, x0 [-] 1 [*] xs (S k) [-] (x0 [-] z) >> - 2 * << xs (S k) [-] 1 [*] z, xs k [-] z >> = 0) by iring.
  lra.
Qed.
Lemma par_summable z u n : par_split m f (fun i => w i * t i) x0 z u -> RS n (fun k => norm2 (xs k [-] z)) <= RS m (fun i => w i * norm2 (t i [*] u i)).
Proof.
  intro HZ. assert (HS : RS n (fun k => norm2 (xs k [-] z)) + RS m (fun i => w i * norm2 (zs n i [-] xs n [-] t i [*] u i)) <= RS m (fun i => w i * norm2 (zs 0%nat i [-] xs 0%nat [-] t i [*] u i))).
  { induction n as [|n IH]; cbn [RS]; [lra|]. pose proof (par_fejer z u n HZ) as HF.
    assert (0 <= RS m (fun i => w i * norm2 (ps n i [-] z))) by (apply RS_nonneg; intros i Hi; specialize (Hw i Hi); pose proof (norm2_nonneg (ps n i [-] z)); nra). lra. }
  assert (0 <= RS m (fun i => w i * norm2 (zs n i [-] xs n [-] t i [*] u i))) by (apply RS_nonneg; intros i Hi; specialize (Hw i Hi); pose proof (norm2_nonneg (zs n i [-] xs n [-] t i [*] u i)); nra).
  assert (E0 : RS m (fun i => w i * norm2 (zs 0%nat i [-] xs 0%nat [-] t i [*] u i)) = RS m (fun i => w i * norm2 (t i [*] u i))).
  { apply RS_ext. intros i Hi. destruct HD as [-> [-> _]]; auto. f_equal. unfold norm2. iexp. ring. }
  lra.
Qed.
End Math.

(** ** the weights and steps Sum uses *)

Lemma weights_sum_pos w m : (0 < m)%nat -> weights_ok w m -> 0 < Rsum w.
Proof.
  intros Hm [Hl Hp]. rewrite Rsum_RS, Hl. destruct m as [|m]; [lia|]. cbn [RS]. pose proof (Hp m ltac:(lia)).
  assert (0 <= RS m (nthr w)) by (apply RS_nonneg; intros i Hi; specialize (Hp i ltac:(lia)); lra). lra.
Qed.
Lemma default_weights_ok m : (0 < m)%nat -> weights_ok (the_weights NoWeights m) m /\ Rsum (the_weights NoWeights m) = 1.
Proof.
  intro Hm. assert (0 < INR m) by (apply lt_0_INR; auto). split; [split; [apply repeat_length|]|].
  - intros i Hi. cbn [the_weights]. rewrite nthr_repeat by auto. apply Rdiv_lt_0_compat; lra.
  - cbn [the_weights]. rewrite Rsum_RS, repeat_length. rewrite (RS_ext m _ (fun _ => 1 / INR m)) by (intros; apply nthr_repeat; auto). rewrite RS_const. field. lra.
Qed.
Lemma mapM_div_const l c : c <> 0 -> mapM (fun x => pydiv x c) l = Ok (map (fun x => x / c) l).
Proof. intro H. induction l as [|a l IH]; [reflexivity|]. cbn [mapM map]. rewrite pydiv_ok by auto. cbn [bind]. rewrite IH. reflexivity. Qed.
Lemma nthr_map (g : R -> R) l i : (i < List.length l)%nat -> nthr (map g l) i = g (nthr l i).
Proof. intro H. unfold nthr. apply map_nth_lt; auto. Qed.
Lemma nthv_map2 {E : IPS} (g : E -> E -> E) l1 l2 i : List.length l1 = List.length l2 -> (i < List.length l1)%nat -> nthv (map2 g l1 l2) i = g (nthv l1 i) (nthv l2 i).
Proof. intros. unfold nthv. apply nth_map2; auto. Qed.
Lemma RS_nweight w m : (0 < m)%nat -> weights_ok w m -> RS m (nweight w) = 1.
Proof.
  intros Hm HO. pose proof (weights_sum_pos w m Hm HO) as HP. destruct HO as [Hl Hp]. unfold nweight, Rdiv. rewrite RS_scal_r. rewrite Rsum_RS, Hl in *. field. lra.
Qed.

Section Run.
Context {E : IPS}.
Lemma par_run (os : list (Op E)) f (w taus : list R) (x0 : E) : let m := List.length os in (0 < m)%nat -> impl_all os f -> weights_ok w m ->
  List.length taus = m -> (forall i, (i < m)%nat -> 0 < nthr taus i) ->
  exists xs zs ps, par_seq m f (nweight w) (nthr taus) x0 xs zs ps /\
    forall amax niter tol, exists k, parallel_dykstra_prox amax x0 os w taus niter tol = Ok (xs k) /\ stops_when (fun j => amax (xs j [-] xs (j - 1)%nat) < tol) niter k.
Proof.
  intros m Hm Hf HO Hlt Htp. pose proof (weights_sum_pos w m Hm HO) as HP. pose proof HO as [Hl Hp].
  set (PA' := fun z : list E => match prox_all os z taus with Ok l => l | Err _ => [] end).
  assert (HPA : forall z, List.length z = m -> prox_all os z taus = Ok (PA' z) /\ List.length (PA' z) = m /\ forall i, (i < m)%nat -> is_prox (f i) (nthr taus i) (nthv z i) (nthv (PA' z) i)).
  { intros z Hz. destruct (prox_all_ok os f z taus Hf Hz Hlt Htp) as [pz [E1 [E2 E3]]]. unfold PA'. rewrite E1. auto. }
  set (wn := map (fun x => x / Rsum w) w).
  assert (Hwn : List.length wn = m) by (unfold wn; rewrite map_length; auto).
  set (stp := fun s : par_state => let pz := PA' (pa_z s) in let x := wsum wn pz in PA x (map2 (fun zi pi => zi [+] x [-] pi) (pa_z s) pz)).
  set (st := fun k => Base.iter k stp (PA x0 (repeat x0 m))).
  assert (SS : forall k, st (S k) = stp (st k)) by (intro k; apply iter_S_out).
  assert (HL : forall k, List.length (pa_z (st k)) = m).
  { induction k as [|k IH]; [apply repeat_length|]. rewrite SS. unfold stp. cbn [pa_z]. destruct (HPA _ IH) as [_ [HH _]]. rewrite map2_length; congruence. }
  exists (fun k => pa_x (st k)), (fun k i => nthv (pa_z (st k)) i), (fun k i => nthv (PA' (pa_z (st k))) i). split.
  - split; [reflexivity|]. split; [intros i Hi; apply nthv_repeat; auto|]. intro k. destruct (HPA _ (HL k)) as [_ [H2 H3]]. rewrite SS. unfold stp. cbn [pa_x pa_z]. split.
    + intros i Hi. split; [apply H3; auto|]. rewrite nthv_map2 by (rewrite ?HL, ?H2; auto). reflexivity.
    + rewrite wsum_VS by congruence. rewrite H2. apply VS_ext. intros i Hi. unfold wn. rewrite nthr_map by lia. reflexivity.
  - intros amax niter tol.
    set (test := fun s => Rltb (amax (pa_x (stp s) [-] pa_x s)) tol).
    destruct (loop_iter_brk (par_body amax os wn taus tol) (fun s => List.length (pa_z s) = m) stp test (PA x0 (repeat x0 m))) with (n := niter) as [k [E1 Hk]].
    + apply repeat_length.
    + intros j s Hs. destruct (HPA _ Hs) as [H1 [H2 H3]]. unfold par_body. rewrite H1. cbn [bind]. rewrite Hwn, H2, Nat.eqb_refl. cbn [negb]. split; [reflexivity|].
      unfold stp. cbn [pa_z]. rewrite map2_length; congruence.
    + exists k. unfold parallel_dykstra_prox, normalise. rewrite mapM_div_const by lra. cbn [bind]. fold wn m. rewrite E1. split; [reflexivity|].
      destruct Hk as [Hk1 [Hk2 Hk3]].
      assert (EQ : forall j, (1 <= j)%nat -> (test (st (j - 1)%nat) = true <-> amax (pa_x (st j) [-] pa_x (st (j - 1)%nat)) < tol)).
      { intros j Hj. unfold test. rewrite <- SS. replace (S (j - 1)) with j by lia. apply Rltb_true. }
      split; [exact Hk1|]. split; [intros j Hj HQ; apply (Hk2 j Hj), EQ; [lia|auto]|]. destruct Hk3 as [->|[H3 H4]]; [auto|right; split; auto; apply EQ; [lia|auto]].
Qed.
Lemma sum_more amax (os : list (Op E)) weights niter tol par orig (x0 : E) tau : let m := List.length os in let w := the_weights weights m in
  (2 < m)%nat \/ (m = 2%nat /\ par = true) -> weights_ok w m -> 0 < tau ->
  exists o taus, sum_init os weights niter tol par orig = Ok o /\ snd (sum_prox amax o x0 tau) = parallel_dykstra_prox amax x0 os w taus niter tol /\
    List.length taus = m /\ forall i, (i < m)%nat -> nthr taus i = step_of orig tau w i.
Proof.
  intros m w HL HO Ht. pose proof HO as [Hl Hp].
  assert (EI : sum_init os weights niter tol par orig = Ok (SumObj os w (match weights with ArrayWeights _ => true | _ => false end) niter tol orig More)).
  { unfold sum_init. fold m. assert (ES : select_impl m par = Ok More). { destruct HL as [HL|[-> ->]]; [|reflexivity]. destruct m as [|[|[|m']]]; try lia. reflexivity. }
    destruct weights; cbn [bind the_weights] in *; rewrite ?ES; try reflexivity. destruct (Nat.eqb_spec m 0) as [|]; [lia|]. reflexivity. }
  eexists. exists (if orig then repeat tau (List.length w) else map (fun a => tau / a) w). split; [exact EI|].
  split; [|split; [destruct orig; [rewrite repeat_length|rewrite map_length]; auto|]].
  - unfold sum_prox. cbn [so_impl so_ops so_orig so_w so_niter so_tol]. destruct (Rleb_spec tau 0) as [[? _]|[_ ->]]; [lra|].
    destruct os as [|a [|b os']]; try (simpl in m; subst m; simpl in HL; lia).
    destruct orig; [reflexivity|]. rewrite mapM_pydiv by (intros i Hi; apply Hp; lia). reflexivity.
  - intros i Hi. unfold step_of. destruct orig; [apply nthr_repeat; lia|]. rewrite nthr_map by lia. reflexivity.
Qed.
End Run.
Lemma step_pos orig tau w m i : 0 < tau -> weights_ok w m -> (i < m)%nat -> 0 < step_of orig tau w i.
Proof. intros Ht [_ Hp] Hi. unfold step_of. destruct orig; auto. apply Rdiv_lt_0_compat; auto. Qed.
Lemma coef_eq orig tau w m i : (0 < m)%nat -> 0 < tau -> weights_ok w m -> (i < m)%nat -> nweight w i * step_of orig tau w i = coef orig tau w i.
Proof.
  intros Hm Ht HO Hi. pose proof (weights_sum_pos w m Hm HO). destruct HO as [_ Hp]. specialize (Hp i Hi). unfold coef, step_of, nweight. destruct orig; field; lra.
Qed.
Lemma par_all (E : IPS) (os : list (Op E)) (f : nat -> efun E) x0 tau weights par orig : let m := List.length os in let w := the_weights weights m in
  (2 < m)%nat \/ (m = 2%nat /\ par = true) -> weights_ok w m -> 0 < tau -> impl_all os f ->
  exists xs zs ps, par_seq m f (nweight w) (step_of orig tau w) x0 xs zs ps /\
    forall amax niter tol, exists o k, sum_init os weights niter tol par orig = Ok o /\ snd (sum_prox amax o x0 tau) = Ok (xs k) /\
      stops_when (fun j => amax (xs j [-] xs (j - 1)%nat) < tol) niter k.
Proof.
  intros m w HL HO Ht Hf. assert (Hm : (0 < m)%nat) by lia. pose proof HO as [Hl Hp].
  set (taus := map (step_of orig tau w) (seq 0 m)).
  assert (Hn : forall i, (i < m)%nat -> nthr taus i = step_of orig tau w i). { intros i Hi. unfold taus, nthr. rewrite (map_nth_lt _ (seq 0 m) i 0%nat 0) by (rewrite seq_length; auto). rewrite seq_nth by auto. reflexivity. }
  assert (Hlt : List.length taus = m) by (unfold taus; rewrite map_length, seq_length; auto).
  destruct (par_run os f w taus x0 Hm Hf HO Hlt) as [xs [zs [ps [HD HR]]]]; [intros i Hi; rewrite Hn by auto; apply (step_pos orig tau w m); auto|].
  exists xs, zs, ps. split.
  - destruct HD as [H0 [H1 H]]. split; auto. split; auto. intro k. destruct (H k) as [Hk1 Hk2]. split; auto. intros i Hi. destruct (Hk1 i Hi) as [Ha Hb]. rewrite Hn in Ha by auto. split; auto.
  - intros amax niter tol. destruct (sum_more amax os weights niter tol par orig x0 tau HL HO Ht) as [o [taus' [Eo [Ep [El En]]]]].
    destruct (HR amax niter tol) as [k [E1 Hk]]. exists o, k. split; auto. split; auto. rewrite Ep. rewrite <- E1. f_equal.
    change (List.length os) with m in El, En. apply (nth_ext _ _ 0 0); [rewrite El; auto|]. intros i Hi. fold (nthr taus' i) (nthr taus i). rewrite Hn, En by lia. reflexivity.
Qed.

(*! C36_recursion : Sum of m functions computed in parallel, any positive weights, either step rule: the iterates follow the documented recursion with the weights
   divided by their sum, the weighted mean of the z_i equals the input at every iteration, at most niter iterations run and the loop ends at the
   first one whose x moved less than tol, and when all proxes of the last iteration agree with x it is the prox of sum_i c_i f_i, where
   c_i = tau * w_i / sum w with use_original_tau and tau / sum w without *)
Lemma C36_recursion_l : forall (E : IPS) (os : list (Op E)) (f : nat -> efun E) x0 tau weights par orig, let m := List.length os in let w := the_weights weights m in
  (2 < m)%nat \/ (m = 2%nat /\ par = true) -> weights_ok w m -> 0 < tau -> impl_all os f -> (forall i, (i < m)%nat -> convex (f i)) ->
  exists xs zs ps, par_seq m f (nweight w) (step_of orig tau w) x0 xs zs ps /\ (forall k, VS m (fun i => nweight w i [*] zs k i) = x0) /\
    forall amax niter tol, exists o k, sum_init os weights niter tol par orig = Ok o /\ snd (sum_prox amax o x0 tau) = Ok (xs k) /\
      stops_when (fun j => amax (xs j [-] xs (j - 1)%nat) < tol) niter k /\
      ((0 < k)%nat -> (forall i, (i < m)%nat -> ps (k - 1)%nat i = xs k) -> is_prox (esum m (fun i => escal (coef orig tau w i) (f i))) 1 x0 (xs k)).
Proof.
  intros E os f x0 tau weights par orig m w HL HO Ht Hf Hc. assert (Hm : (0 < m)%nat) by lia.
  destruct (par_all E os f x0 tau weights par orig HL HO Ht Hf) as [xs [zs [ps [HD HR]]]]. exists xs, zs, ps. fold m w in HD. split; auto.
  assert (HI : forall k, VS m (fun i => nweight w i [*] zs k i) = x0) by (intro k; apply (par_inv m f (nweight w) (step_of orig tau w) x0 xs zs ps); auto; apply RS_nweight; auto).
  split; auto. intros amax niter tol. destruct (HR amax niter tol) as [o [k [E1 [E2 Hk]]]]. exists o, k. split; auto. split; auto. split; auto. intros Hk0 HA.
  destruct k as [|k]; [lia|]. replace (S k - 1)%nat with k in HA by lia.
  assert (HP : is_prox (esum m (fun i => escal (nweight w i * step_of orig tau w i) (f i))) 1 x0 (xs (S k))).
  { apply (par_agree m f (nweight w) (step_of orig tau w) x0 xs zs ps); auto; [intros i Hi; apply Rdiv_lt_0_compat; [apply HO; auto|apply (weights_sum_pos w m); auto]|apply RS_nweight; auto|intros i Hi; apply (step_pos orig tau w m); auto]. }
  assert (EV : forall v, RS m (fun i => eval (escal (nweight w i * step_of orig tau w i) (f i)) v) = RS m (fun i => eval (escal (coef orig tau w i) (f i)) v)).
  { intro v. apply RS_ext. intros i Hi. cbn [eval escal]. rewrite (coef_eq orig tau w m) by auto. reflexivity. }
  destruct HP as [H1 H2]. split; [exact H1|]. intros y Hy. specialize (H2 y Hy). cbn [eval esum] in *. rewrite <- !EV. exact H2.
Qed.
(*! C36_converges : if z is the prox of sum_i c_i f_i at x0 with subgradients u_i of the f_i witnessing it, then with tol = 0 the result tends to z as niter grows and
   the squared errors of all iterates together stay bounded by an explicit constant; with tol > 0 the loop stops by itself *)
Lemma C36_converges_l : forall (E : IPS) (os : list (Op E)) (f : nat -> efun E) x0 tau weights par orig amax z u, let m := List.length os in let w := the_weights weights m in
  (2 < m)%nat \/ (m = 2%nat /\ par = true) -> weights_ok w m -> 0 < tau -> impl_all os f -> (forall i, (i < m)%nat -> convex (f i)) -> (forall v, 0 <= amax v <= norm v) ->
  par_split m f (coef orig tau w) x0 z u ->
  is_prox (esum m (fun i => escal (coef orig tau w i) (f i))) 1 x0 z /\
  exists xs, (forall n, RS n (fun k => norm2 (xs k [-] z)) <= RS m (fun i => nweight w i * norm2 (step_of orig tau w i [*] u i))) /\
    (forall niter, exists o, sum_init os weights niter 0 par orig = Ok o /\ snd (sum_prox amax o x0 tau) = Ok (xs niter)) /\
    (forall eps, 0 < eps -> exists N, forall niter, (N <= niter)%nat -> norm (xs niter [-] z) < eps) /\
    (forall tol, 0 < tol -> exists N, forall niter, (N <= niter)%nat -> exists o, sum_init os weights niter tol par orig = Ok o /\ snd (sum_prox amax o x0 tau) = Ok (xs N)).
Proof.
  intros E os f x0 tau weights par orig amax z u m w HL HO Ht Hf Hc Ham HZ. assert (Hm : (0 < m)%nat) by lia.
  assert (HwP : forall i, (i < m)%nat -> 0 < nweight w i) by (intros i Hi; apply Rdiv_lt_0_compat; [apply HO; auto|apply (weights_sum_pos w m); auto]).
  assert (HtP : forall i, (i < m)%nat -> 0 < step_of orig tau w i) by (intros i Hi; apply (step_pos orig tau w m); auto).
  assert (HcP : forall i, (i < m)%nat -> 0 <= coef orig tau w i) by (intros i Hi; rewrite <- (coef_eq orig tau w m) by auto; specialize (HwP i Hi); specialize (HtP i Hi); nra).
  split; [apply (par_split_prox m f x0 (coef orig tau w) z u); auto|].
  destruct (par_all E os f x0 tau weights par orig HL HO Ht Hf) as [xs [zs [ps [HD HR]]]]. fold m w in HD. exists xs.
  assert (HZ' : par_split m f (fun i => nweight w i * step_of orig tau w i) x0 z u).
  { destruct HZ as [H1 H2]. split; auto. rewrite H2. apply VS_ext. intros i Hi. rewrite (coef_eq orig tau w m) by auto. reflexivity. }
  assert (HS : forall n, RS n (fun k => norm2 (xs k [-] z)) <= RS m (fun i => nweight w i * norm2 (step_of orig tau w i [*] u i))).
  { intro n. apply (par_summable m f (nweight w) (step_of orig tau w) x0 xs zs ps); auto. apply RS_nweight; auto. }
  assert (HV : forall eps, 0 < eps -> exists N, forall niter, (N <= niter)%nat -> norm (xs niter [-] z) < eps).
  { intros eps He. destruct (summable_vanish _ _ (fun j => norm2_nonneg (xs j [-] z)) HS (eps * eps)) as [N HN]; [nra|]. exists N. intros n Hn. apply norm_small; auto. }
  split; auto. split; [|split; auto].
  - intro niter. destruct (HR amax niter 0) as [o [k [E1 [E2 Hk]]]]. exists o. split; auto. rewrite E2. do 2 f_equal. apply (stops_never _ _ _ Hk). intros j H. destruct (Ham (xs j [-] xs (j - 1)%nat)). lra.
  - intros tol Htol. destruct (HV (tol / 2) ltac:(lra)) as [M HM].
    assert (HQ : amax (xs (S M) [-] xs (S M - 1)%nat) < tol).
    { replace (S M - 1)%nat with M by lia. eapply Rle_lt_trans; [apply Ham|]. replace (xs (S M) [-] xs M) with ((xs (S M) [-] z) [+] (z [-] xs M)) by vring.
      pose proof (HM M ltac:(lia)). pose proof (HM (S M) ltac:(lia)). eapply Rle_lt_trans; [apply norm_triangle|]. rewrite (norm_sub_sym z (xs M)). lra. }
    destruct (HR amax (S M) tol) as [_ [N [_ [_ HN]]]].
    assert (HQN : amax (xs N [-] xs (N - 1)%nat) < tol). { destruct HN as [_ [_ [->|[_ H]]]]; auto. }
    assert (HN0 : (1 <= N)%nat). { destruct HN as [_ [_ [->|[H _]]]]; lia. }
    exists N. intros niter Hn. destruct (HR amax niter tol) as [o [k [E1 [E2 Hk]]]]. exists o. split; auto. rewrite E2. do 2 f_equal.
    pose proof (stops_when_first _ _ _ N Hk HN0 HQN) as Hle. destruct (Nat.eq_dec k N) as [|Hne]; auto. exfalso.
    destruct Hk as [Hk1 [_ [Hk3|[Hk3 Hk4]]]]; [lia|]. destruct HN as [_ [HN2 _]]. apply (HN2 k); auto. lia.
Qed.

(*! C36_weighted_refuted : the documented prox of tau * sum_i w_i f_i is not what the default computes: for f_1 = f_2 = x^2/2 with the default weights 1/2 and tau = 1,
   for every niter >= 1 and tol the result is x0/3, while the documented value is x0/2; the same object with use_original_tau returns x0/2 *)
Lemma C36_weighted_refuted_l : forall amax niter tol (x0 : R), (1 <= niter)%nat ->
  let q := etot (E:=R_IPS) (fun x : R_IPS => 1 / 2 * (x * x)) in let os := [quad1 1; quad1 1] in
  impl_all os (fun _ => q) /\
  is_prox (esum 2 (fun i => escal (1 / 2) q)) 1 (x0 : R_IPS) (x0 / 2) /\
  (exists o, sum_init os NoWeights niter tol true false = Ok o /\ snd (sum_prox amax o (x0 : R_IPS) 1) = Ok (x0 / 3)) /\
  (exists o, sum_init os NoWeights niter tol true true = Ok o /\ snd (sum_prox amax o (x0 : R_IPS) 1) = Ok (x0 / 2)).
Proof.
  intros amax niter tol x0 Hn q os.
  assert (Hq : impl_all os (fun _ => q)).
  { intros i o Ho. destruct i as [|[|i]]; cbn in Ho; [| |destruct i; discriminate]; injection Ho as <-; apply quad1_prox; lra. }
  split; auto. split.
  { apply subgrad_prox; [lra|]. split; [intros i _; exact I|]. intros y _. cbn. rewrite Rinv_1. pose proof (Rle_0_sqr (y - x0 / 2)). unfold Rsqr in *. lra. }
  assert (G : forall (c : R), c <> 0 -> forall n i, (1 <= i + n)%nat -> forall (x : R), (i = 0%nat \/ x = x0 / c) ->
     exists b, for_loop (par_body amax os [1/2; 1/2] [c - 1; c - 1] tol) n i (PA (x : R_IPS) [x0 : R_IPS; x0]) = Ok (PA (x0 / c : R_IPS) [x0 : R_IPS; x0], b)).
  { intros c Hc. induction n as [|n IH]; intros i Hi x Hx; cbn [for_loop]; [exists i; destruct Hx as [->| ->]; [lia|reflexivity]|].
    assert (EB : par_body amax os [1/2; 1/2] [c - 1; c - 1] tol i (PA (x : R_IPS) [x0 : R_IPS; x0]) = Ok (PA (x0 / c : R_IPS) [x0 : R_IPS; x0], Rltb (amax ((x0 / c : R_IPS) [-] (x : R_IPS))) tol)).
    { unfold par_body. cbn [prox_all os o_prox quad1 pa_z pa_x bind length Nat.eqb negb].
      set (X := wsum _ _). assert (EX : X = (x0 / c : R_IPS)) by (unfold X; cbn; replace (1 + (c - 1) * 1) with c by ring; field; auto).
      rewrite EX. cbn [map2]. replace (1 + (c - 1) * 1) with c by ring.
      replace ((x0 : R_IPS) [+] (x0 / c : R_IPS) [-] (x0 / c : R_IPS)) with (x0 : R_IPS) by vring. reflexivity. }
    rewrite EB. cbn [bind fst snd]. destruct (Rltb _ tol); [eexists; reflexivity|]. apply IH; [lia|right; reflexivity]. }
  assert (EN : normalise [1 / INR 2; 1 / INR 2] = Ok [1/2; 1/2]).
  { unfold normalise. assert (EQ : Rsum [1 / INR 2; 1 / INR 2] = 1) by (cbn; lra). rewrite mapM_div_const by lra. rewrite EQ. cbn. do 2 f_equal; [lra|f_equal; lra]. }
  split.
  - eexists. split; [reflexivity|]. unfold sum_prox. cbn [so_impl so_ops so_orig so_w so_niter so_tol repeat length os]. destruct (Rleb_spec 1 0) as [[? _]|[_ ->]]; [lra|].
    rewrite mapM_pydiv by (intros i Hi; destruct i as [|[|i]]; cbn in *; [lra|lra|lia]). cbn [snd map]. unfold parallel_dykstra_prox. rewrite EN. cbn [bind length repeat].
    replace (1 / (1 / INR 2)) with (3 - 1) by (cbn; lra). destruct (G 3 ltac:(lra) niter 0%nat ltac:(lia) x0 (or_introl eq_refl)) as [b Eb]. match type of Eb with ?l = _ => match goal with |- context [for_loop ?a ?b ?c ?d] => change (for_loop a b c d) with l end end. rewrite Eb. reflexivity.
  - eexists. split; [reflexivity|]. unfold sum_prox. cbn [so_impl so_ops so_orig so_w so_niter so_tol repeat length os]. destruct (Rleb_spec 1 0) as [[? _]|[_ ->]]; [lra|].
    cbn [snd]. unfold parallel_dykstra_prox. rewrite EN. cbn [bind length repeat].
    replace [1; 1] with [2 - 1; 2 - 1] by (repeat f_equal; lra). destruct (G 2 ltac:(lra) niter 0%nat ltac:(lia) x0 (or_introl eq_refl)) as [b Eb]. match type of Eb with ?l = _ => match goal with |- context [for_loop ?a ?b ?c ?d] => change (for_loop a b c d) with l end end. rewrite Eb. reflexivity.
Qed.

(*! C36_array_weights_refuted : a call of prox changes the object when the weights are a float array: with weights array([2, 2]), two functions x^2/2, tau = 1 and niter = 1
   the first call returns 2/3 of the input and overwrites the weights (also the caller's array) by (1/2, 1/2), the second call returns 1/3 of it *)
Lemma C36_array_weights_refuted_l : forall amax tol (x0 : R), let os := [quad1 1; quad1 1] in
  exists o o', sum_init os (ArrayWeights [2; 2]) 1 tol true false = Ok o /\ so_w o = [2; 2] /\
    sum_prox amax o (x0 : R_IPS) 1 = (o', Ok (2 / 3 * x0)) /\ so_w o' = [1 / 2; 1 / 2] /\
    sum_prox amax o' (x0 : R_IPS) 1 = (o', Ok (1 / 3 * x0)).
Proof.
  intros amax tol x0 os.
  assert (EN : normalise [2; 2] = Ok [1/2; 1/2]).
  { unfold normalise. assert (EQ : Rsum [2; 2] = 4) by (cbn; lra). rewrite mapM_div_const by lra. rewrite EQ. cbn. do 2 f_equal; [lra|f_equal; lra]. }
  assert (EN' : normalise [1/2; 1/2] = Ok [1/2; 1/2]).
  { unfold normalise. assert (EQ : Rsum [1/2; 1/2] = 1) by (cbn; lra). rewrite mapM_div_const by lra. rewrite EQ. cbn. do 2 f_equal; [lra|f_equal; lra]. }
  assert (EB : forall t, 0 < t -> exists b, for_loop (par_body amax os [1/2; 1/2] [t; t] tol) 1 0 (PA (x0 : R_IPS) [x0 : R_IPS; x0]) = Ok (PA (/ (1 + t) * x0 : R_IPS) [x0 : R_IPS; x0], b)).
  { intros t Htp. cbn [for_loop]. unfold par_body. cbn [prox_all os o_prox quad1 pa_z pa_x bind length Nat.eqb negb].
    set (X := wsum _ _). assert (EX : X = (/ (1 + t) * x0 : R_IPS)) by (unfold X; cbn; replace (1 + t * 1) with (1 + t) by ring; field; lra).
    rewrite EX. cbn [map2]. replace (x0 / (1 + t * 1)) with (/ (1 + t) * x0) by (field; lra).
    replace ((x0 : R_IPS) [+] (/ (1 + t) * x0 : R_IPS) [-] (/ (1 + t) * x0 : R_IPS)) with (x0 : R_IPS) by vring. cbn [bind fst snd].
    destruct (Rltb _ tol); eexists; reflexivity. }
  eexists. exists (SumObj os [1/2; 1/2] true 1 tol false More). split; [reflexivity|]. split; [reflexivity|].
  split; [|split; [reflexivity|]].
  - unfold sum_prox, sum_after. cbn [so_impl so_ops so_orig so_w so_niter so_tol so_isarray os]. destruct (Rleb_spec 1 0) as [[? _]|[_ ->]]; [lra|].
    rewrite mapM_pydiv by (intros i Hi; destruct i as [|[|i]]; cbn in *; [lra|lra|lia]). rewrite EN. cbn [map]. unfold parallel_dykstra_prox. rewrite EN. cbn [bind length repeat].
    destruct (EB (1 / 2) ltac:(lra)) as [b Eb]. match type of Eb with ?l = _ => match goal with |- context [for_loop ?a ?b ?c ?d] => change (for_loop a b c d) with l end end. rewrite Eb. cbn [bind fst pa_x]. do 2 f_equal. lra.
  - unfold sum_prox, sum_after. cbn [so_impl so_ops so_orig so_w so_niter so_tol so_isarray os]. destruct (Rleb_spec 1 0) as [[? _]|[_ ->]]; [lra|].
    rewrite mapM_pydiv by (intros i Hi; destruct i as [|[|i]]; cbn in *; [lra|lra|lia]). rewrite EN'. cbn [map]. unfold parallel_dykstra_prox. rewrite EN'. cbn [bind length repeat].
    destruct (EB (1 / (1 / 2)) ltac:(lra)) as [b Eb]. match type of Eb with ?l = _ => match goal with |- context [for_loop ?a ?b ?c ?d] => change (for_loop a b c d) with l end end. rewrite Eb. cbn [bind fst pa_x]. do 2 f_equal. field.
Qed.

(*! C36_stop_refuted : a small move of x does not mean the computation is finished: for the indicator of {1} and f(x) = x, default weights, tau = 1/2 and the input 0,
   for every tol > 0 and niter >= 1 the loop stops after one iteration and returns 0; the prox of the sum is 1 and calling the object on the result gives False *)
Lemma C36_stop_refuted_l : forall amax niter tol, (1 <= niter)%nat -> 0 < tol -> amax (0 : R_IPS) = 0 ->
  impl_all [at1; line1] at1_line1 /\ (forall i, convex (at1_line1 i)) /\ (forall z, is_prox (esum 2 at1_line1) (1 / 2) (0 : R_IPS) z <-> z = 1) /\
  exists o, sum_init [at1; line1] NoWeights niter tol true false = Ok o /\ snd (sum_prox amax o (0 : R_IPS) (1 / 2)) = Ok 0 /\ sum_call [at1; line1] (0 : R_IPS) = Ok (VBool false).
Proof.
  intros amax niter tol Hn Htol Ha. split; [|split; [|split]].
  - intros i o Ho. destruct i as [|[|i]]; cbn in Ho; [| |destruct i; discriminate]; injection Ho as <-.
    + intros x t Ht. exists (1 : R). split; [reflexivity|]. split; [reflexivity|]. intros y Hy. cbn in Hy. subst y. lra.
    + intros x t Ht. exists (x - t). split; [reflexivity|]. apply subgrad_prox; auto. split; [exact I|]. intros y _. cbn.
      replace (/ t * (x + -1 * (x - t)) * (y + -1 * (x - t))) with (y - (x - t)) by (field; lra). lra.
  - intros [|i] x y s Hx Hy Hs; cbn in *; [split; [subst; ring|lra]|split; auto; lra].
  - intro z. split.
    + intros [Hd _]. apply (Hd 0%nat). lia.
    + intros ->. split; [intros [|[|i]] Hi; cbn; auto; lia|]. intros y Hy. pose proof (Hy 0%nat ltac:(lia)) as H1. cbn in H1. subst y. lra.
  - eexists. split; [reflexivity|]. split.
    + unfold sum_prox. cbn [so_impl so_ops so_orig so_w so_niter so_tol repeat length]. destruct (Rleb_spec (1 / 2) 0) as [[? _]|[_ ->]]; [lra|].
      rewrite mapM_pydiv by (intros i Hi; destruct i as [|[|i]]; cbn in *; [lra|lra|lia]). cbn [snd map]. unfold parallel_dykstra_prox, normalise.
      assert (EQ : Rsum [1 / INR 2; 1 / INR 2] = 1) by (cbn; lra). rewrite mapM_div_const by lra. rewrite EQ. cbn [bind length repeat map].
      destruct niter as [|n]; [lia|]. cbn [for_loop]. unfold par_body. cbn [prox_all o_prox at1 line1 pa_z pa_x bind length Nat.eqb negb].
      set (X := wsum _ _). assert (EX : X = (0 : R_IPS)) by (unfold X; cbn; field).
      rewrite EX. replace ((0 : R_IPS) [-] (0 : R_IPS)) with (0 : R_IPS) by (cbn; ring). rewrite Ha.
      destruct (Rltb_spec 0 tol) as [[_ ->]|[? _]]; [|lra]. reflexivity.
    + unfold sum_call. cbn [calls at1 line1 o_call bind bools_of nums_of flat_map app forallb]. destruct (Reqb_spec 0 1) as [[? _]|[_ ->]]; [lra|reflexivity].
Qed.

(*! C36_weight_count : as soon as one iteration runs, fewer weights than functions raise IndexError and more raise ValueError *)
Lemma C36_weight_count_l : forall (E : IPS) amax (os : list (Op E)) f w n tol par orig x0 tau, let m := List.length os in
  (2 < m)%nat \/ (m = 2%nat /\ par = true) -> impl_all os f -> 0 < tau -> (0 < List.length w)%nat -> (forall i, (i < List.length w)%nat -> 0 < nthr w i) ->
  exists o, sum_init os (ListWeights w) (S n) tol par orig = Ok o /\
    ((List.length w < m)%nat -> snd (sum_prox amax o x0 tau) = Err IndexError) /\ ((m < List.length w)%nat -> snd (sum_prox amax o x0 tau) = Err ValueError).
Proof.
  intros E amax os f w n tol par orig x0 tau m HL Hf Ht Hw0 Hp.
  assert (EI : sum_init os (ListWeights w) (S n) tol par orig = Ok (SumObj os w false (S n) tol orig More)).
  { unfold sum_init. fold m. cbn [bind]. assert (ES : select_impl m par = Ok More). { destruct HL as [HL|[-> ->]]; [|reflexivity]. destruct m as [|[|[|m']]]; try lia. reflexivity. } rewrite ES. reflexivity. }
  eexists. split; [exact EI|].
  set (taus := if orig then repeat tau (List.length w) else map (fun a => tau / a) w).
  assert (Hlt : List.length taus = List.length w) by (unfold taus; destruct orig; [apply repeat_length|apply map_length]).
  assert (Htp : forall i, (i < List.length w)%nat -> 0 < nthr taus i). { intros i Hi. unfold taus. destruct orig; [rewrite nthr_repeat by auto; auto|rewrite nthr_map by auto; apply Rdiv_lt_0_compat; auto]. }
  pose proof (weights_sum_pos w (List.length w) Hw0 (conj eq_refl Hp)) as HP.
  assert (ER : snd (sum_prox amax (SumObj os w false (S n) tol orig More) x0 tau) = parallel_dykstra_prox amax x0 os w taus (S n) tol).
  { unfold sum_prox. cbn [so_impl so_ops so_orig so_w so_niter so_tol]. destruct (Rleb_spec tau 0) as [[? _]|[_ ->]]; [lra|].
    destruct os as [|a [|b os']]; try (simpl in m; subst m; simpl in HL; lia).
    unfold taus. destruct orig; [reflexivity|]. rewrite mapM_pydiv by auto. reflexivity. }
  rewrite ER. unfold parallel_dykstra_prox, normalise. rewrite mapM_div_const by lra. cbn [bind for_loop]. unfold par_body at 1 3. cbn [pa_z]. fold m. split; intro Hlen.
  - assert (EP : forall os (f : nat -> efun E) ys ts, impl_all os f -> (List.length ts < List.length os)%nat -> List.length ys = List.length os -> (forall i, (i < List.length ts)%nat -> 0 < nthr ts i) -> prox_all os ys ts = Err IndexError).
    { clear. induction os as [|o os IH]; intros f ys ts Hf Hl Hy Hp; cbn in Hl; [lia|]. destruct ys as [|y ys]; [discriminate|]. destruct ts as [|t ts]; [reflexivity|]. cbn [prox_all].
      destruct (Hf 0%nat o eq_refl y t) as [p [-> _]]; [apply (Hp 0%nat); cbn; lia|]. cbn [bind]. rewrite (IH (fun i => f (S i))); [reflexivity| | | |].
      - intros i o' Ho. apply (Hf (S i)). exact Ho. - cbn in Hl; lia. - cbn in Hy; lia. - intros i Hi. apply (Hp (S i)). cbn; lia. }
    rewrite (EP os f) by (auto; rewrite ?repeat_length, ?Hlt; auto). reflexivity.
  - assert (EP : forall os (f : nat -> efun E) ys ts, impl_all os f -> (List.length os <= List.length ts)%nat -> List.length ys = List.length os -> (forall i, (i < List.length ts)%nat -> 0 < nthr ts i) -> exists ps, prox_all os ys ts = Ok ps /\ List.length ps = List.length os).
    { clear. induction os as [|o os IH]; intros f ys ts Hf Hl Hy Hp; [exists []; auto|]. destruct ys as [|y ys]; [discriminate|]. destruct ts as [|t ts]; [cbn in Hl; lia|]. cbn [prox_all].
      destruct (Hf 0%nat o eq_refl y t) as [p [-> _]]; [apply (Hp 0%nat); cbn; lia|]. cbn [bind]. destruct (IH (fun i => f (S i)) ys ts) as [ps [-> Hps]].
      - intros i o' Ho. apply (Hf (S i)). exact Ho. - cbn in Hl; lia. - cbn in Hy; lia. - intros i Hi. apply (Hp (S i)). cbn; lia. - exists (p :: ps). split; [reflexivity|cbn; lia]. }
    destruct (EP os f (repeat x0 m) taus) as [ps [-> Hps]]; auto; [rewrite Hlt; unfold m in Hlen; lia|apply repeat_length|rewrite Hlt; auto|]. cbn [bind].
    rewrite map_length, Hps. fold m. destruct (Nat.eqb_spec (List.length w) m); [lia|reflexivity].
Qed.

(*!ex C36_example : two functions x^2/2 with the weights (1/4, 3/4) and tau = 1: all hypotheses hold; the split for the default rule is z = x0/3 with u_i = z *)
Lemma C36_example_l : forall x0 : R, let os := [quad1 1; quad1 1] in let q := etot (E:=R_IPS) (fun x : R_IPS => 1 / 2 * (x * x)) in let w := the_weights (ListWeights [1/4; 3/4]) 2 in
  weights_ok w 2 /\ impl_all os (fun _ => q) /\ convex q /\
  par_split 2 (fun _ => q) (coef false 1 w) (x0 : R_IPS) (x0 / 3) (fun _ => x0 / 3 : R_IPS) /\ par_split 2 (fun _ => q) (coef true 1 w) (x0 : R_IPS) (x0 / 2) (fun _ => x0 / 2 : R_IPS).
Proof.
  intros x0 os q w. split; [split; [reflexivity|intros i Hi; destruct i as [|[|i]]; cbn; [lra|lra|lia]]|].
  split; [intros i o Ho; destruct i as [|[|i]]; cbn in Ho; [| |destruct i; discriminate]; injection Ho as <-; apply quad1_prox; lra|].
  split; [intros x y s _ _ Hs; cbn; split; auto; assert (0 <= s * (1 - s) * ((x - y) * (x - y))) by (apply Rmult_le_pos; [nra|apply (Rle_0_sqr (x - y))]); lra|].
  assert (ES : Rsum [1/4; 3/4] = 1) by (cbn; lra).
  split; (split; [intros i _; split; [exact I|]; intros y _; cbn; pose proof (Rle_0_sqr (y - x0 / 3)); pose proof (Rle_0_sqr (y - x0 / 2)); unfold Rsqr in *; lra|]); unfold coef, nweight, w, the_weights; rewrite ES; cbn; field.
Qed.
