(** * The iterates of the solvers for many functions converge to a solution (M_Multi.v) *)
From Coq Require Import String Psatz.
From Verif Require Import Base Space Spec Cplx ConvexFacts Smooth VSum M_ProxOp SpecOps P_ProxOp M_Norms P_Norms M_Loop LoopFacts LoopFacts2 SeqFacts M_PG M_Split M_PD M_Multi SplitMath P_PG P_PG2 P_PG3 P_Split P_Split2 P_Split3 P_PD P_PD2 P_Multi P_Multi2 P_Multi3 S_Seq Compact Fejer IterMath IterMath2 IterMath3 P_Iter P_Iter2.
Open Scope result_scope.
Open Scope R_scope.

(** a loop with a stopping test runs along a given sequence of states *)
Lemma loop_along {S} (body : nat -> S -> result (S * bool)) (st : nat -> S) (Q : nat -> Prop) (bs : nat -> bool) :
  (forall j, body j (st j) = Ok (st (Datatypes.S j), bs j)) -> (forall j, bs j = true <-> Q (Datatypes.S j)) ->
  forall n, exists k, for_loop body n 0 (st 0%nat) = Ok (st k, k) /\ stops_when Q n k.
Proof.
  intros Hb Hq n.
  destruct (loop_states_brk body (fun j s => s = st j) (fun j s s' b => b = bs j) n (st 0%nat)) as (st' & bs' & k & E1 & _ & Hk & _ & HP & HR & Hf & Hl); [reflexivity| |].
  - intros j s _ ->. exists (st (Datatypes.S j)), (bs j). rewrite Hb. auto.
  - exists k. rewrite E1, (HP k) by lia. split; [reflexivity|]. apply (stops_when_intro Q bs'); auto. intros j Hj. rewrite (HR j Hj). apply Hq.
Qed.

(** the proximal maps of a list of operators, as functions *)
Definition prox_of {E : IPS} (os : list (Op E)) (s : nat -> R) (i : nat) (y : E) : E :=
  match nth_error os i with Some o => match o_prox o y (s i) with Ok p => p | Err _ => vzero end | None => vzero end.
Lemma prox_of_ok {E : IPS} (os : list (Op E)) f s i y : impl_all os f -> (i < List.length os)%nat -> 0 < s i -> is_prox (f i) (s i) y (prox_of os s i y).
Proof.
  intros Hf Hi Hs. unfold prox_of. destruct (nth_error os i) as [o|] eqn:Eo; [|apply nth_error_None in Eo; lia]. destruct (Hf i o Eo y (s i) Hs) as (p & -> & Hp). exact Hp.
Qed.

(*! C75_ppxa : m >= 1 convex functions, admissible weights (given or default), a common initial vector or (default weights) one
   per function, tau > 0, 0 < eta < 2, finite dimension, and some point is a solution with multipliers: there is one sequence
   x_0, x_1, ... converging to a minimiser of the sum such that, for every niter and every tol, PPXA returns x_k, where k is the
   first iteration whose change is below tol (niter if there is none) *)
Lemma C75_ppxa_l : forall (E : IPS) (os : list (Op E)) (f : nat -> efun E) x0 tau eta weights, bw E ->
  let m := List.length os in
  impl_all os f -> (forall i, (i < m)%nat -> convex (f i)) -> (0 < m)%nat -> 0 < tau -> 0 < eta < 2 ->
  good_weights weights m -> ppxa_start_ok x0 weights m -> (exists xo v, sum_kkt m f xo v) ->
  exists xs xl, (forall niter amax t, exists k, PPXA os x0 tau eta weights niter amax (Some t) = Ok (xs k, map xs (seq 1 k)) /\
       stops_when (fun j => amax (xs j [-] xs (j - 1)%nat) < t) niter k) /\
    is_min (esum m f) xl /\ vcv xs xl.
Proof.
  intros E os f x0 tau eta weights HB m Hf Hc Hm Ht He Hg Hx0 Hk.
  destruct (weights_facts weights m Hm Hg) as [Lw [Pw Sw]]. set (wl := ppxa_weights weights m) in *. set (w := nthr wl) in *.
  assert (Ly : List.length (ppxa_ys0 x0 m) = m) by (destruct x0; simpl; [apply repeat_length|apply Hx0]).
  set (y := ppxa_ys0 x0 m) in *. set (T := prox_of os (fun i => tau / w i)).
  assert (HT : forall i z, (i < m)%nat -> is_prox (f i) (tau / w i) z (T i z)).
  { intros i z Hi. apply (prox_of_ok os f (fun i => tau / w i)); auto. apply Rdiv_lt_0_compat; auto. }
  assert (Hstep : forall j s, List.length (px_y s) = m /\ px_old s = px_x s -> exists s',
     (forall amax t, ppxa_body os wl tau eta amax (Some t) j s = Ok (s', Rltb (amax (px_x s' [-] px_x s)) t)) /\ (List.length (px_y s') = m /\ px_old s' = px_x s') /\
     (forall i, (i < m)%nat -> nthv (px_y s') i = nthv (px_y s) i [+] eta [*] (2 [*] VS m (fun i => w i [*] T i (nthv (px_y s) i)) [-] px_x s [-] T i (nthv (px_y s) i))) /\
     px_x s' = px_x s [+] eta [*] (VS m (fun i => w i [*] T i (nthv (px_y s) i)) [-] px_x s) /\ px_tr s' = px_tr s ++ [px_x s']).
  { intros j s [Hly Hold].
    destruct (stack_all_ok os f (px_y s) (map (fun a => tau / a) wl) Hf) as [p [Ep [Hlp Hp]]]; auto.
    { rewrite map_length; auto. }
    { intros i Hi. unfold nthr. rewrite (map_nth_lt _ _ _ 0) by (rewrite Lw; auto). apply Rdiv_lt_0_compat; auto. apply Pw; auto. }
    fold m in Hlp. assert (HpT : forall i, (i < m)%nat -> nthv p i = T i (nthv (px_y s) i)).
    { intros i Hi. specialize (Hp i Hi). unfold nthr in Hp. rewrite (map_nth_lt _ _ _ 0) in Hp by (rewrite Lw; auto). change (nth i wl 0) with (w i) in Hp.
      apply (prox_unique (f i) (tau / w i) (nthv (px_y s) i)); auto. apply Rdiv_lt_0_compat; auto. }
    assert (Hws : wsum wl p = VS m (fun i => w i [*] T i (nthv (px_y s) i))). { rewrite wsum_VS by lia. rewrite Hlp. apply VS_ext. intros i Hi. rewrite HpT by auto. reflexivity. }
    eexists. split; [|split; [|split; [|split]]].
    - intros amax t. unfold ppxa_body. rewrite mapM_pydiv by (rewrite Lw; auto). cbn [bind]. rewrite Ep. cbn [bind abs_stop]. rewrite Hold. lazymatch goal with |- Ok (?a, _) = Ok (?e, _) => unify e a end. reflexivity.
    - cbn [px_y px_old px_x]. split; [|reflexivity]. rewrite map2_length by lia. exact Hly.
    - intros i Hi. cbn [px_y]. unfold nthv at 1. rewrite (nth_map2 _ _ _ _ vzero vzero) by lia. rewrite Hws. change (nth i p vzero) with (nthv p i). rewrite HpT by auto. reflexivity.
    - cbn [px_x]. rewrite Hws. reflexivity.
    - reflexivity. }
  destruct (loop_seq (fun j s => match ppxa_body os wl tau eta (fun _ => 0) (Some 0) j s with Ok p => Ok (fst p, false) | Err e => Err e end)
     (fun _ s => List.length (px_y s) = m /\ px_old s = px_x s)
     (fun j s s' => (forall amax t, ppxa_body os wl tau eta amax (Some t) j s = Ok (s', Rltb (amax (px_x s' [-] px_x s)) t)) /\
        (forall i, (i < m)%nat -> nthv (px_y s') i = nthv (px_y s) i [+] eta [*] (2 [*] VS m (fun i => w i [*] T i (nthv (px_y s) i)) [-] px_x s [-] T i (nthv (px_y s) i))) /\
        px_x s' = px_x s [+] eta [*] (VS m (fun i => w i [*] T i (nthv (px_y s) i)) [-] px_x s) /\ px_tr s' = px_tr s ++ [px_x s'])
     (PX y (vmean y) (vmean y) [])) as (st & S0 & _ & _ & HR); [auto| |].
  { intros j s Hs. destruct (Hstep j s Hs) as (s' & H1 & H2 & H3). exists s'. rewrite (H1 (fun _ => 0) 0). auto. }
  set (xs := fun k => px_x (st k)). set (ys := fun k i => nthv (px_y (st k)) i).
  assert (Hmean : forall k, xs k = VS m (fun i => w i [*] ys k i)).
  { induction k as [|k IH].
    - unfold xs, ys. rewrite S0. cbn [px_x px_y]. unfold y. destruct x0 as [x|l].
      + unfold ppxa_ys0. rewrite vmean_common by auto. rewrite (VS_ext m _ (fun i => w i [*] x)) by (intros; rewrite nthv_repeat; auto). rewrite VS_wconst, Sw. vring.
      + unfold y, ppxa_ys0 in *. unfold w, wl in *. destruct Hx0 as [_ ->]. unfold ppxa_weights in *. rewrite vmean_VS, Ly.
        rewrite (VS_ext m (fun i => nthr (repeat (1 / INR m) m) i [*] nthv l i) (fun i => 1 / INR m [*] nthv l i)) by (intros; rewrite nthr_repeat; auto). rewrite VS_scal. f_equal. field.
        assert (0 < INR m) by (apply lt_0_INR; auto). lra.
    - destruct (HR k) as (_ & H2 & H3 & _). change (px_x (st k)) with (xs k) in *. change (px_x (st (S k))) with (xs (S k)) in *. rewrite H3.
      rewrite (VS_ext m (fun i => w i [*] ys (S k) i) (fun i => w i [*] ys k i [+] (w i [*] (eta [*] (2 [*] VS m (fun i => w i [*] T i (ys k i)) [-] xs k)) [-] eta [*] (w i [*] T i (ys k i))))).
      + rewrite VS_add, VS_sub, VS_scal, VS_wconst, Sw, <- IH. unfold ys. vring.
      + intros i Hi. unfold ys at 1. rewrite H2 by auto. unfold ys. vring. }
  destruct (ppxa_cv HB m f w tau eta T xs ys) as (xl & v & Hkk & Hl); auto.
  { intros k i Hi. destruct (HR k) as (_ & H2 & _). apply H2. exact Hi. }
  exists xs, xl. split; [|split; [apply (sum_kkt_min m f xl v Hkk)|exact Hl]]. intros niter amax t.
  destruct (loop_along (ppxa_body os wl tau eta amax (Some t)) st (fun j => amax (xs j [-] xs (j - 1)%nat) < t) (fun j => Rltb (amax (xs (S j) [-] xs j)) t)) with (n := niter) as (k & E1 & Hs).
  { intro j. apply HR. }
  { intro j. rewrite Rltb_true. replace (S j - 1)%nat with j by lia. reflexivity. }
  exists k. split; [|exact Hs]. unfold PPXA. fold m. rewrite ppxa_weights_ok by auto. cbn [bind]. fold wl.
  change (match x0 with Common x => repeat x m | PerFun l => l end) with y. rewrite Lw, Ly, Nat.eqb_refl. cbn [negb andb]. rewrite S0 in E1. rewrite E1. cbn [bind fst]. do 2 f_equal.
  rewrite (trace_seq st px_tr (fun k => px_x (st (S k)))); [|rewrite S0; reflexivity|intro j; apply HR]. rewrite <- seq_shift, map_map. reflexivity.
Qed.

(*! C75_consensus_admm : m >= 1 convex functions, any start and tau > 0, finite dimension, and some point is a solution with
   multipliers: there is one sequence x_0, x_1, ... converging to a minimiser of the sum such that, for every niter and every
   tol, ConsensusADMM returns x_k, where k is the first iteration whose change is below tol (niter if there is none) *)
Lemma C75_consensus_admm_l : forall (E : IPS) (os : list (Op E)) (f : nat -> efun E) x0 tau, bw E -> let m := List.length os in
  impl_all os f -> (forall i, (i < m)%nat -> convex (f i)) -> (0 < m)%nat -> 0 < tau -> (exists xo v, sum_kkt m f xo v) ->
  exists xs xl, (forall niter amax t, exists k, ConsensusADMM os x0 tau niter amax (Some t) = Ok (xs k, map xs (seq 1 k)) /\
       stops_when (fun j => amax (xs j [-] xs (j - 1)%nat) < t) niter k) /\
    is_min (esum m f) xl /\ vcv xs xl.
Proof.
  intros E os f x0 tau HB m Hf Hc Hm Ht Hk. assert (HIm : 0 < INR m) by (apply lt_0_INR; auto).
  set (T := prox_of os (fun _ => tau)).
  assert (HT : forall i z, (i < m)%nat -> is_prox (f i) tau z (T i z)) by (intros i z Hi; apply (prox_of_ok os f (fun _ => tau)); auto).
  assert (Hstep : forall j s, List.length (ca_y s) = m /\ ca_old s = ca_xbar s -> exists s',
     (forall amax t, cadmm_body os tau amax (Some t) j s = Ok (s', Rltb (amax (ca_xbar s' [-] ca_xbar s)) t)) /\ (List.length (ca_y s') = m /\ ca_old s' = ca_xbar s') /\
     ca_xbar s' = / INR m [*] VS m (fun i => T i (ca_xbar s [-] nthv (ca_y s) i)) /\
     (forall i, (i < m)%nat -> nthv (ca_y s') i = nthv (ca_y s) i [+] T i (ca_xbar s [-] nthv (ca_y s) i) [-] ca_xbar s') /\ ca_tr s' = ca_tr s ++ [ca_xbar s']).
  { intros j s [Hly Hold].
    destruct (stack_all_ok os f (map (fun yi => ca_xbar s [-] yi) (ca_y s)) (repeat tau (List.length os)) Hf Hm) as [p [Ep [Hlp Hp]]].
    { rewrite map_length; auto. }
    { apply repeat_length. }
    { intros i Hi. rewrite nthr_repeat; auto. }
    fold m in Hlp. assert (HpT : forall i, (i < m)%nat -> nthv p i = T i (ca_xbar s [-] nthv (ca_y s) i)).
    { intros i Hi. specialize (Hp i Hi). rewrite nthr_repeat in Hp by auto. unfold nthv at 1 in Hp. rewrite (map_nth_lt _ _ _ vzero) in Hp by lia.
      apply (prox_unique (f i) tau (ca_xbar s [-] nthv (ca_y s) i)); auto. }
    eexists. split; [|split; [|split; [|split]]].
    - intros amax t. unfold cadmm_body. rewrite Ep. cbn [bind abs_stop]. rewrite Hold. lazymatch goal with |- Ok (?a, _) = Ok (?e, _) => unify e a end. reflexivity.
    - cbn [ca_y ca_old ca_xbar]. split; [|reflexivity]. rewrite map2_length by lia. exact Hly.
    - cbn [ca_xbar]. rewrite vmean_VS, Hlp. f_equal. apply VS_ext. auto.
    - intros i Hi. cbn [ca_y ca_xbar]. unfold nthv at 1. rewrite (nth_map2 _ _ _ _ vzero vzero) by lia. change (nth i p vzero) with (nthv p i). rewrite HpT by auto. reflexivity.
    - reflexivity. }
  destruct (loop_seq (fun j s => match cadmm_body os tau (fun _ => 0) (Some 0) j s with Ok p => Ok (fst p, false) | Err e => Err e end)
     (fun _ s => List.length (ca_y s) = m /\ ca_old s = ca_xbar s)
     (fun j s s' => (forall amax t, cadmm_body os tau amax (Some t) j s = Ok (s', Rltb (amax (ca_xbar s' [-] ca_xbar s)) t)) /\
        ca_xbar s' = / INR m [*] VS m (fun i => T i (ca_xbar s [-] nthv (ca_y s) i)) /\
        (forall i, (i < m)%nat -> nthv (ca_y s') i = nthv (ca_y s) i [+] T i (ca_xbar s [-] nthv (ca_y s) i) [-] ca_xbar s') /\ ca_tr s' = ca_tr s ++ [ca_xbar s'])
     (CA x0 x0 (repeat vzero m) [])) as (st & S0 & _ & _ & HR); [split; [apply repeat_length|reflexivity]| |].
  { intros j s Hs. destruct (Hstep j s Hs) as (s' & H1 & H2 & H3). exists s'. rewrite (H1 (fun _ => 0) 0). auto. }
  set (xs := fun k => ca_xbar (st k)). set (ys := fun k i => nthv (ca_y (st k)) i).
  assert (HS : forall k, VS m (ys k) = vzero).
  { induction k as [|k IH].
    - rewrite (VS_ext m _ (fun _ => vzero)); [apply VS_zero|]. intros i Hi. unfold ys. rewrite S0. cbn [ca_y]. apply nthv_repeat; auto.
    - destruct (HR k) as (_ & H2 & H3 & _). rewrite (VS_ext m _ (fun i => ys k i [+] T i (xs k [-] ys k i) [-] xs (S k))) by auto.
      rewrite VS_sub, VS_add, VS_const, IH. unfold xs at 2. rewrite H2. unfold xs, ys. vfield. lra. }
  destruct (consensus_cv HB m f tau T xs ys) as (xl & v & Hkk & Hl); auto.
  { intros k i Hi. destruct (HR k) as (_ & _ & H3 & _). apply H3. exact Hi. }
  exists xs, xl. split; [|split; [apply (sum_kkt_min m f xl v Hkk)|exact Hl]]. intros niter amax t.
  destruct (loop_along (cadmm_body os tau amax (Some t)) st (fun j => amax (xs j [-] xs (j - 1)%nat) < t) (fun j => Rltb (amax (xs (S j) [-] xs j)) t)) with (n := niter) as (k & E1 & Hs).
  { intro j. apply HR. }
  { intro j. rewrite Rltb_true. replace (S j - 1)%nat with j by lia. reflexivity. }
  exists k. split; [|exact Hs]. unfold ConsensusADMM. fold m. rewrite S0 in E1. rewrite E1. cbn [bind fst]. do 2 f_equal.
  rewrite (trace_seq st ca_tr (fun k => ca_xbar (st (S k)))); [|rewrite S0; reflexivity|intro j; apply HR]. rewrite <- seq_shift, map_map. reflexivity.
Qed.

(*! C75_gpg : smooth convex f_i (total Lipschitz constant at most L), m >= 1 convex g_j, positive eps_j, admissible weights, no
   acceleration, 0 < eta < 2 - tau L/2, finite dimension, and some point is a solution with multipliers: the vectors returned by
   GeneralizedProximalGradient with niter = 0, 1, 2, ... converge to a minimiser of sum f_i + sum eps_j g_j *)
Lemma C75_gpg_l : forall (E : IPS) (fs gs : list (Op E)) f df L Lt (g : nat -> efun E) x0 tau epsg weights eta accel, bw E ->
  let m := List.length gs in let nf := List.length fs in
  let eps := nthr (gpg_eps epsg m) in let t := match tau with None => 1 | Some t => t end in
  let F := fun x => RS nf (fun i => f i x) in let dF := fun x => VS nf (fun i => df i x) in
  smooth_all fs f df L -> RS nf L <= Lt -> 0 < Lt -> impl_all gs g -> (forall i, (i < m)%nat -> convex (g i)) -> (0 < m)%nat -> 0 < t -> 0 < eta < 2 - t * Lt / 2 ->
  good_weights weights m -> List.length (gpg_eps epsg m) = m -> (forall i, (i < m)%nat -> 0 < eps i) -> accel = None \/ accel = Some "None"%string ->
  (exists xo v, gpg_kkt m g dF eps xo v) ->
  exists xs xl, (forall niter, GeneralizedProximalGradient fs gs x0 tau epsg weights eta niter accel = Ok (xs niter, map xs (seq 1 niter))) /\
    is_min (eadd (etot F) (esum m (fun i => escal (eps i) (g i)))) xl /\ vcv xs xl.
Proof.
  intros E fs gs f df L Lt g x0 tau epsg weights eta accel HB m nf eps t F dF Hf HLt HLp Hg Hc Hm Ht Het Hgw Le He Ha Hk.
  destruct (weights_facts weights m Hm Hgw) as [Lw [Pw Sw]]. set (wl := ppxa_weights weights m) in *. set (w := nthr wl) in *. set (el := gpg_eps epsg m) in *.
  assert (Hsm : smooth_convex F dF Lt).
  { apply (smooth_convex_weaken _ _ (RS nf L)); auto. apply smooth_convex_sum. intros i Hi. destruct (nth_error fs i) as [o|] eqn:Eo.
    - destruct (Hf i o Eo) as [_ [_ [H1 [_ H2]]]]. apply L_smooth_convex; auto.
    - apply nth_error_None in Eo. unfold nf in Hi. lia. }
  assert (Hti : forall i, (i < m)%nat -> 0 < t * eps i / w i) by (intros i Hi; apply Rdiv_lt_0_compat; [apply Rmult_lt_0_compat; auto|auto]).
  set (T := prox_of gs (fun i => t * eps i / w i)).
  assert (HT : forall i z, (i < m)%nat -> is_prox (g i) (t * eps i / w i) z (T i z)) by (intros i z Hi; apply (prox_of_ok gs g (fun i => t * eps i / w i)); auto).
  assert (Ha1 : accel_is accel "fista" = false /\ accel_is accel "vandenberghe" = false /\ accel_known accel = true) by (destruct Ha as [->| ->]; auto). destruct Ha1 as (Ha1 & Ha2 & Ha3).
  destruct (loop_seq (gpg_body fs gs t el wl eta accel) (fun _ s => List.length (gp_zs s) = m /\ gp_y s = gp_x s)
     (fun _ s s' => (forall i, (i < m)%nat -> nthv (gp_zs s') i = nthv (gp_zs s) i [+] eta [*] (T i (2 [*] gp_x s [-] nthv (gp_zs s) i [-] t [*] dF (gp_x s)) [-] gp_x s)) /\
        gp_x s' = VS m (fun i => w i [*] nthv (gp_zs s') i) /\ gp_tr s' = gp_tr s ++ [gp_x s']) (GP x0 x0 (repeat x0 m) 1 [])) as (st & S0 & Hrun & _ & HR); [split; [apply repeat_length|reflexivity]| |].
  { intros j s [Hly Hyx]. unfold gpg_body. rewrite (grad_all_ok fs f df L) by auto. cbn [bind]. fold nf. change (VS nf (fun i => df i (gp_x s))) with (dF (gp_x s)). rewrite Hyx.
    destruct (gpg_zs_ok gs g (gp_x s) (dF (gp_x s)) t eta (gp_zs s) el wl Hg Ht Hly Le Lw He Pw) as [p [zs' [Hl [-> Hp]]]]. cbn [bind]. rewrite Ha1, Ha2. eexists. split; [reflexivity|].
    cbn [gp_zs gp_x gp_y gp_tr fst snd]. fold m in Hl, Hp. split; [split; [|split; reflexivity]|split; [exact Hl|vring]].
    intros i Hi. destruct (Hp i Hi) as [H1 H2]. rewrite H2. f_equal. f_equal. f_equal. apply (prox_unique (g i) (t * eps i / w i) (2 [*] gp_x s [-] nthv (gp_zs s) i [-] t [*] dF (gp_x s))); auto. }
  set (xs := fun k => gp_x (st k)). set (zs := fun k i => nthv (gp_zs (st k)) i).
  assert (Hmean : forall k, xs k = VS m (fun i => w i [*] zs k i)).
  { intros [|k]; [|apply HR]. unfold xs, zs. rewrite S0. cbn [gp_x gp_zs]. rewrite (VS_ext m _ (fun i => w i [*] x0)) by (intros i Hi; rewrite nthv_repeat; auto). rewrite VS_wconst, Sw. vring. }
  destruct (gpg_cv HB m g F dF Lt w eps t eta T xs zs) as (xl & v & Hkk & Hl); auto.
  { intros k i Hi. destruct (HR k) as (H1 & _). apply H1. exact Hi. }
  exists xs, xl. split; [|split; [|exact Hl]].
  - intro n. unfold GeneralizedProximalGradient. fold m. change (match weights with None => repeat (1 / INR m) m | Some w => w end) with wl.
    change (match epsg with [e] => repeat e m | _ => epsg end) with el. rewrite Lw, Nat.eqb_refl.
    assert (Hr : Reqb (Rsum wl) 1 = true) by (apply Reqb_true; rewrite Rsum_RS, Lw; exact Sw). rewrite Hr, Ha3. cbn [andb negb]. fold t. rewrite Hrun. cbn [bind fst]. do 2 f_equal.
    rewrite (trace_seq st gp_tr (fun k => gp_x (st (S k)))); [|rewrite S0; reflexivity|intro j; apply HR]. rewrite <- seq_shift, map_map. reflexivity.
  - destruct Hkk as [Hv Hv0]. assert (Hsg : is_subgrad (esum m (fun i => escal (eps i) (g i))) xl (vopp (dF xl))).
    { replace (vopp (dF xl)) with (VS m (fun i => eps i [*] v i)).
      - apply esum_subgrad. intros i Hi. specialize (He i Hi). change (0 < eps i) in He. apply eq_scal_subgrad; auto. replace (/ eps i [*] (eps i [*] v i)) with (v i) by (vfield; lra). auto.
      - apply vsub_eq. rewrite <- Hv0. vring. }
    destruct Hsg as [Hd Hsub]. split; [split; [exact I|exact Hd]|]. intros z [_ Hz]. specialize (Hsub z Hz). pose proof (proj1 Hsm xl z) as HF. cbn [eval eadd etot] in *. rewrite inner_opp_l in Hsub. lra.
Qed.

Lemma min_half (l : R_IPS) : is_min (eadd (etot (E:=R_IPS) (fun x : R_IPS => 1 / 2 * ((x - 1) * (x - 1)))) (etot (E:=R_IPS) (fun x : R_IPS => 1 / 2 * (x * x)))) l -> l = 1 / 2.
Proof.
  intros [_ H]. specialize (H (1/2) (conj I I)). cbn in H. assert (Hs : (l - 1/2) * (l - 1/2) <= 0) by nra. assert (0 <= (l - 1/2) * (l - 1/2)) by apply Rle_0_sqr.
  assert (Hz : (l - 1/2) * (l - 1/2) = 0) by lra. apply Rmult_integral in Hz. cbn in l. lra.
Qed.

(*!ex C75_example : f = (x-1)^2/2 and g = x^2/2 on the real line, started at 3: the theorems apply, and ADMM, Douglas-Rachford,
   linearised ADMM (A = identity, tau = 1, mu = 1/2), PPXA (weights 1/4, 3/4) and ConsensusADMM all converge to 1/2; ProximalPoint
   on f converges to 1; PrimalDual with g(A x), A = multiplication by 1/2, converges to (4/5, 2/5) *)
Lemma C75_example_l :
  (exists xs zs : nat -> R_IPS, (forall n, exists tr, ADMM shifted1 (quad1 1) None 1 n (Some 3) false = Ok (xs n, zs n, tr)) /\ vcv xs (1/2 : R_IPS) /\ vcv zs (1/2 : R_IPS)) /\
  (exists xs ys : nat -> R_IPS, (forall n, exists tr, DouglasRachford shifted1 (quad1 1) 3 1 1 (S n) true = Ok (xs n, ys n, tr)) /\ vcv xs (1/2 : R_IPS)) /\
  (exists xs zs : nat -> R_IPS, (forall n, exists tr, LinearizedADMM shifted1 (quad1 1) (id_linop R_IPS) (Some 3) 1 (1/2) n None = Ok (xs n, zs n, tr)) /\ vcv xs (1/2 : R_IPS)) /\
  (exists xs : nat -> R_IPS, (forall niter amax t, exists k, PPXA [shifted1; quad1 1] (Common (3 : R_IPS)) 1 1 (Some [1/4; 3/4]) niter amax (Some t) = Ok (xs k, map xs (seq 1 k)) /\
       stops_when (fun j => amax (xs j [-] xs (j - 1)%nat) < t) niter k) /\ vcv xs (1/2 : R_IPS)) /\
  (exists xs : nat -> R_IPS, (forall niter amax t, exists k, ConsensusADMM [shifted1; quad1 1] 3 1 niter amax (Some t) = Ok (xs k, map xs (seq 1 k)) /\
       stops_when (fun j => amax (xs j [-] xs (j - 1)%nat) < t) niter k) /\ vcv xs (1/2 : R_IPS)) /\
  (exists xs : nat -> R_IPS, (forall n, ProximalPoint shifted1 3 1 n None = Ok (xs n, map xs (seq 1 n))) /\ vcv xs (1 : R_IPS)) /\
  (exists xs ys : nat -> R_IPS, (forall n, exists tr, PrimalDual shifted1 half1 (scal_linop R_IPS (1/2)) None 3 (Scalar 1) (Scalar 1) None None 1 n true = Ok (xs n, ys n, tr)) /\ vcv xs (4/5 : R_IPS)).
Proof.
  pose proof (proj1 C75_arrays_l) as HB. pose proof C47_example_l as H0. cbv zeta in H0. destruct H0 as [P1 [P2 [P3 [P4 [K _]]]]].
  pose proof C51_example_l as H1. cbv zeta in H1. destruct H1 as (_ & _ & _ & _ & KA & _).
  pose proof C53_example_l as H2. cbv zeta in H2. destruct H2 as (Q1 & Q2 & Q3 & Q4 & _ & Q6).
  split; [|split; [|split; [|split; [|split; [|split]]]]].
  - destruct (C75_admm_l R_IPS shifted1 (quad1 1) _ _ None (Some 3) 3 3 1 false HB P1 P2 P3 P4 ltac:(lra) eq_refl) as (xs & zs & l & H1 & H2 & H3); [eauto|].
    apply min_half in H2. subst l. exists xs, zs. auto.
  - destruct (C75_douglas_rachford_l R_IPS shifted1 (quad1 1) _ _ 3 1 1 true HB P1 P2 P3 P4 ltac:(lra) ltac:(lra)) as (xs & ys & l & u & H1 & _ & H2 & H3 & _); [eauto|].
    apply min_half in H2. subst l. exists xs, ys. auto.
  - destruct (C75_linearized_admm_l R_IPS R_IPS shifted1 (quad1 1) _ _ (id_linop R_IPS) 1 (1/2) (1/2) (Some 3) None 3 3 HB HB P1 P2 P3 P4 ltac:(lra) ltac:(lra) ltac:(lra)) as (xs & zs & l & H1 & H2 & H3 & _); [intro a; simpl; lra|reflexivity|eauto|].
    apply min_half in H2. subst l. exists xs, zs. auto.
  - destruct (C75_ppxa_l R_IPS [shifted1; quad1 1] (sh_quad 1) (Common (3 : R_IPS)) 1 1 (Some [1/4; 3/4]) HB Q1 Q2 Q3 ltac:(lra) ltac:(lra) Q4 I) as (xs & l & H1 & H2 & H3); [eauto|].
    apply (sh_quad_min 1) in H2; [|lra]. replace (/ (1 + 1)) with (1/2) in H2 by field. rewrite H2 in H3. exists xs. auto.
  - destruct (C75_consensus_admm_l R_IPS [shifted1; quad1 1] (sh_quad 1) 3 1 HB Q1 Q2 Q3 ltac:(lra)) as (xs & l & H1 & H2 & H3); [eauto|].
    apply (sh_quad_min 1) in H2; [|lra]. replace (/ (1 + 1)) with (1/2) in H2 by field. rewrite H2 in H3. exists xs. auto.
  - destruct (C75_proximal_point_l R_IPS shifted1 _ 3 1 HB P1 P3 ltac:(lra)) as (xs & l & H1 & [_ H2] & H3).
    + exists 1. split; [exact I|]. intros y _. cbn. pose proof (Rle_0_sqr (y - 1)). unfold Rsqr in *. lra.
    + specialize (H2 1 I). cbn in H2. assert (Hz : (l - 1) * (l - 1) = 0). { assert (0 <= (l - 1) * (l - 1)) by apply Rle_0_sqr. cbn in l. lra. } apply Rmult_integral in Hz. assert (l = 1) by (cbn in l; lra). subst l. exists xs. auto.
  - pose proof C57_example_l as H4. cbv zeta in H4. destruct H4 as (_ & D2 & _ & D4 & D5 & D6 & _ & D8 & _).
    destruct (C75_primal_dual_l R_IPS R_IPS (scal_linop R_IPS (1/2)) shifted1 half1 _ _ _ None 3 1 1 (1/4) None None true HB HB P1 D2 P3 D4 D5 D6 ltac:(lra) ltac:(lra) ltac:(lra)) as (xs & ys & xl & yl & H1 & _ & [_ H2] & H3 & _).
    + intro a. unfold norm2. cbn. lra.
    + left; reflexivity.
    + exists (4/5), (2/5). exact D8.
    + specialize (H2 (4/5) (conj I I)). cbn in H2. assert (Hz : (xl - 4/5) * (xl - 4/5) = 0). { assert (0 <= (xl - 4/5) * (xl - 4/5)) by apply Rle_0_sqr. cbn in xl. lra. }
      apply Rmult_integral in Hz. assert (xl = 4/5) by (cbn in xl; lra). subst xl. exists xs, ys. auto.
Qed.
