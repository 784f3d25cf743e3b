(** * Proofs about problems without a solution (M_PG.v, M_Split.v, M_Multi.v) *)
From Coq Require Import String Psatz Classical.
From Verif Require Import Base Space Spec VSum Sep ConvexFacts Smooth MatFacts M_ProxOp SpecOps P_ProxOp M_Norms P_Norms M_Loop LoopFacts LoopFacts2 SeqFacts M_PG M_Split M_Multi SplitMath P_PG P_PG2 P_PG3 P_Split P_Split2 P_Multi P_Multi2 P_Multi3 S_Seq Compact Fejer IterMath IterMath2 IterMath3 S_Iter P_Iter P_Iter3 S_Exist S_Inexact InexactMath S_Count CountMath M_L1 P_L1 S_L1 M_Proj S_Sets P_Sets M_Expr S_Expr P_Expr S_Lasso S_Sparse P_Sparse S_PG2 S_Pnp PnpMath P_Pnp InconsMath EscapeMath.
From Verif Require Export S_Incons.
Open Scope result_scope.
Open Scope R_scope.

Lemma proj_map {E : IPS} (o : Op E) C tau : impl_prox o (indic C) -> 0 < tau -> exists P : E -> E, (forall v, o_prox o v tau = Ok (P v)) /\ forall v, is_proj C v (P v).
Proof. intros Ho Ht. destruct (prox_map o (indic C) tau Ho Ht) as (P & H1 & H2). exists P. split; [exact H1|]. intro v. apply (proj_prox C tau); auto. Qed.

Lemma vcv_bounded {E : IPS} (u : nat -> E) l : vcv u l -> exists M, forall n, norm (u n) <= M.
Proof.
  intro H. destruct (H 1 Rlt_0_1) as [N HN]. assert (G : forall k, exists M, forall n, (n < k)%nat -> norm (u n) <= M).
  { induction k as [|k [M IH]]; [exists 0; intros; lia|]. exists (Rmax M (norm (u k))). intros n Hn. destruct (Nat.eq_dec n k) as [->|Hk]; [apply Rmax_r|]. eapply Rle_trans; [apply IH; lia|apply Rmax_l]. }
  destruct (G N) as [M HM]. exists (Rmax M (1 + norm l)). intro n. destruct (Nat.lt_ge_cases n N) as [Hn|Hn]; [eapply Rle_trans; [apply HM; exact Hn|apply Rmax_l]|]. eapply Rle_trans; [|apply Rmax_r].
  specialize (HN n Hn). pose proof (norm_triangle (u n [-] l) l) as G2. replace (u n [-] l [+] l) with (u n) in G2 by vring. lra.
Qed.

Lemma orbit_bounded {E : IPS} (T : E -> E) (xs : nat -> E) s : nonexp T -> (forall k, xs (S k) = T (xs k)) -> T s = s -> exists M, forall k, norm (xs k) <= M.
Proof.
  intros HT Hx Hs. exists (norm (xs 0%nat [-] s) + norm s). intro k. assert (G : norm (xs k [-] s) <= norm (xs 0%nat [-] s)).
  { induction k as [|k IH]; [lra|]. rewrite Hx. rewrite <- Hs at 1. eapply Rle_trans; [apply HT|exact IH]. }
  pose proof (norm_triangle (xs k [-] s) s) as H. replace (xs k [-] s [+] s) with (xs k) in H by vring. lra.
Qed.
Lemma meet_closest {E : IPS} (A B : E -> Prop) a b : closest A B a b -> (a = b <-> exists x, A x /\ B x).
Proof.
  intros (H1 & H2 & H3). split; [intro Hab; exists a; split; [exact H1|rewrite Hab; exact H2]|]. intros (x & Hx1 & Hx2). specialize (H3 x x Hx1 Hx2). rewrite vsub_diag, norm_zero in H3. pose proof (norm_nonneg (a [-] b)).
  apply norm2_sub_eq0. rewrite <- norm_sq. nra.
Qed.
Lemma dr_core {E : IPS} (A B : E -> Prop) (P D : E -> E) eta (ys : nat -> E) : bw E -> convex_set A -> convex_set B -> (forall v, is_proj A v (P v)) -> (forall v, is_proj B v (D v)) -> 0 < eta < 2 -> (exists a b, closest A B a b) ->
  (forall j, ys (S j) = DRmap eta P D (ys j)) ->
  exists a b, closest A B a b /\ vcv (fun j => P (ys j)) a /\ vcv (fun k => D (2 [*] P (ys k) [-] ys k)) b /\ vcv (fun n => ys (S n) [-] ys n) (eta [*] (b [-] a)) /\ ((exists M, forall n, norm (ys n) <= M) <-> exists x, A x /\ B x) /\
    forall c d n, closest A B c d -> (2 - eta) / eta * RS n (fun k => norm2 ((ys (S k) [-] ys k) [-] eta [*] (d [-] c))) <= norm2 (ys 0%nat [-] c).
Proof.
  intros HB HA HBc HP HD He Hab HR. destruct (dr_sets HB A B P D HA HBc HP HD eta ys He HR Hab) as (a & b & H1 & H2 & H3 & H4 & H5). exists a, b. split; [exact H1|]. split; [exact H2|]. split; [exact H3|]. split; [exact H4|]. split.
  - pose proof (averaged_nonexp _ _ (DRmap_averaged eta P D (proj_firm A P HA HP) (proj_firm B D HBc HD) He)) as HN. split.
    + intros [M HM]. destruct (bounded_orbit_fix HB (DRmap eta P D) ys M HN HR HM) as [w Hw]. exists (P w). split; [apply HP|].
      replace (P w) with (D (2 [*] P w [-] w)); [apply HD|]. unfold DRmap in Hw. replace (D (2 [*] P w [-] w)) with (/ eta [*] ((w [+] eta [*] (D (2 [*] P w [-] w) [-] P w)) [-] w) [+] P w) by (vext v; field; lra). rewrite Hw. vring.
    + intros (x & Hx1 & Hx2). apply (orbit_bounded (DRmap eta P D) ys x HN HR). unfold DRmap. rewrite (proj_of_mem A x _ Hx1 (HP x)). replace (2 [*] x [-] x) with x by vring. rewrite (proj_of_mem B x _ Hx2 (HD x)). vring.
  - intros c d n Hcd. specialize (H5 c d n Hcd). rewrite (RS_ext n _ (fun k => eta * eta * norm2 (D (2 [*] P (ys k) [-] ys k) [-] P (ys k) [-] (d [-] c)))).
    + rewrite RS_scal. replace ((2 - eta) / eta * (eta * eta * RS n (fun i => norm2 (D (2 [*] P (ys i) [-] ys i) [-] P (ys i) [-] (d [-] c))))) with ((2 - eta) * eta * RS n (fun i => norm2 (D (2 [*] P (ys i) [-] ys i) [-] P (ys i) [-] (d [-] c)))) by (field; lra). exact H5.
    + intros k Hk. rewrite HR. unfold DRmap. generalize (D (2 [*] P (ys k) [-] ys k)) (P (ys k)). intros q p. iring.
Qed.

(*! C102_douglas_rachford : f and g the projections on two convex sets A and B that need not meet (indicators), in finite dimension, with at least one
   closest pair (a, b); any start, tau > 0, 0 < eta < 2, either order: DouglasRachfordSplitting never raises, its x converges to a closest point
   (of the set projected on first), and its y moves by vectors that converge to eta times the gap b - a between the sets, so that y is bounded
   exactly when the sets meet; after n iterations the mean squared error of these moves is at most eta/(2-eta) |y_0 - c|^2 / n *)
Lemma C102_douglas_rachford_l : forall (E : IPS) (proxf proxg : Op E) A B x0 tau eta (gfirst : bool), bw E ->
  impl_prox proxf (indic A) -> impl_prox proxg (indic B) -> convex_set A -> convex_set B -> 0 < tau -> 0 < eta < 2 -> (exists a b, closest A B a b) ->
  exists xs ys a b, ys 0%nat = x0 /\ (forall n, exists tr, DouglasRachford proxf proxg x0 tau eta (S n) gfirst = Ok (xs n, ys (S n), tr)) /\
    closest A B a b /\ vcv xs (if gfirst then b else a) /\ vcv (fun n => ys (S n) [-] ys n) (eta [*] if gfirst then a [-] b else b [-] a) /\
    ((exists M, forall n, norm (ys n) <= M) <-> exists x, A x /\ B x) /\
    forall c d n, closest A B c d -> (2 - eta) / eta * RS n (fun k => norm2 ((ys (S k) [-] ys k) [-] eta [*] if gfirst then c [-] d else d [-] c)) <= norm2 (x0 [-] if gfirst then d else c).
Proof.
  intros E proxf proxg A B x0 tau eta gfirst HB Hf Hg HA HBc Ht He Hab. destruct (proj_map proxf A tau Hf Ht) as (P & EP & HP). destruct (proj_map proxg B tau Hg Ht) as (D & ED & HD).
  destruct (dr_maps proxf proxg P D tau EP ED x0 eta gfirst) as (xs & ys & Y0 & Hrun & HR). exists xs, ys.
  destruct gfirst.
  - destruct (dr_core B A D P eta ys HB HBc HA HD HP He) as (b & a & H1 & H2 & _ & H4 & H5 & H6); [destruct Hab as (a & b & H); exists b, a; apply closest_sym; exact H|apply HR|].
    exists a, b. split; [exact Y0|]. split; [exact Hrun|]. split; [apply closest_sym; exact H1|]. split; [eapply vcv_ext; [|exact H2]; intro j; cbv beta; symmetry; apply HR|]. split; [exact H4|]. split.
    + rewrite H5. split; intros (x & Hx & Hx'); exists x; auto.
    + intros c d n Hcd. rewrite <- Y0. apply H6. apply closest_sym. exact Hcd.
  - destruct (dr_core A B P D eta ys HB HA HBc HP HD He Hab) as (a & b & H1 & H2 & _ & H4 & H5 & H6); [apply HR|].
    exists a, b. split; [exact Y0|]. split; [exact Hrun|]. split; [exact H1|]. split; [eapply vcv_ext; [|exact H2]; intro j; cbv beta; symmetry; apply HR|]. split; [exact H4|]. split; [exact H5|].
    intros c d n Hcd. rewrite <- Y0. apply H6. exact Hcd.
Qed.

(*! C102_admm : the same two sets: ADMM never raises, and its x and z converge to a closest pair, x in A and z in B from the second iteration on, from
   any start, for any tau > 0 and in either order. Nothing tells the caller whether the sets meet except the distance between x and z *)
Lemma C102_admm_l : forall (E : IPS) (proxf proxg : Op E) A B x0 z0 x z tau (gfirst : bool), bw E ->
  impl_prox proxf (indic A) -> impl_prox proxg (indic B) -> convex_set A -> convex_set B -> 0 < tau -> x0z0_init x0 z0 = Ok (x, z) -> (exists a b, closest A B a b) ->
  exists xs zs a b, (forall n, exists tr, ADMM proxf proxg x0 tau n z0 gfirst = Ok (xs n, zs n, tr)) /\
    closest A B a b /\ vcv xs a /\ vcv zs b /\ forall n, A (xs (S n)) /\ B (zs (S n)).
Proof.
  intros E proxf proxg A B x0 z0 x z tau gfirst HB Hf Hg HA HBc Ht Hi Hab. destruct (proj_map proxf A tau Hf Ht) as (P & EP & HP). destruct (proj_map proxg B tau Hg Ht) as (D & ED & HD).
  destruct (admm_maps proxf proxg P D tau EP ED x0 z0 gfirst x z Hi) as (xs & zs & us & _ & _ & _ & Hrun & HR). exists xs, zs. destruct gfirst.
  - set (ts := fun j => zs (S j) [-] us j).
    assert (HX : forall j, xs (S j) = P (ts j)) by (intro j; destruct (HR j) as (_ & _ & H2); exact H2).
    assert (HZ : forall j, zs (S (S j)) = D (2 [*] P (ts j) [-] ts j)). { intro j. destruct (HR (S j)) as (_ & H1 & _). rewrite H1. f_equal. destruct (HR j) as (U & _ & _). rewrite U, HX. unfold ts. vring. }
    assert (HTs : forall j, ts (S j) = DRmap 1 P D (ts j)). { intro j. unfold DRmap. rewrite <- HZ, <- HX. unfold ts. destruct (HR j) as (U & _ & _). rewrite U. vring. }
    destruct (dr_core A B P D 1 ts HB HA HBc HP HD ltac:(lra) Hab HTs) as (a & b & H1 & H2 & H3 & _). exists a, b. split; [exact Hrun|]. split; [exact H1|]. split; [|split].
    + apply vcv_unshift. eapply vcv_ext; [|exact H2]. intro j. cbv beta. symmetry. apply HX.
    + apply vcv_unshift. apply vcv_unshift. eapply vcv_ext; [|exact H3]. intro j. cbv beta. symmetry. apply HZ.
    + intro n. destruct (HR n) as (_ & -> & ->). split; [apply HP|apply HD].
  - set (ts := fun j => xs (S j) [+] us j).
    assert (HZ : forall j, zs (S j) = D (ts j)) by (intro j; destruct (HR j) as (_ & _ & H2); exact H2).
    assert (HX : forall j, xs (S (S j)) = P (2 [*] D (ts j) [-] ts j)). { intro j. destruct (HR (S j)) as (_ & H1 & _). rewrite H1. f_equal. destruct (HR j) as (U & _ & _). rewrite U, HZ. unfold ts. vring. }
    assert (HTs : forall j, ts (S j) = DRmap 1 D P (ts j)). { intro j. unfold DRmap. rewrite <- HX, <- HZ. unfold ts. destruct (HR j) as (U & _ & _). rewrite U. vring. }
    destruct (dr_core B A D P 1 ts HB HBc HA HD HP ltac:(lra)) as (b & a & H1 & H2 & H3 & _); [destruct Hab as (a & b & H); exists b, a; apply closest_sym; exact H|exact HTs|]. exists a, b. split; [exact Hrun|]. split; [apply closest_sym; exact H1|]. split; [|split].
    + apply vcv_unshift. apply vcv_unshift. eapply vcv_ext; [|exact H3]. intro j. cbv beta. symmetry. apply HX.
    + apply vcv_unshift. eapply vcv_ext; [|exact H2]. intro j. cbv beta. symmetry. apply HZ.
    + intro n. destruct (HR n) as (_ & -> & ->). split; [apply HP|apply HD].
Qed.

(*! C102_hqs : HQS on two sets (alternating projections) never raises; its x and z stay bounded exactly when there is a closest pair, and then
   they converge to one, from any start, for any tau > 0 and in either order *)
Lemma C102_hqs_l : forall (E : IPS) (proxf proxg : Op E) A B x0 z0 x z tau (gfirst : bool), bw E ->
  impl_prox proxf (indic A) -> impl_prox proxg (indic B) -> convex_set A -> convex_set B -> 0 < tau -> x0z0_init x0 z0 = Ok (x, z) ->
  exists xs zs, (forall n, exists tr, HQS proxf proxg x0 [tau] n z0 gfirst = Ok (xs n, zs n, tr)) /\
    ((exists M, forall n, norm (xs n) <= M /\ norm (zs n) <= M) <-> exists a b, closest A B a b) /\
    ((exists a b, closest A B a b) -> exists a b, closest A B a b /\ vcv xs a /\ vcv zs b).
Proof.
  intros E proxf proxg A B x0 z0 x z tau gfirst HB Hf Hg HA HBc Ht Hi. destruct (proj_map proxf A tau Hf Ht) as (P & EP & HP). destruct (proj_map proxg B tau Hg Ht) as (D & ED & HD).
  destruct (hqs_maps proxf proxg P D tau EP ED x0 z0 gfirst x z Hi) as (xs & zs & Hrun & HR). exists xs, zs. split; [exact Hrun|].
  assert (Hcv : (exists a b, closest A B a b) -> exists a b, closest A B a b /\ vcv xs a /\ vcv zs b).
  { intro Hab. destruct gfirst.
    - destruct (alt_cv HB A B P D HA HBc HP HD xs) as (a & b & H1 & H2 & H3); [intro k; destruct (HR k) as [E1 E2]; rewrite E2, E1; reflexivity|exact Hab|].
      exists a, b. split; [exact H1|]. split; [exact H2|]. apply vcv_unshift. eapply vcv_ext; [|exact H3]. intro k. cbv beta. symmetry. apply HR.
    - destruct (alt_cv HB B A D P HBc HA HD HP zs) as (b & a & H1 & H2 & H3); [intro k; destruct (HR k) as [E1 E2]; rewrite E2, E1; reflexivity|destruct Hab as (a & b & H); exists b, a; apply closest_sym; exact H|].
      exists a, b. split; [apply closest_sym; exact H1|]. split; [|exact H2]. apply vcv_unshift. eapply vcv_ext; [|exact H3]. intro k. cbv beta. symmetry. apply HR. }
  split; [|exact Hcv]. split.
  - intros [M HM]. destruct gfirst.
    + apply (alt_bounded HB A B P D HA HBc HP HD xs M); [intro k; destruct (HR k) as [E1 E2]; rewrite E2, E1; reflexivity|intro k; apply HM].
    + destruct (alt_bounded HB B A D P HBc HA HD HP zs M) as (b & a & H); [intro k; destruct (HR k) as [E1 E2]; rewrite E2, E1; reflexivity|intro k; apply HM|]. exists a, b. apply closest_sym. exact H.
  - intro Hab. apply Hcv in Hab. destruct Hab as (a & b & _ & H1 & H2). destruct (vcv_bounded xs a H1) as [M1 HM1]. destruct (vcv_bounded zs b H2) as [M2 HM2].
    exists (Rmax M1 M2). intro n. split; [eapply Rle_trans; [apply HM1|apply Rmax_l]|eapply Rle_trans; [apply HM2|apply Rmax_r]].
Qed.

(*! C102_exists : two convex sets with projections, in finite dimension: a closest pair exists as soon as one of the sets is bounded; the gap b - a is
   the same for all closest pairs; and a = b exactly when the sets meet *)
Lemma C102_exists_l : forall (E : IPS) (proxf proxg : Op E) A B, bw E -> impl_prox proxf (indic A) -> impl_prox proxg (indic B) -> convex_set A -> convex_set B ->
  (bounded_set A \/ bounded_set B -> exists a b, closest A B a b) /\
  (forall a b a' b', closest A B a b -> closest A B a' b' -> b [-] a = b' [-] a') /\
  (forall a b, closest A B a b -> (a = b <-> exists x, A x /\ B x)).
Proof.
  intros E proxf proxg A B HB Hf Hg HA HBc. destruct (proj_map proxf A 1 Hf Rlt_0_1) as (P & _ & HP). destruct (proj_map proxg B 1 Hg Rlt_0_1) as (D & _ & HD). split; [|split].
  - intros [H|H]; [apply (closest_exists_A HB A B P D HA HBc HP HD H)|]. destruct (closest_exists_A HB B A D P HBc HA HD HP H) as (b & a & G). exists a, b. apply closest_sym. exact G.
  - intros a b a' b'. apply gap_unique; assumption.
  - apply meet_closest.
Qed.

(** the recursion that PPXA follows, with the proximal maps as functions *)
Lemma ppxa_seq : forall (E : IPS) (os : list (Op E)) (f : nat -> efun E) x0 tau eta weights,
  let m := List.length os in let w := nthr (ppxa_weights weights m) in let T := prox_of os (fun i => tau / w i) in
  impl_all os f -> (forall i, (i < m)%nat -> convex (f i)) -> (0 < m)%nat -> 0 < tau -> 0 < eta < 2 ->
  good_weights weights m -> ppxa_start_ok x0 weights m ->
  exists (xs : nat -> E) (ys : nat -> nat -> E), (forall k, xs k = VS m (fun i => w i [*] ys k i)) /\
    (forall k i, (i < m)%nat -> ys (S k) i = ys k i [+] eta [*] (2 [*] VS m (fun i => w i [*] T i (ys k i)) [-] xs k [-] T i (ys k i))) /\
    forall niter amax t, exists k, PPXA os x0 tau eta weights niter amax (Some t) = Ok (xs k, map xs (seq 1 k)) /\
       stops_when (fun j => amax (xs j [-] xs (j - 1)%nat) < t) niter k.
Proof.
  intros E os f x0 tau eta weights m w0 T0 Hf Hc Hm Ht He Hg Hx0.
  destruct (weights_facts weights m Hm Hg) as [Lw [Pw Sw]]. set (wl := ppxa_weights weights m) in *. set (w := nthr wl) in *.
  assert (Ly : List.length (ppxa_ys0 x0 m) = m) by (destruct x0; simpl; [apply repeat_length|apply Hx0]).
  set (y := ppxa_ys0 x0 m) in *. set (T := prox_of os (fun i => tau / w i)).
  assert (HT : forall i z, (i < m)%nat -> is_prox (f i) (tau / w i) z (T i z)).
  { intros i z Hi. apply (prox_of_ok os f (fun i => tau / w i)); auto. apply Rdiv_lt_0_compat; auto. }
  assert (Hstep : forall j s, List.length (px_y s) = m /\ px_old s = px_x s -> exists s',
     (forall amax t, ppxa_body os wl tau eta amax (Some t) j s = Ok (s', Rltb (amax (px_x s' [-] px_x s)) t)) /\ (List.length (px_y s') = m /\ px_old s' = px_x s') /\
     (forall i, (i < m)%nat -> nthv (px_y s') i = nthv (px_y s) i [+] eta [*] (2 [*] VS m (fun i => w i [*] T i (nthv (px_y s) i)) [-] px_x s [-] T i (nthv (px_y s) i))) /\
     px_x s' = px_x s [+] eta [*] (VS m (fun i => w i [*] T i (nthv (px_y s) i)) [-] px_x s) /\ px_tr s' = px_tr s ++ [px_x s']).
  { intros j s [Hly Hold].
    destruct (stack_all_ok os f (px_y s) (map (fun a => tau / a) wl) Hf) as [p [Ep [Hlp Hp]]]; auto.
    { rewrite map_length; auto. }
    { intros i Hi. unfold nthr. rewrite (map_nth_lt _ _ _ 0) by (rewrite Lw; auto). apply Rdiv_lt_0_compat; auto. apply Pw; auto. }
    fold m in Hlp. assert (HpT : forall i, (i < m)%nat -> nthv p i = T i (nthv (px_y s) i)).
    { intros i Hi. specialize (Hp i Hi). unfold nthr in Hp. rewrite (map_nth_lt _ _ _ 0) in Hp by (rewrite Lw; auto). change (nth i wl 0) with (w i) in Hp.
      apply (prox_unique (f i) (tau / w i) (nthv (px_y s) i)); auto. apply Rdiv_lt_0_compat; auto. }
    assert (Hws : wsum wl p = VS m (fun i => w i [*] T i (nthv (px_y s) i))). { rewrite wsum_VS by lia. rewrite Hlp. apply VS_ext. intros i Hi. rewrite HpT by auto. reflexivity. }
    eexists. split; [|split; [|split; [|split]]].
    - intros amax t. unfold ppxa_body. rewrite mapM_pydiv by (rewrite Lw; auto). cbn [bind]. rewrite Ep. cbn [bind abs_stop]. rewrite Hold. lazymatch goal with |- Ok (?a, _) = Ok (?e, _) => unify e a end. reflexivity.
    - cbn [px_y px_old px_x]. split; [|reflexivity]. rewrite map2_length by lia. exact Hly.
    - intros i Hi. cbn [px_y]. unfold nthv at 1. rewrite (nth_map2 _ _ _ _ vzero vzero) by lia. rewrite Hws. change (nth i p vzero) with (nthv p i). rewrite HpT by auto. reflexivity.
    - cbn [px_x]. rewrite Hws. reflexivity.
    - reflexivity. }
  destruct (loop_seq (fun j s => match ppxa_body os wl tau eta (fun _ => 0) (Some 0) j s with Ok p => Ok (fst p, false) | Err e => Err e end)
     (fun _ s => List.length (px_y s) = m /\ px_old s = px_x s)
     (fun j s s' => (forall amax t, ppxa_body os wl tau eta amax (Some t) j s = Ok (s', Rltb (amax (px_x s' [-] px_x s)) t)) /\
        (forall i, (i < m)%nat -> nthv (px_y s') i = nthv (px_y s) i [+] eta [*] (2 [*] VS m (fun i => w i [*] T i (nthv (px_y s) i)) [-] px_x s [-] T i (nthv (px_y s) i))) /\
        px_x s' = px_x s [+] eta [*] (VS m (fun i => w i [*] T i (nthv (px_y s) i)) [-] px_x s) /\ px_tr s' = px_tr s ++ [px_x s'])
     (PX y (vmean y) (vmean y) [])) as (st & S0 & _ & _ & HR); [auto| |].
  { intros j s Hs. destruct (Hstep j s Hs) as (s' & H1 & H2 & H3). exists s'. rewrite (H1 (fun _ => 0) 0). auto. }
  set (xs := fun k => px_x (st k)). set (ys := fun k i => nthv (px_y (st k)) i).
  assert (Hmean : forall k, xs k = VS m (fun i => w i [*] ys k i)).
  { induction k as [|k IH].
    - unfold xs, ys. rewrite S0. cbn [px_x px_y]. unfold y. destruct x0 as [x|l].
      + unfold ppxa_ys0. rewrite vmean_common by auto. rewrite (VS_ext m _ (fun i => w i [*] x)) by (intros; rewrite nthv_repeat; auto). rewrite VS_wconst, Sw. vring.
      + unfold y, ppxa_ys0 in *. unfold w, wl in *. destruct Hx0 as [_ ->]. unfold ppxa_weights in *. rewrite vmean_VS, Ly.
        rewrite (VS_ext m (fun i => nthr (repeat (1 / INR m) m) i [*] nthv l i) (fun i => 1 / INR m [*] nthv l i)) by (intros; rewrite nthr_repeat; auto). rewrite VS_scal. f_equal. field.
        assert (0 < INR m) by (apply lt_0_INR; auto). lra.
    - destruct (HR k) as (_ & H2 & H3 & _). change (px_x (st k)) with (xs k) in *. change (px_x (st (S k))) with (xs (S k)) in *. rewrite H3.
      rewrite (VS_ext m (fun i => w i [*] ys (S k) i) (fun i => w i [*] ys k i [+] (w i [*] (eta [*] (2 [*] VS m (fun i => w i [*] T i (ys k i)) [-] xs k)) [-] eta [*] (w i [*] T i (ys k i))))).
      + rewrite VS_add, VS_sub, VS_scal, VS_wconst, Sw, <- IH. unfold ys. vring.
      + intros i Hi. unfold ys at 1. rewrite H2 by auto. unfold ys. vring. }
  exists xs, ys. split; [exact Hmean|]. split; [intros k i Hi; destruct (HR k) as (_ & H2 & _); apply H2; exact Hi|]. intros niter amax t.
  destruct (loop_along (ppxa_body os wl tau eta amax (Some t)) st (fun j => amax (xs j [-] xs (j - 1)%nat) < t) (fun j => Rltb (amax (xs (S j) [-] xs j)) t)) with (n := niter) as (k & E1 & Hs).
  { intro j. apply HR. }
  { intro j. rewrite Rltb_true. replace (S j - 1)%nat with j by lia. reflexivity. }
  exists k. split; [|exact Hs]. unfold PPXA. fold m. rewrite ppxa_weights_ok by auto. cbn [bind]. fold wl.
  change (match x0 with Common x => repeat x m | PerFun l => l end) with y. rewrite Lw, Ly, Nat.eqb_refl. cbn [negb andb]. rewrite S0 in E1. rewrite E1. cbn [bind fst]. do 2 f_equal.
  rewrite (trace_seq st px_tr (fun k => px_x (st (S k)))); [|rewrite S0; reflexivity|intro j; apply HR]. rewrite <- seq_shift, map_map. reflexivity.
Qed.
(** the recursion that ConsensusADMM follows *)
Lemma cadmm_seq : forall (E : IPS) (os : list (Op E)) (f : nat -> efun E) x0 tau, let m := List.length os in let T := prox_of os (fun _ => tau) in
  impl_all os f -> (forall i, (i < m)%nat -> convex (f i)) -> (0 < m)%nat -> 0 < tau ->
  exists (xs : nat -> E) (ys : nat -> nat -> E), (forall k, VS m (ys k) = vzero) /\
    (forall k i, (i < m)%nat -> ys (S k) i = ys k i [+] T i (xs k [-] ys k i) [-] xs (S k)) /\
    (forall k, xs (S k) = / INR m [*] VS m (fun i => T i (xs k [-] ys k i))) /\
    forall niter amax t, exists k, ConsensusADMM os x0 tau niter amax (Some t) = Ok (xs k, map xs (seq 1 k)) /\
       stops_when (fun j => amax (xs j [-] xs (j - 1)%nat) < t) niter k.
Proof.
  intros E os f x0 tau m T0 Hf Hc Hm Ht. assert (HIm : 0 < INR m) by (apply lt_0_INR; auto).
  set (T := prox_of os (fun _ => tau)).
  assert (HT : forall i z, (i < m)%nat -> is_prox (f i) tau z (T i z)) by (intros i z Hi; apply (prox_of_ok os f (fun _ => tau)); auto).
  assert (Hstep : forall j s, List.length (ca_y s) = m /\ ca_old s = ca_xbar s -> exists s',
     (forall amax t, cadmm_body os tau amax (Some t) j s = Ok (s', Rltb (amax (ca_xbar s' [-] ca_xbar s)) t)) /\ (List.length (ca_y s') = m /\ ca_old s' = ca_xbar s') /\
     ca_xbar s' = / INR m [*] VS m (fun i => T i (ca_xbar s [-] nthv (ca_y s) i)) /\
     (forall i, (i < m)%nat -> nthv (ca_y s') i = nthv (ca_y s) i [+] T i (ca_xbar s [-] nthv (ca_y s) i) [-] ca_xbar s') /\ ca_tr s' = ca_tr s ++ [ca_xbar s']).
  { intros j s [Hly Hold].
    destruct (stack_all_ok os f (map (fun yi => ca_xbar s [-] yi) (ca_y s)) (repeat tau (List.length os)) Hf Hm) as [p [Ep [Hlp Hp]]].
    { rewrite map_length; auto. }
    { apply repeat_length. }
    { intros i Hi. rewrite nthr_repeat; auto. }
    fold m in Hlp. assert (HpT : forall i, (i < m)%nat -> nthv p i = T i (ca_xbar s [-] nthv (ca_y s) i)).
    { intros i Hi. specialize (Hp i Hi). rewrite nthr_repeat in Hp by auto. unfold nthv at 1 in Hp. rewrite (map_nth_lt _ _ _ vzero) in Hp by lia.
      apply (prox_unique (f i) tau (ca_xbar s [-] nthv (ca_y s) i)); auto. }
    eexists. split; [|split; [|split; [|split]]].
    - intros amax t. unfold cadmm_body. rewrite Ep. cbn [bind abs_stop]. rewrite Hold. lazymatch goal with |- Ok (?a, _) = Ok (?e, _) => unify e a end. reflexivity.
    - cbn [ca_y ca_old ca_xbar]. split; [|reflexivity]. rewrite map2_length by lia. exact Hly.
    - cbn [ca_xbar]. rewrite vmean_VS, Hlp. f_equal. apply VS_ext. auto.
    - intros i Hi. cbn [ca_y ca_xbar]. unfold nthv at 1. rewrite (nth_map2 _ _ _ _ vzero vzero) by lia. change (nth i p vzero) with (nthv p i). rewrite HpT by auto. reflexivity.
    - reflexivity. }
  destruct (loop_seq (fun j s => match cadmm_body os tau (fun _ => 0) (Some 0) j s with Ok p => Ok (fst p, false) | Err e => Err e end)
     (fun _ s => List.length (ca_y s) = m /\ ca_old s = ca_xbar s)
     (fun j s s' => (forall amax t, cadmm_body os tau amax (Some t) j s = Ok (s', Rltb (amax (ca_xbar s' [-] ca_xbar s)) t)) /\
        ca_xbar s' = / INR m [*] VS m (fun i => T i (ca_xbar s [-] nthv (ca_y s) i)) /\
        (forall i, (i < m)%nat -> nthv (ca_y s') i = nthv (ca_y s) i [+] T i (ca_xbar s [-] nthv (ca_y s) i) [-] ca_xbar s') /\ ca_tr s' = ca_tr s ++ [ca_xbar s'])
     (CA x0 x0 (repeat vzero m) [])) as (st & S0 & _ & _ & HR); [split; [apply repeat_length|reflexivity]| |].
  { intros j s Hs. destruct (Hstep j s Hs) as (s' & H1 & H2 & H3). exists s'. rewrite (H1 (fun _ => 0) 0). auto. }
  set (xs := fun k => ca_xbar (st k)). set (ys := fun k i => nthv (ca_y (st k)) i).
  assert (HS : forall k, VS m (ys k) = vzero).
  { induction k as [|k IH].
    - rewrite (VS_ext m _ (fun _ => vzero)); [apply VS_zero|]. intros i Hi. unfold ys. rewrite S0. cbn [ca_y]. apply nthv_repeat; auto.
    - destruct (HR k) as (_ & H2 & H3 & _). rewrite (VS_ext m _ (fun i => ys k i [+] T i (xs k [-] ys k i) [-] xs (S k))) by auto.
      rewrite VS_sub, VS_add, VS_const, IH. unfold xs at 2. rewrite H2. unfold xs, ys. vfield. lra. }
  exists xs, ys. split; [exact HS|]. split; [intros k i Hi; destruct (HR k) as (_ & _ & H3 & _); apply H3; exact Hi|]. split; [intro k; destruct (HR k) as (_ & H2 & _); exact H2|]. intros niter amax t.
  destruct (loop_along (cadmm_body os tau amax (Some t)) st (fun j => amax (xs j [-] xs (j - 1)%nat) < t) (fun j => Rltb (amax (xs (S j) [-] xs j)) t)) with (n := niter) as (k & E1 & Hs).
  { intro j. apply HR. }
  { intro j. rewrite Rltb_true. replace (S j - 1)%nat with j by lia. reflexivity. }
  exists k. split; [|exact Hs]. unfold ConsensusADMM. fold m. rewrite S0 in E1. rewrite E1. cbn [bind fst]. do 2 f_equal.
  rewrite (trace_seq st ca_tr (fun k => ca_xbar (st (S k)))); [|rewrite S0; reflexivity|intro j; apply HR]. rewrite <- seq_shift, map_map. reflexivity.
Qed.

Lemma fam_proj {E : IPS} (os : list (Op E)) (C : nat -> E -> Prop) s i v : impl_all os (fun i => indic (C i)) -> (i < List.length os)%nat -> 0 < s i -> is_proj (C i) v (prox_of os s i v).
Proof. intros H Hi Hs. apply (proj_prox _ (s i)); [exact Hs|]. apply (prox_of_ok os (fun i => indic (C i)) s); assumption. Qed.

(*! C102_ppxa : m >= 1 convex sets with projections that need not have a common point, admissible weights (given or default), an admissible start, tau > 0,
   0 < eta < 2, finite dimension, and some point has the least weighted sum of squared distances to the sets: PPXA never raises, and the vectors it
   goes through converge to such a point (a common point whenever there is one) *)
Lemma C102_ppxa_l : forall (E : IPS) (os : list (Op E)) (C : nat -> E -> Prop) x0 tau eta weights, bw E ->
  let m := List.length os in let w := nthr (ppxa_weights weights m) in
  impl_all os (fun i => indic (C i)) -> (forall i, (i < m)%nat -> convex_set (C i)) -> (0 < m)%nat -> 0 < tau -> 0 < eta < 2 ->
  good_weights weights m -> ppxa_start_ok x0 weights m -> (exists x a, compromise m w C x a) ->
  exists xs x a, (forall niter amax t, exists k, PPXA os x0 tau eta weights niter amax (Some t) = Ok (xs k, map xs (seq 1 k)) /\
       stops_when (fun j => amax (xs j [-] xs (j - 1)%nat) < t) niter k) /\
    compromise m w C x a /\ vcv xs x.
Proof.
  intros E os C x0 tau eta weights HB m w Io HC Hm Ht He Hg Hs Hco. destruct (weights_facts weights m Hm Hg) as [Lw [Pw Sw]].
  assert (Hcv : forall i, (i < m)%nat -> convex (indic (C i))) by (intros i Hi; apply indic_convex; auto).
  destruct (ppxa_seq E os (fun i => indic (C i)) x0 tau eta weights Io Hcv Hm Ht He Hg Hs) as (xs & ys & H1 & H2 & H3).
  destruct (fam_sets HB m w C (prox_of os (fun i => tau / w i)) Hm Pw Sw HC) with (eta := eta) (xs := xs) (ys := ys) as (x & a & G1 & G2 & _); auto.
  - intros i v Hi. apply (fam_proj os C (fun i => tau / w i)); auto. apply Rdiv_lt_0_compat; auto.
  - exists xs, x, a. auto.
Qed.

(*! C102_consensus : the same sets with equal weights, any start and any tau > 0: ConsensusADMM never raises, and the vectors it goes through converge to a
   point with the least sum of squared distances to the sets *)
Lemma C102_consensus_l : forall (E : IPS) (os : list (Op E)) (C : nat -> E -> Prop) x0 tau, bw E -> let m := List.length os in
  impl_all os (fun i => indic (C i)) -> (forall i, (i < m)%nat -> convex_set (C i)) -> (0 < m)%nat -> 0 < tau -> (exists x a, compromise m (fun _ => 1 / INR m) C x a) ->
  exists xs x a, (forall niter amax t, exists k, ConsensusADMM os x0 tau niter amax (Some t) = Ok (xs k, map xs (seq 1 k)) /\
       stops_when (fun j => amax (xs j [-] xs (j - 1)%nat) < t) niter k) /\
    compromise m (fun _ => 1 / INR m) C x a /\ vcv xs x.
Proof.
  intros E os C x0 tau HB m Io HC Hm Ht Hco. assert (HIm : 0 < INR m) by (apply lt_0_INR; auto).
  assert (Hcv : forall i, (i < m)%nat -> convex (indic (C i))) by (intros i Hi; apply indic_convex; auto).
  destruct (cadmm_seq E os (fun i => indic (C i)) x0 tau Io Hcv Hm Ht) as (xs & ys & H1 & H2 & H3 & H4). fold m in H1, H2, H3, H4. set (T := prox_of os (fun _ => tau)) in *.
  assert (Hpn : forall k, VS m (fun i => 1 / INR m [*] T i (xs k [-] ys k i)) = xs (S k)) by (intro k; rewrite VS_scal, H3; f_equal; field; lra).
  destruct (fam_sets HB m (fun _ => 1 / INR m) C T) with (eta := 1) (xs := xs) (ys := fun k i => xs k [-] ys k i) as (x & a & G1 & G2 & _); auto.
  - intros i Hi. apply Rdiv_lt_0_compat; lra.
  - rewrite RS_const. field. lra.
  - intros i v Hi. apply (fam_proj os C (fun _ => tau)); auto.
  - lra.
  - intro k. rewrite VS_scal, VS_sub, VS_const, H1. vext z. field. lra.
  - intros k i Hi. cbv beta. rewrite Hpn, H2 by exact Hi. vring.
  - exists xs, x, a. auto.
Qed.

(*! C102_compromise : such a point exists as soon as one of the sets is bounded; when the sets have a common point, the points with the least weighted sum of squared distances
   are exactly the common points *)
Lemma C102_compromise_l : forall (E : IPS) (os : list (Op E)) (C : nat -> E -> Prop) (w : nat -> R), bw E -> let m := List.length os in
  impl_all os (fun i => indic (C i)) -> (forall i, (i < m)%nat -> convex_set (C i)) -> (forall i, (i < m)%nat -> 0 < w i) -> RS m w = 1 ->
  ((exists i, (i < m)%nat /\ bounded_set (C i)) -> exists x a, compromise m w C x a) /\
  ((exists q, forall i, (i < m)%nat -> C i q) -> forall x, (exists a, compromise m w C x a) <-> forall i, (i < m)%nat -> C i x).
Proof.
  intros E os C w HB m Io HC Hw Sw. split.
  - apply (comp_exists HB m w C (prox_of os (fun _ => 1))); auto. intros i v Hi. apply (fam_proj os C (fun _ => 1)); auto. lra.
  - intros (q & Hq) x. split.
    + intros (a & Ha & Hmin) i Hi. specialize (Hmin q (fun _ => q) Hq). cbv beta in Hmin. rewrite (RS_ext m (fun i => w i * norm2 (q [-] q)) (fun _ => 0)), RS_zero in Hmin by (intros; rewrite vsub_diag, norm2_zero; ring).
      assert (Hterm : w i * norm2 (x [-] a i) <= RS m (fun i => w i * norm2 (x [-] a i))) by (apply (RS_le_one m (fun i => w i * norm2 (x [-] a i))); [intros j Hj; specialize (Hw j Hj); pose proof (norm2_nonneg (x [-] a j)); nra|exact Hi]).
      specialize (Hw i Hi). pose proof (norm2_nonneg (x [-] a i)). replace x with (a i); [auto|]. symmetry. apply norm2_sub_eq0. nra.
    + intros Hx. exists (fun _ => x). split; [exact Hx|]. intros y c Hc. rewrite (RS_ext m (fun i => w i * norm2 (x [-] x)) (fun _ => 0)), RS_zero by (intros; rewrite vsub_diag, norm2_zero; ring).
      apply RS_nonneg. intros i Hi. specialize (Hw i Hi). pose proof (norm2_nonneg (y [-] c i)). nra.
Qed.

(** the iteration converges to a fixed point, or there is none and the norms tend to infinity *)
Lemma km_cases {E : IPS} (HB : bw E) c (T : E -> E) (xs : nat -> E) : averaged c T -> (forall k, xs (S k) = T (xs k)) -> (exists l, T l = l /\ vcv xs l) \/ ((forall l, T l <> l) /\ escapes xs).
Proof.
  intros HA Hx. destruct (classic (exists l, T l = l)) as [Hl|Hl]; [left; apply (km_cv HB c T xs HA Hl Hx)|]. right. assert (Hn : forall l, T l <> l) by (intros l H; apply Hl; exists l; exact H). split; [exact Hn|].
  destruct (orbit_cases HB T xs (averaged_nonexp c T HA) Hx) as [[l H]|H]; [elim (Hn l H)|exact H].
Qed.
Lemma firm_averaged {E : IPS} (T : E -> E) : firm T -> averaged 1 T.
Proof. intro H. split; [lra|]. intros x y. specialize (H x y). replace (x [-] T x [-] (y [-] T y)) with ((x [-] y) [-] (T x [-] T y)) by vring. generalize dependent (T x [-] T y). generalize (x [-] y). intros v p H. replace (norm2 (v [-] p)) with (norm2 v - 2 * << p, v >> + norm2 p) by iring. lra. Qed.
Lemma pp_maps {E : IPS} (o : Op E) (P : E -> E) x0 tau : (forall v, o_prox o v tau = Ok (P v)) -> exists xs, xs 0%nat = x0 /\ (forall n, ProximalPoint o x0 tau n None = Ok (xs n, map xs (seq 1 n))) /\ forall j, xs (S j) = P (xs j).
Proof.
  intro HP. destruct (loop_seq (pp_body o tau None) (fun _ _ => True) (fun j s s' => pp_x s' = P (pp_x s) /\ pp_tr s' = pp_tr s ++ [pp_x s']) (PP x0 None [])) as (st & S0 & Hrun & _ & HR); [exact I| |].
  { intros j s _. unfold pp_body. rewrite HP. cbn [bind]. eexists. split; [reflexivity|]. cbn [pp_x pp_tr]. auto. }
  exists (fun k => pp_x (st k)). split; [rewrite S0; reflexivity|]. split; [|intro j; apply HR]. intro n. unfold ProximalPoint. rewrite Hrun. cbn [bind fst snd]. do 2 f_equal.
  rewrite (trace_seq st pp_tr (fun k => pp_x (st (S k)))); [|rewrite S0; reflexivity|intro j; apply HR]. rewrite <- seq_shift, map_map. reflexivity.
Qed.

(*! C102_proximal_point : f convex, any x0 and tau > 0, finite dimension, nothing known about minimisers: the vectors returned by ProximalPoint with niter = 0, 1, 2, ...
   either converge to a minimiser, or f has none and their norms tend to infinity; in both cases the values f(x_n) get below f(y) + e for every y and e > 0 *)
Lemma C102_proximal_point_l : forall (E : IPS) (o : Op E) f x0 tau, bw E -> impl_prox o f -> convex f -> 0 < tau ->
  exists xs, (forall n, ProximalPoint o x0 tau n None = Ok (xs n, map xs (seq 1 n))) /\
    ((exists l, is_min f l /\ vcv xs l) \/ ((forall l, ~ is_min f l) /\ escapes xs)) /\
    forall y e, edom f y -> 0 < e -> exists N, forall n, (N <= n)%nat -> edom f (xs n) /\ eval f (xs n) <= eval f y + e.
Proof.
  intros E o f x0 tau HB Ho Hf Ht. destruct (prox_map o f tau Ho Ht) as (P & EP & HP). destruct (pp_maps o P x0 tau EP) as (xs & X0 & Hrun & HR). exists xs. split; [exact Hrun|]. split.
  - destruct (km_cases HB 1 P xs (firm_averaged P (prox_firmly f tau P Hf Ht HP)) HR) as [(l & Hl & Hc)|[Hn He]].
    + left. exists l. split; [|exact Hc]. apply (prox_fix_min f tau l Hf Ht). pose proof (HP l) as H. rewrite Hl in H. exact H.
    + right. split; [|exact He]. intros l Hl. apply (Hn l). apply (prox_unique f tau l _ _ Hf Ht (HP l)). apply (min_prox_fix f tau l Ht Hl).
  - intros y e Hy He. pose proof (norm2_nonneg (x0 [-] y)) as Hd. destruct (archimed_cor1 (e * (2 * tau) / (norm2 (x0 [-] y) + 1))) as (N & HN & HN0); [apply Rdiv_lt_0_compat; [apply Rmult_lt_0_compat; lra|lra]|].
    exists N. intros n Hn. destruct (C40_rate_l E o f x0 tau n Ho Hf Ht ltac:(lia)) as (x & tr & Hok & _ & Hdom & Hrate & _). rewrite Hrun in Hok. injection Hok as Hx Htr. rewrite Hx. split; [exact Hdom|].
    specialize (Hrate y Hy). assert (HNI : 0 < INR N) by (apply lt_0_INR; lia). apply le_INR in Hn.
    assert (Hb : norm2 (x0 [-] y) / (2 * tau * INR n) <= e); [|lra]. apply (Rmult_le_reg_r (2 * tau * INR n)); [apply Rmult_lt_0_compat; lra|]. replace (norm2 (x0 [-] y) / (2 * tau * INR n) * (2 * tau * INR n)) with (norm2 (x0 [-] y)) by (field; split; lra).
    apply (Rmult_lt_compat_r (INR N * (norm2 (x0 [-] y) + 1))) in HN; [|apply Rmult_lt_0_compat; lra]. replace (/ INR N * (INR N * (norm2 (x0 [-] y) + 1))) with (norm2 (x0 [-] y) + 1) in HN by (field; lra).
    replace (e * (2 * tau) / (norm2 (x0 [-] y) + 1) * (INR N * (norm2 (x0 [-] y) + 1))) with (e * (2 * tau * INR N)) in HN by (field; lra). assert (e * (2 * tau * INR N) <= e * (2 * tau * INR n)) by (apply Rmult_le_compat_l; [lra|]; apply Rmult_le_compat_l; lra). lra.
Qed.

(*! C102_proximal_gradient : f convex with L-Lipschitz gradient, g convex, eps > 0, 0 < eta < 2 - tau L/2, fixed step, no acceleration, finite dimension: the vectors returned by
   ProximalGradient with niter = 1, 2, ... either converge to a minimiser of f + eps g, or there is none and their norms tend to infinity *)
Lemma C102_proximal_gradient_l : forall (E : IPS) (proxf proxg : Op E) f df L g eps x0 tau beta eta niterback accel, bw E ->
  smooth_op proxf f df L -> impl_prox proxg g -> convex g -> 0 < eps -> 0 < tau -> 0 < eta < 2 - tau * L / 2 -> unaccelerated accel eta ->
  exists xs, xs 0%nat = x0 /\ (forall n, ProximalGradient proxf proxg x0 [eps] (Some tau) false beta eta (S n) niterback accel None = Ok (xs (S n), map xs (seq 1 (S n)))) /\
    ((exists l, is_min (eadd (etot f) (escal eps g)) l /\ vcv xs l) \/ ((forall l, ~ is_min (eadd (etot f) (escal eps g)) l) /\ escapes xs)).
Proof.
  intros E proxf proxg f df L g eps x0 tau beta eta niterback accel HB [_ [Hgr [Hcv [HL Hsm]]]] Hp Hg He Ht Hn Ha. assert (Het : 0 < eps * tau) by (apply Rmult_lt_0_compat; assumption).
  destruct (prox_map proxg g (eps * tau) Hp Het) as (D & ED & HD). destruct (pg_maps proxf proxg df D eps x0 tau beta eta niterback accel Hgr ED Ha) as (xs & X0 & Hrun & HR). exists xs. split; [exact X0|]. split; [exact Hrun|].
  destruct (km_cases HB _ _ xs (pgmap_averaged f df L tau eta D Hcv HL Hsm Ht Hn (prox_firmly g (eps * tau) D Hg Het HD)) HR) as [(l & Hl & Hc)|[Hno Hes]].
  - left. exists l. split; [|exact Hc]. apply (pg_fix_min f df L g l eps tau); auto. pose proof (HD (l [-] tau [*] df l)) as H.
    replace (D (l [-] tau [*] df l)) with l in H; [exact H|]. cbv beta in Hl. replace (D (l [-] tau [*] df l)) with (l [+] / eta [*] ((l [+] eta [*] (D (l [-] tau [*] df l) [-] l)) [-] l)) by (vext z; field; lra). rewrite Hl. vring.
  - right. split; [|exact Hes]. intros l Hl. apply (Hno l). cbv beta. apply (pg_fix_min f df L g l eps tau) in Hl; auto. rewrite (prox_unique g (eps * tau) _ _ _ Hg Het (HD (l [-] tau [*] df l)) Hl). vring.
Qed.

Lemma dr_fix_shadow {E : IPS} (P D : E -> E) eta w : 0 < eta -> DRmap eta P D w = w -> D (2 [*] P w [-] w) = P w.
Proof. intros He Hw. unfold DRmap in Hw. replace (D (2 [*] P w [-] w)) with (/ eta [*] ((w [+] eta [*] (D (2 [*] P w [-] w) [-] P w)) [-] w) [+] P w) by (vext v; field; lra). rewrite Hw. vring. Qed.
Lemma dr_cases {E : IPS} (HB : bw E) (f g : efun E) tau eta (P D : E -> E) xs ys : convex f -> convex g -> 0 < tau -> 0 < eta < 2 -> (forall v, is_prox f tau v (P v)) -> (forall v, is_prox g tau v (D v)) ->
  (forall j, xs j = P (ys j) /\ ys (S j) = DRmap eta P D (ys j)) ->
  (exists l u, kkt f g l u /\ vcv xs l /\ vcv ys (l [+] tau [*] u)) \/ ((forall l u, ~ kkt f g l u) /\ escapes ys).
Proof.
  intros Hf Hg Ht He HP HD HR. pose proof (prox_firmly f tau P Hf Ht HP) as FP. pose proof (prox_firmly g tau D Hg Ht HD) as FD.
  destruct (km_cases HB _ _ ys (DRmap_averaged eta P D FP FD He) ltac:(intro k; apply HR)) as [(w & Hw & Hc)|[Hno Hes]].
  - left. pose proof (dr_fix_shadow P D eta w ltac:(lra) Hw) as Hs. exists (P w), (/ tau [*] (w [-] P w)). split; [|split].
    + pose proof (HD (2 [*] P w [-] w)) as H. rewrite Hs in H. pose proof (dr_fix_kkt g f tau w (P w) Hg Hf Ht (HP w) H) as K. destruct K as [K1 K2]. split.
      * replace (/ tau [*] (w [-] P w)) with (vopp (/ tau [*] (P w [-] w))) by vring. exact K2.
      * replace (vopp (/ tau [*] (w [-] P w))) with (/ tau [*] (P w [-] w)) by vring. exact K1.
    + eapply vcv_ext; [intro k; symmetry; apply HR|]. apply (vcv_nonexp P _ _ (firm_nonexp P FP) Hc).
    + replace (P w [+] tau [*] (/ tau [*] (w [-] P w))) with w by (vext z; field; lra). exact Hc.
  - right. split; [|exact Hes]. intros l u [K1 K2]. apply (Hno (l [+] tau [*] u)).
    destruct (kkt_dr_fix g f tau l (vopp u) Ht) as [H1 H2]; [split; [exact K2|replace (vopp (vopp u)) with u by vring; exact K1]|]. replace (l [-] tau [*] vopp u) with (l [+] tau [*] u) in * by vring.
    unfold DRmap. rewrite (prox_unique f tau _ _ _ Hf Ht (HP _) H1), (prox_unique g tau _ _ _ Hg Ht (HD _) H2). vring.
Qed.

(*! C102_dr_cases : f and g convex, 0 < eta < 2, tau > 0, any start, either order, finite dimension: DouglasRachfordSplitting either returns an x that converges to a minimiser l of f + g
   (and a y that converges to l - tau u or l + tau u, u a subgradient of f at l with -u one of g), or there is no solution with a multiplier and the norm of y tends to infinity *)
Lemma C102_dr_cases_l : forall (E : IPS) (proxf proxg : Op E) f g x0 tau eta (gfirst : bool), bw E ->
  impl_prox proxf f -> impl_prox proxg g -> convex f -> convex g -> 0 < tau -> 0 < eta < 2 ->
  exists xs ys, (forall n, exists tr, DouglasRachford proxf proxg x0 tau eta (S n) gfirst = Ok (xs n, ys (S n), tr)) /\
    ((exists l u, kkt f g l u /\ is_min (eadd f g) l /\ vcv xs l /\ vcv ys (if gfirst then l [-] tau [*] u else l [+] tau [*] u)) \/
     ((forall l u, ~ kkt f g l u) /\ escapes ys)).
Proof.
  intros E proxf proxg f g x0 tau eta gfirst HB Hpf Hpg Hf Hg Ht He. destruct (prox_map proxf f tau Hpf Ht) as (P & EP & HP). destruct (prox_map proxg g tau Hpg Ht) as (D & ED & HD).
  destruct (dr_maps proxf proxg P D tau EP ED x0 eta gfirst) as (xs & ys & _ & Hrun & HR). exists xs, ys. split; [exact Hrun|]. destruct gfirst.
  - destruct (dr_cases HB g f tau eta D P xs ys Hg Hf Ht He HD HP HR) as [(l & u & K & H1 & H2)|[H1 H2]].
    + left. exists l, (vopp u). assert (K' : kkt f g l (vopp u)) by (destruct K as [K1 K2]; split; [exact K2|replace (vopp (vopp u)) with u by vring; exact K1]). split; [exact K'|]. split; [apply (kkt_min f g l _ K')|]. split; [exact H1|].
      replace (l [-] tau [*] vopp u) with (l [+] tau [*] u) by vring. exact H2.
    + right. split; [|exact H2]. intros l u [K1 K2]. apply (H1 l (vopp u)). split; [exact K2|replace (vopp (vopp u)) with u by vring; exact K1].
  - destruct (dr_cases HB f g tau eta P D xs ys Hf Hg Ht He HP HD HR) as [(l & u & K & H1 & H2)|H]; [|right; exact H]. left. exists l, u. split; [exact K|]. split; [apply (kkt_min f g l u K)|]. auto.
Qed.

(*! C102_hqs_cases : f and g convex, tau > 0, any start, either order, finite dimension: the x and z returned by HQS either converge to a pair minimising f(x) + g(z) + |x-z|^2/(2 tau),
   or there is no such pair and the norms of both tend to infinity *)
Lemma C102_hqs_cases_l : forall (E : IPS) (proxf proxg : Op E) f g x0 z0 x z tau (gfirst : bool), bw E ->
  impl_prox proxf f -> impl_prox proxg g -> convex f -> convex g -> 0 < tau -> x0z0_init x0 z0 = Ok (x, z) ->
  exists xs zs, (forall n, exists tr, HQS proxf proxg x0 [tau] n z0 gfirst = Ok (xs n, zs n, tr)) /\
    ((exists a b, hqs_min f g tau a b /\ vcv xs a /\ vcv zs b) \/ ((forall a b, ~ hqs_min f g tau a b) /\ escapes xs /\ escapes zs)).
Proof.
  intros E proxf proxg f g x0 z0 x z tau gfirst HB Hpf Hpg Hf Hg Ht Hi. destruct (prox_map proxf f tau Hpf Ht) as (P & EP & HP). destruct (prox_map proxg g tau Hpg Ht) as (D & ED & HD).
  pose proof (prox_firmly f tau P Hf Ht HP) as FP. pose proof (prox_firmly g tau D Hg Ht HD) as FD.
  destruct (hqs_maps proxf proxg P D tau EP ED x0 z0 gfirst x z Hi) as (xs & zs & Hrun & HR). exists xs, zs. split; [exact Hrun|].
  assert (Hfx : forall a, P (D a) = a -> hqs_min f g tau a (D a)). { intros a Ha. apply hqs_min_fix; auto. split; [apply HD|]. pose proof (HP (D a)) as H. rewrite Ha in H. exact H. }
  assert (Hfz : forall b, D (P b) = b -> hqs_min f g tau (P b) b). { intros b Hb. apply hqs_min_fix; auto. split; [|apply HP]. pose proof (HD (P b)) as H. rewrite Hb in H. exact H. }
  assert (Hmin : forall a b, hqs_min f g tau a b -> D a = b /\ P b = a). { intros a b H. apply hqs_min_fix in H as [H1 H2]; auto. split; [apply (prox_unique g tau a _ _ Hg Ht (HD a) H1)|apply (prox_unique f tau b _ _ Hf Ht (HP b) H2)]. }
  assert (Hshift : forall u : nat -> E, escapes (fun k => u (S k)) -> escapes u). { intros u H M. destruct (H M) as [N HN]. exists (S N). intros [|n] Hn; [lia|]. apply HN. lia. }
  destruct gfirst.
  - destruct (km_cases HB _ _ xs (comp_averaged D P FD FP)) as [(a & Ha & Hc)|[Hno Hes]]; [intro k; destruct (HR k) as [E1 E2]; rewrite E2, E1; reflexivity| |].
    + left. exists a, (D a). split; [apply Hfx; exact Ha|]. split; [exact Hc|]. apply vcv_unshift. eapply vcv_ext; [intro k; symmetry; apply HR|]. apply (vcv_nonexp D _ _ (firm_nonexp D FD) Hc).
    + right. split; [intros a b H; apply Hmin in H as [H1 H2]; apply (Hno a); rewrite H1; exact H2|]. split; [exact Hes|]. apply Hshift.
      destruct (km_cases HB _ _ (fun k => zs (S k)) (comp_averaged P D FP FD)) as [(b & Hb & _)|[_ H]]; [intro k; cbv beta; destruct (HR (S k)) as [E1 _]; destruct (HR k) as [_ E2]; rewrite E1, E2; reflexivity| |exact H].
      cbv beta in Hb. elim (Hno (P b)). rewrite Hb. reflexivity.
  - destruct (km_cases HB _ _ zs (comp_averaged P D FP FD)) as [(b & Hb & Hc)|[Hno Hes]]; [intro k; destruct (HR k) as [E1 E2]; rewrite E2, E1; reflexivity| |].
    + left. exists (P b), b. split; [apply Hfz; exact Hb|]. split; [|exact Hc]. apply vcv_unshift. eapply vcv_ext; [intro k; symmetry; apply HR|]. apply (vcv_nonexp P _ _ (firm_nonexp P FP) Hc).
    + right. split; [intros a b H; apply Hmin in H as [H1 H2]; apply (Hno b); rewrite H2; exact H1|]. split; [|exact Hes]. apply Hshift.
      destruct (km_cases HB _ _ (fun k => xs (S k)) (comp_averaged D P FD FP)) as [(a & Ha & _)|[_ H]]; [intro k; cbv beta; destruct (HR (S k)) as [E1 _]; destruct (HR k) as [_ E2]; rewrite E1, E2; reflexivity| |exact H].
      cbv beta in Ha. elim (Hno (D a)). rewrite Ha. reflexivity.
Qed.

Lemma projects_impl {E : IPS} (o : Op E) acc (C : E -> Prop) : projects (o_prox o) acc C -> convex_set C /\ impl_prox o (indic C).
Proof. intros (Hc & _ & P & H1 & H2 & _). split; [exact Hc|]. intros x tau Ht. exists (P x). split; [apply H1; exact Ht|]. apply (proj_prox C tau); [exact Ht|apply H2]. Qed.
Lemma affine_impl {E F : IPS} (o : Op E) (A : linop E F) b : is_affine o A b -> convex_set (fun x => A x = b) /\ impl_prox o (indic (fun x => A x = b)).
Proof.
  intros (close & cg & Hc & ->). destruct (expr_good 0 E (XAffine E F close cg A b) Hc) as (o & B & _ & Hi & _). cbn [build] in B. injection B as <-. split; [|exact Hi].
  intros x y t Hx Hy _. rewrite lapp_add, !lapp_scal, Hx, Hy. vring.
Qed.
Lemma box_impl {n} (o : Op (Vec n)) (lu : nlist bounds n) : is_box o lu -> Forall bounds_ok (proj1_sig lu) -> convex_set (box_set lu) /\ impl_prox o (indic (box_set lu)).
Proof. intros -> Hok. apply (projects_impl _ (yes (obj 2 (box_body lu)))). apply (proj1 (C67_projections_l 1) n lu Hok). Qed.
Lemma ball_impl {E : IPS} (o : Op E) c r : is_ball o c r -> 0 < r -> convex_set (fun x => norm (x [-] c) <= r) /\ impl_prox o (indic (fun x => norm (x [-] c) <= r)).
Proof. intros -> Hr. apply (projects_impl _ (yes (obj 2 (ball_body c r)))). apply (proj1 (proj2 (proj2 (C67_projections_l 1))) E c r Hr). Qed.
Lemma box_bounded {n} (lu : nlist bounds n) : Forall finite_bounds (proj1_sig lu) -> bounded_set (box_set lu).
Proof.
  intro Hf. exists (RS n (fun i => match nth i (proj1_sig lu) (None, None) with (Some l, Some u) => Rabs l + Rabs u | _ => 0 end)). intros x Hx. eapply Rle_trans; [apply norm_le_sum_abs|]. apply RS_le. intros i Hi.
  rewrite box_entries in Hx. specialize (Hx i Hi). rewrite Forall_forall in Hf. destruct (Hf (nth i (proj1_sig lu) (None, None))) as (l & u & El & Hlu); [apply nth_In; rewrite (proj2_sig lu); exact Hi|].
  rewrite El in *. destruct Hx as [H1 H2]. specialize (H1 l eq_refl). specialize (H2 u eq_refl). unfold Rabs. repeat destruct (Rcase_abs _); lra.
Qed.
Lemma finite_ok {n} (lu : nlist bounds n) : Forall finite_bounds (proj1_sig lu) -> Forall bounds_ok (proj1_sig lu).
Proof. apply Forall_impl. intros c (l & u & -> & H) l' u' E. injection E as <- <-. exact H. Qed.
Lemma ball_bounded {E : IPS} (c : E) r : bounded_set (fun x => norm (x [-] c) <= r).
Proof. exists (r + norm c). intros x Hx. pose proof (norm_triangle (x [-] c) c) as H. replace (x [-] c [+] c) with x in H by vring. lra. Qed.

Lemma finds {E : IPS} (proxf proxg : Op E) A B : bw E -> convex_set A /\ impl_prox proxf (indic A) -> convex_set B /\ impl_prox proxg (indic B) -> (exists a b, closest A B a b) -> finds_closest proxf proxg A B.
Proof.
  intros HB [HA Hf] [HBc Hg] Hab x0 z0 x z tau eta gfirst Hi Ht He. split; [|split].
  - destruct (C102_admm_l E proxf proxg A B x0 z0 x z tau gfirst HB Hf Hg HA HBc Ht Hi Hab) as (xs & zs & a & b & H1 & H2 & H3 & H4 & _). exists xs, zs, a, b. auto.
  - destruct (C102_hqs_l E proxf proxg A B x0 z0 x z tau gfirst HB Hf Hg HA HBc Ht Hi) as (xs & zs & H1 & _ & H2). destruct (H2 Hab) as (a & b & H3 & H4). exists xs, zs, a, b. auto.
  - destruct (C102_douglas_rachford_l E proxf proxg A B x tau eta gfirst HB Hf Hg HA HBc Ht He Hab) as (xs & ys & a & b & _ & H1 & H2 & H3 & _). exists xs, (fun n => ys (S n)), a, b. auto.
Qed.

(*! C102_library : f = AffineSet(A, b) (inner solver exact) or any projection on a convex set, g = Box with finite bounds (real vectors) or EuclideanBall with positive radius (any finite-dimensional
   arrays), and nothing assumed about a point satisfying both constraints: ADMM, HQS and DouglasRachfordSplitting find a closest pair from every start *)
Lemma C102_library_l :
  (forall n (F : IPS) (A : linop (Vec n) F) b f g lu, is_affine f A b -> is_box g lu -> Forall finite_bounds (proj1_sig lu) -> finds_closest f g (fun x => A x = b) (box_set lu)) /\
  (forall (E F : IPS) (A : linop E F) b f g c r, bw E -> is_affine f A b -> is_ball g c r -> 0 < r -> finds_closest f g (fun x => A x = b) (fun x => norm (x [-] c) <= r)) /\
  (forall n (C : Vec n -> Prop) f g lu, impl_prox f (indic C) -> convex_set C -> is_box g lu -> Forall finite_bounds (proj1_sig lu) -> finds_closest f g C (box_set lu)) /\
  (forall (E : IPS) (C : E -> Prop) f g c r, bw E -> impl_prox f (indic C) -> convex_set C -> is_ball g c r -> 0 < r -> finds_closest f g C (fun x => norm (x [-] c) <= r)).
Proof.
  assert (G1 : forall n (C : Vec n -> Prop) f g lu, impl_prox f (indic C) -> convex_set C -> is_box g lu -> Forall finite_bounds (proj1_sig lu) -> finds_closest f g C (box_set lu)).
  { intros n C f g lu Hf HC Hg Hlu. destruct (box_impl g lu Hg (finite_ok lu Hlu)) as [H1 H2]. pose proof (proj1 (proj2 C75_arrays_l) n) as HB. apply finds; auto.
    apply (C102_exists_l (Vec n) f g C (box_set lu) HB Hf H2 HC H1). right. apply box_bounded. exact Hlu. }
  assert (G2 : forall (E : IPS) (C : E -> Prop) f g c r, bw E -> impl_prox f (indic C) -> convex_set C -> is_ball g c r -> 0 < r -> finds_closest f g C (fun x => norm (x [-] c) <= r)).
  { intros E C f g c r HB Hf HC Hg Hr. destruct (ball_impl g c r Hg Hr) as [H1 H2]. apply finds; auto. apply (C102_exists_l E f g C _ HB Hf H2 HC H1). right. apply ball_bounded. }
  split; [|split; [|split; assumption]].
  - intros n F A b f g lu Hf Hg Hlu. destruct (affine_impl f A b Hf). apply G1; auto.
  - intros E F A b f g c r HB Hf Hg Hr. destruct (affine_impl f A b Hf). apply G2; auto.
Qed.

Lemma lo_iff (x : Vec 1) : box_set lo_box x <-> 0 <= get x 0 <= 1.
Proof. rewrite box_entries. split; [intro H; destruct (H 0%nat ltac:(lia)) as [H1 H2]; split; [apply H1; reflexivity|apply H2; reflexivity]|]. intros [H1 H2] i Hi. replace i with 0%nat by lia. split; intros c Hc; injection Hc as <-; assumption. Qed.
Lemma hi_iff (x : Vec 1) : box_set hi_box x <-> 2 <= get x 0 <= 3.
Proof. rewrite box_entries. split; [intro H; destruct (H 0%nat ltac:(lia)) as [H1 H2]; split; [apply H1; reflexivity|apply H2; reflexivity]|]. intros [H1 H2] i Hi. replace i with 0%nat by lia. split; intros c Hc; injection Hc as <-; assumption. Qed.
Lemma vec1_ext (x y : Vec 1) : get x 0 = get y 0 -> x = y.
Proof. intro H. apply vec_ext. intros i Hi. replace i with 0%nat by lia. exact H. Qed.
Lemma vec1_norm2 (x : Vec 1) : norm2 x = get x 0 * get x 0.
Proof. unfold norm2. rewrite vec_inner. cbn [RS]. ring. Qed.
Lemma vec1_norm (x : Vec 1) : norm x = Rabs (get x 0).
Proof. unfold norm. rewrite vec1_norm2. apply sqrt_Rsqr_abs. Qed.
Lemma pt_get a : get (pt a) 0 = a. Proof. reflexivity. Qed.
Lemma pt_closest a b : closest (box_set lo_box) (box_set hi_box) a b -> a = pt 1 /\ b = pt 2.
Proof.
  intros (H1 & H2 & H3). apply lo_iff in H1. apply hi_iff in H2. specialize (H3 (pt 1) (pt 2) ltac:(apply lo_iff; rewrite pt_get; lra) ltac:(apply hi_iff; rewrite pt_get; lra)).
  rewrite !vec1_norm, !get_sub, !pt_get in H3 by lia. assert (H : get b 0 - get a 0 <= 1). { rewrite <- Rabs_Ropp in H3. rewrite (Rabs_left (1 - 2)) in H3 by lra. pose proof (Rle_abs (- (get a 0 - get b 0))). lra. }
  split; apply vec1_ext; rewrite pt_get; lra.
Qed.
Lemma two_sets (C : nat -> Vec 1 -> Prop) w x a : C 0%nat = box_set lo_box -> C 1%nat = box_set hi_box -> w 0%nat = 1 / 2 -> w 1%nat = 1 / 2 -> compromise 2 w C x a -> x = pt (3 / 2).
Proof.
  intros C0 C1 W0 W1 [Ha Hm]. pose proof (Ha 0%nat ltac:(lia)) as A0. pose proof (Ha 1%nat ltac:(lia)) as A1. rewrite C0 in A0. rewrite C1 in A1. apply lo_iff in A0. apply hi_iff in A1.
  specialize (Hm (pt (3 / 2)) (fun i => match i with O => pt 1 | _ => pt 2 end)). cbn [RS] in Hm. rewrite W0, W1, !vec1_norm2, !get_sub, !pt_get in Hm by lia.
  assert (Hc : forall i, (i < 2)%nat -> C i (match i with O => pt 1 | _ => pt 2 end)). { intros [|[|i]] Hi; [rewrite C0; apply lo_iff; rewrite pt_get; lra|rewrite C1; apply hi_iff; rewrite pt_get; lra|lia]. }
  specialize (Hm Hc). apply vec1_ext. rewrite pt_get. generalize dependent (get x 0). generalize dependent (get (a 0%nat) 0). generalize dependent (get (a 1%nat) 0). intros q Hq p Hp s Hm.
  assert (H1 : (s - p) * (s - p) + (s - q) * (s - q) <= 1 / 2) by lra. assert (H2 : (s - p - (q - s)) * (s - p - (q - s)) <= 0) by nra. assert (H3 : s - p - (q - s) = 0) by nra. assert (H4 : s - p = q - s) by lra. assert (H5 : 1 / 2 <= s - p) by lra. assert (H6 : s - p <= 1 / 2) by nra. lra.
Qed.

(*! C102_settled_refuted : "when the iterates settle down, they have settled on a solution" is false: for f = Box(0, 1) and g = Box(2, 3) on arrays with one entry, no point satisfies both constraints, yet, from every
   start and for every tau > 0, the x of ADMM and of HQS converge to 1 and the z to 2 (either order), and PPXA (any 0 < eta < 2) and ConsensusADMM converge to 3/2, which is in neither set *)
Lemma C102_settled_refuted_l : let f := obj 2 (box_body lo_box) in let g := obj 2 (box_body hi_box) in
  (forall x : Vec 1, ~ (box_set lo_box x /\ box_set hi_box x)) /\
  forall (x0 : Vec 1) tau eta (gfirst : bool), 0 < tau -> 0 < eta < 2 ->
    (exists xs zs, (forall n, exists tr, ADMM f g (Some x0) tau n None gfirst = Ok (xs n, zs n, tr)) /\ vcv xs (pt 1) /\ vcv zs (pt 2)) /\
    (exists xs zs, (forall n, exists tr, HQS f g (Some x0) [tau] n None gfirst = Ok (xs n, zs n, tr)) /\ vcv xs (pt 1) /\ vcv zs (pt 2)) /\
    (exists xs, (forall niter amax t, exists k, PPXA [f; g] (Common x0) tau eta None niter amax (Some t) = Ok (xs k, map xs (seq 1 k)) /\ stops_when (fun j => amax (xs j [-] xs (j - 1)%nat) < t) niter k) /\ vcv xs (pt (3 / 2))) /\
    (exists xs, (forall niter amax t, exists k, ConsensusADMM [f; g] x0 tau niter amax (Some t) = Ok (xs k, map xs (seq 1 k)) /\ stops_when (fun j => amax (xs j [-] xs (j - 1)%nat) < t) niter k) /\ vcv xs (pt (3 / 2))).
Proof.
  intros f g. assert (F1 : Forall finite_bounds (proj1_sig lo_box)) by (constructor; [exists 0, 1; split; [reflexivity|lra]|constructor]). assert (F2 : Forall finite_bounds (proj1_sig hi_box)) by (constructor; [exists 2, 3; split; [reflexivity|lra]|constructor]).
  destruct (box_impl f lo_box eq_refl (finite_ok lo_box F1)) as [A1 A2]. destruct (box_impl g hi_box eq_refl (finite_ok hi_box F2)) as [B1 B2]. pose proof (proj1 (proj2 C75_arrays_l) 1%nat) as HB.
  split; [intros x [H1 H2]; apply lo_iff in H1; apply hi_iff in H2; lra|]. intros x0 tau eta gfirst Ht He.
  destruct (proj1 (proj2 (proj2 C102_library_l)) 1%nat (box_set lo_box) f g hi_box A2 A1 eq_refl F2 (Some x0) None x0 x0 tau eta gfirst eq_refl Ht He) as ((xs & zs & a & b & R1 & R2 & R3 & R4) & (xs' & zs' & a' & b' & S1 & S2 & S3 & S4) & _).
  destruct (pt_closest a b R2) as [-> ->]. destruct (pt_closest a' b' S2) as [-> ->]. split; [exists xs, zs; auto|]. split; [exists xs', zs'; auto|].
  set (C := fun i => match i with O => box_set lo_box | _ => box_set hi_box end).
  assert (Io : impl_all [f; g] (fun i => indic (C i))). { intros [|[|i]] o Eo; cbn [nth_error] in Eo; [injection Eo as <-; exact A2|injection Eo as <-; exact B2|destruct i; discriminate Eo]. }
  assert (HC : forall i, (i < 2)%nat -> convex_set (C i)) by (intros [|[|i]] Hi; [exact A1|exact B1|lia]).
  assert (HW : forall i, (i < 2)%nat -> 0 < 1 / 2) by (intros; lra).
  assert (Hco : forall w, w 0%nat = 1 / 2 -> w 1%nat = 1 / 2 -> exists x a, compromise 2 w C x a).
  { intros w W0 W1. apply (proj1 (C102_compromise_l (Vec 1) [f; g] C w HB Io HC ltac:(intros [|[|i]] Hi; [rewrite W0; lra|rewrite W1; lra|cbn in Hi; lia]) ltac:(cbn [List.length RS]; rewrite W0, W1; lra))). exists 0%nat. split; [cbn; lia|]. apply box_bounded. exact F1. }
  assert (I2 : INR 2 = 2) by (cbn; lra). split.
  - assert (W0 : nthr (ppxa_weights None 2) 0 = 1 / 2) by (cbn; lra). assert (W1 : nthr (ppxa_weights None 2) 1 = 1 / 2) by (cbn; lra).
    destruct (C102_ppxa_l (Vec 1) [f; g] C (Common x0) tau eta None HB Io HC ltac:(cbn; lia) Ht He I I (Hco _ W0 W1)) as (us & x & c & U1 & U2 & U3). rewrite (two_sets C _ x c eq_refl eq_refl W0 W1 U2) in U3. exists us. auto.
  - assert (W0 : 1 / INR 2 = 1 / 2) by (rewrite I2; reflexivity).
    destruct (C102_consensus_l (Vec 1) [f; g] C x0 tau HB Io HC ltac:(cbn; lia) Ht (Hco (fun _ => 1 / INR 2) W0 W0)) as (us & x & c & U1 & U2 & U3). rewrite (two_sets C (fun _ => 1 / INR 2) x c eq_refl eq_refl W0 W0 U2) in U3. exists us. auto.
Qed.

(*!ex C102_example : f(x) = x on the real line: the operator meets the hypotheses, f has no minimiser, and ProximalPoint from x0 returns x0 - n tau after n iterations; two boxes that do not meet have the closest pair (1, 2)
   and the point 3/2 with the least sum of squared distances *)
Lemma C102_example_l : impl_prox lin1 (etot (E:=R_IPS) (fun x : R_IPS => x)) /\ convex (etot (E:=R_IPS) (fun x : R_IPS => x)) /\ (forall l, ~ is_min (etot (E:=R_IPS) (fun x : R_IPS => x)) l) /\
  (forall (x0 tau : R) n, exists tr, ProximalPoint lin1 (x0 : R_IPS) tau n None = Ok (x0 - INR n * tau, tr)) /\
  closest (box_set lo_box) (box_set hi_box) (pt 1) (pt 2) /\ compromise 2 (fun _ => 1 / 2) (fun i => match i with O => box_set lo_box | _ => box_set hi_box end) (pt (3 / 2)) (fun i => match i with O => pt 1 | _ => pt 2 end).
Proof.
  split; [|split; [|split; [|split; [|split]]]].
  - intros x tau Ht. exists (x - tau). split; [reflexivity|]. split; [exact I|]. intros y _. cbn [eval etot]. unfold norm2. cbn. cbn in x, y. assert (Hi : 0 < / (2 * tau)) by (apply Rinv_0_lt_compat; lra).
    apply (Rmult_le_reg_r (2 * tau)); [lra|]. rewrite !Rmult_plus_distr_r. rewrite !(Rmult_comm (/ (2 * tau))), !Rmult_assoc, Rinv_l by lra. pose proof (Rle_0_sqr (y - x + tau)). unfold Rsqr in *. lra.
  - intros x y t _ _ Ht. split; [exact I|]. cbn. lra.
  - intros l [_ H]. specialize (H (l - 1) I). cbn in H. cbn in l. lra.
  - intros x0 tau n. destruct (pp_maps lin1 (fun x : R_IPS => (x - tau : R_IPS)) x0 tau ltac:(intro v; reflexivity)) as (xs & X0 & Hrun & HR). exists (map xs (seq 1 n)). rewrite Hrun. do 2 f_equal.
    induction n as [|n IH]; [rewrite X0; cbn; ring|]. rewrite HR, IH, S_INR. cbn. ring.
  - split; [apply lo_iff; rewrite pt_get; lra|]. split; [apply hi_iff; rewrite pt_get; lra|]. intros a b Ha Hb. apply lo_iff in Ha. apply hi_iff in Hb. rewrite !vec1_norm, !get_sub, !pt_get by lia. rewrite (Rabs_left (1 - 2)), (Rabs_left (get a 0 - get b 0)) by lra. lra.
  - split; [intros [|[|i]] Hi; [apply lo_iff; rewrite pt_get; lra|apply hi_iff; rewrite pt_get; lra|lia]|]. intros y c Hc. pose proof (Hc 0%nat ltac:(lia)) as A0. pose proof (Hc 1%nat ltac:(lia)) as A1. apply lo_iff in A0. apply hi_iff in A1.
    cbn [RS]. rewrite !vec1_norm2, !get_sub, !pt_get by lia. generalize dependent (get (c 0%nat) 0). generalize dependent (get (c 1%nat) 0). generalize (get y 0). intros s q Hq p Hp. pose proof (Rle_0_sqr (s - p - (q - s))). unfold Rsqr in *. nra.
Qed.
