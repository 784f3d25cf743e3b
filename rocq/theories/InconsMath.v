(** * Fixed-point iterations without a fixed point; projections on sets that do not meet *)
From Coq Require Import Psatz Classical.
From Verif Require Import Base Space Spec ConvexFacts Smooth VSum MatFacts M_ProxOp SpecOps SplitMath P_PG P_PG2 P_PG3 P_Multi3 S_Seq Compact Fejer IterMath IterMath2 IterMath3 S_Exist S_Inexact InexactMath S_Count CountMath S_Breg2 S_Noncvx NoncvxMath S_Pnp PnpMath.
From Verif Require Export S_Incons.
Open Scope R_scope.

Section I.
Context {E : IPS} (HB : bw E).
Implicit Types (T : E -> E) (xs : nat -> E).

(** a non-expansive map with a bounded orbit has a fixed point: a limit point of the means *)
Lemma VS_inner m (h : nat -> E) v : << VS m h, v >> = RS m (fun i => << h i, v >>).
Proof. induction m as [|m IH]; cbn [VS RS]; [apply inner_zero_l|]. rewrite inner_add_l, IH. ring. Qed.
Lemma VS_bound m (h : nat -> E) M : (forall i, norm (h i) <= M) -> norm (VS m h) <= INR m * M.
Proof.
  intro H. induction m as [|m IH]; [cbn [VS INR]; rewrite norm_zero; lra|]. cbn [VS]. rewrite S_INR. pose proof (norm_triangle (VS m h) (h m)). specialize (H m). lra.
Qed.
Lemma bounded_orbit_fix T xs M : nonexp T -> (forall k, xs (S k) = T (xs k)) -> (forall k, norm (xs k) <= M) -> exists l, T l = l.
Proof.
  intros HT Hx HM. set (c := fun n => / INR (S n)). assert (Hc : forall n, 0 < c n) by (intro n; apply Rinv_0_lt_compat, lt_0_INR; lia).
  set (z := fun n => c n [*] VS (S n) (fun k => xs (S k))).
  destruct (HB z M) as (l & phi & Hphi & Hl).
  { intro n. unfold z. rewrite norm_scal, Rabs_right by (left; apply Hc). pose proof (VS_bound (S n) (fun k => xs (S k)) M ltac:(intro; apply HM)) as H.
    apply (Rmult_le_compat_l (c n)) in H; [|left; apply Hc]. unfold c in *. rewrite <- Rmult_assoc, Rinv_l, Rmult_1_l in H by (apply not_0_INR; lia). exact H. }
  exists l. set (u := l).
  assert (Hn : forall n, 0 <= c n * norm2 (xs 0%nat [-] u) + (norm2 u - norm2 (T u) - 2 * << z n, u [-] T u >>)).
  { intro n. assert (G : forall m, 0 <= norm2 (xs 0%nat [-] u) - norm2 (xs m [-] u) + RS m (fun k => norm2 u - norm2 (T u) - 2 * << xs (S k), u [-] T u >>)).
    { induction m as [|m IH]; [cbn [RS]; lra|]. cbn [RS]. pose proof (HT (xs m) u) as H. rewrite <- Hx in H. apply norm_le_iff in H.
      assert (Id : norm2 (xs (S m) [-] T u) = norm2 (xs (S m) [-] u) - (norm2 u - norm2 (T u) - 2 * << xs (S m), u [-] T u >>)) by iring. lra. }
    specialize (G (S n)). pose proof (norm2_nonneg (xs (S n) [-] u)).
    assert (Id : RS (S n) (fun k => norm2 u - norm2 (T u) - 2 * << xs (S k), u [-] T u >>) = INR (S n) * (norm2 u - norm2 (T u)) - 2 * << VS (S n) (fun k => xs (S k)), u [-] T u >>).
    { rewrite VS_inner. generalize (S n) as m. induction m as [|m IH]; [cbn [RS INR]; ring|]. cbn [RS]. rewrite S_INR, IH. ring. }
    rewrite Id in G. unfold z. rewrite inner_scal_l. assert (G2 : 0 <= norm2 (xs 0%nat [-] u) + (INR (S n) * (norm2 u - norm2 (T u)) - 2 * << VS (S n) (fun k => xs (S k)), u [-] T u >>)) by lra.
    apply (Rmult_le_compat_l (c n)) in G2; [|left; apply Hc]. rewrite Rmult_0_r in G2. unfold c in *.
    replace (/ INR (S n) * (norm2 (xs 0%nat [-] u) + (INR (S n) * (norm2 u - norm2 (T u)) - 2 * << VS (S n) (fun k => xs (S k)), u [-] T u >>))) with
      (/ INR (S n) * norm2 (xs 0%nat [-] u) + (norm2 u - norm2 (T u) - 2 * (/ INR (S n) * << VS (S n) (fun k => xs (S k)), u [-] T u >>))) in G2 by (field; apply not_0_INR; lia).
    exact G2. }
  assert (Hlim : 0 <= norm2 u - norm2 (T u) - 2 * << u, u [-] T u >>).
  { apply Rnot_lt_le. intro Hneg. set (g := norm2 u - norm2 (T u) - 2 * << u, u [-] T u >>) in *.
    assert (H1 : Un_cv (fun k => << z (phi k), u [-] T u >>) (<< l, u [-] T u >>)) by (apply (vcv_inner (fun k => z (phi k))); exact Hl).
    destruct (H1 (- g / 8) ltac:(lra)) as [N1 HN1].
    destruct (archimed_cor1 (- g / (4 * (norm2 (xs 0%nat [-] u) + 1)))) as (N2 & HN2 & HN20). { pose proof (norm2_nonneg (xs 0%nat [-] u)). apply Rdiv_lt_0_compat; lra. }
    set (k := (N1 + N2)%nat). specialize (HN1 k ltac:(unfold k; lia)). unfold R_dist in HN1. apply Rabs_def2 in HN1. specialize (Hn (phi k)).
    assert (Hck : c (phi k) * (norm2 (xs 0%nat [-] u) + 1) <= - g / 4).
    { pose proof (strict_inc_ge phi Hphi k) as Hge. assert (c (phi k) <= / INR N2). { unfold c. apply Rinv_le_contravar; [apply lt_0_INR; exact HN20|]. apply le_INR. unfold k in *. lia. }
      pose proof (norm2_nonneg (xs 0%nat [-] u)). apply Rle_trans with (/ INR N2 * (norm2 (xs 0%nat [-] u) + 1)); [apply Rmult_le_compat_r; lra|].
      apply (Rmult_lt_compat_r (norm2 (xs 0%nat [-] u) + 1)) in HN2; [|lra]. replace (- g / (4 * (norm2 (xs 0%nat [-] u) + 1)) * (norm2 (xs 0%nat [-] u) + 1)) with (- g / 4) in HN2 by (field; lra). lra. }
    pose proof (Hc (phi k)). fold u in HN1. unfold g in *. nra. }
  replace (norm2 u - norm2 (T u) - 2 * << u, u [-] T u >>) with (- norm2 (T u [-] u)) in Hlim by iring. pose proof (norm2_nonneg (T u [-] u)). apply norm2_sub_eq0. lra.
Qed.

(** a bounded sequence with one limit point converges *)
Lemma one_cluster_cv xs M c : (forall k, norm (xs k) <= M) -> (forall l phi, strict_inc phi -> vcv (fun k => xs (phi k)) l -> l = c) -> vcv xs c.
Proof.
  intros HM Hc eps He. destruct (approach_cluster (fun l => l = c) xs M HB HM) with (eps := eps) as [N HN]; [|exact He|].
  - intros l (phi & H1 & H2). eapply Hc; eauto.
  - exists N. intros k Hk. destruct (HN k Hk) as (y & -> & Hy). exact Hy.
Qed.
End I.

Section Sets.
Context {E : IPS} (HB : bw E) (A B : E -> Prop) (PA PB : E -> E).
Hypothesis HA : convex_set A.
Hypothesis HBc : convex_set B.
Hypothesis HPA : forall x, is_proj A x (PA x).
Hypothesis HPB : forall x, is_proj B x (PB x).

Lemma proj_firm (C : E -> Prop) P : convex_set C -> (forall x, is_proj C x (P x)) -> firm P.
Proof. intros HC HP x y. apply (prox_firm (indic C) 1 x y); [apply indic_convex; exact HC|lra| |]; apply proj_prox; try lra; apply HP. Qed.
Lemma closest_sym a b : closest A B a b -> closest B A b a.
Proof. intros (H1 & H2 & H3). split; [exact H2|]. split; [exact H1|]. intros a' b' Ha' Hb'. rewrite (norm_sub_sym b a), (norm_sub_sym a' b'). apply H3; assumption. Qed.
Lemma closest_proj a b : closest A B a b -> is_proj A b a /\ is_proj B a b.
Proof.
  intros (H1 & H2 & H3). split; split; try assumption; intros y Hy; [apply H3; assumption|]. rewrite (norm_sub_sym b a), (norm_sub_sym y a). apply H3; assumption.
Qed.
Lemma closest_vi a b : closest A B a b -> (forall y, A y -> << b [-] a, y [-] a >> <= 0) /\ forall y, B y -> << a [-] b, y [-] b >> <= 0.
Proof. intro H. destruct (closest_proj a b H) as [H1 H2]. split; [apply (proj_vi A b a HA H1)|apply (proj_vi B a b HBc H2)]. Qed.
Lemma vi_closest a b : A a -> B b -> (forall y, A y -> << b [-] a, y [-] a >> <= 0) -> (forall y, B y -> << a [-] b, y [-] b >> <= 0) -> closest A B a b.
Proof.
  intros Ha Hb H1 H2. split; [exact Ha|]. split; [exact Hb|]. intros a' b' Ha' Hb'. apply norm_le_iff. specialize (H1 a' Ha'). specialize (H2 b' Hb').
  pose proof (norm2_nonneg ((a' [-] b') [-] (a [-] b))) as H. assert (Id : norm2 (a' [-] b' [-] (a [-] b)) = norm2 (a' [-] b') - norm2 (a [-] b) + 2 * (<< b [-] a, a' [-] a >> + << a [-] b, b' [-] b >>)) by iring. lra.
Qed.
Lemma proj_closest a b : is_proj A b a -> is_proj B a b -> closest A B a b.
Proof. intros H1 H2. apply vi_closest; [apply H1|apply H2|apply (proj_vi A b a HA H1)|apply (proj_vi B a b HBc H2)]. Qed.
Lemma gap_unique a b a' b' : closest A B a b -> closest A B a' b' -> b [-] a = b' [-] a'.
Proof.
  intros H H'. destruct (closest_vi a b H) as [V1 V2]. destruct (closest_vi a' b' H') as [V1' V2']. destruct H as (Ha & Hb & Hm). destruct H' as (Ha' & Hb' & Hm').
  specialize (V1 a' Ha'). specialize (V2 b' Hb'). specialize (V1' a Ha). specialize (V2' b Hb). apply norm2_sub_eq0.
  pose proof (norm2_nonneg ((b [-] a) [-] (b' [-] a'))). assert (Id : norm2 (b [-] a [-] (b' [-] a')) = << b [-] a, a' [-] a >> + << a [-] b, b' [-] b >> + << b' [-] a', a [-] a' >> + << a' [-] b', b [-] b' >>) by iring. lra.
Qed.
Lemma PA_ray a b t : closest A B a b -> 0 <= t -> PA (a [+] t [*] (b [-] a)) = a.
Proof.
  intros H Ht. destruct (closest_vi a b H) as [V _]. apply (proj_unique A (a [+] t [*] (b [-] a)) _ _ HA (HPA _)). apply vi_proj; [apply H|]. intros y Hy. specialize (V y Hy).
  replace (a [+] t [*] (b [-] a) [-] a) with (t [*] (b [-] a)) by vring. rewrite inner_scal_l. nra.
Qed.
Lemma PB_ray a b t : closest A B a b -> 0 <= t -> PB (a [-] t [*] (b [-] a)) = b.
Proof.
  intros H Ht. destruct (closest_vi a b H) as [_ V]. apply (proj_unique B (a [-] t [*] (b [-] a)) _ _ HBc (HPB _)). apply vi_proj; [apply H|]. intros y Hy. specialize (V y Hy).
  replace (a [-] t [*] (b [-] a) [-] b) with ((1 + t) [*] (a [-] b)) by vring. rewrite inner_scal_l. nra.
Qed.
Lemma set_limit (C : E -> Prop) P (u : nat -> E) l : convex_set C -> (forall x, is_proj C x (P x)) -> (forall k, C (u k)) -> vcv u l -> C l.
Proof.
  intros HC HP Hu Hl. assert (H : vcv (fun k => P (u k)) (P l)) by (apply (vcv_nonexp P); [apply firm_nonexp, (proj_firm C); assumption|exact Hl]).
  assert (H2 : vcv u (P l)). { eapply vcv_ext; [|exact H]. intro k. cbv beta. apply (proj_of_mem C); [apply Hu|apply HP]. }
  rewrite (vcv_unique u l (P l) Hl H2). apply HP.
Qed.

(** Douglas-Rachford on two sets: the shadows converge to a closest pair, whether or not the sets meet *)
Lemma dr_sets eta ys : 0 < eta < 2 -> (forall k, ys (S k) = DRmap eta PA PB (ys k)) -> (exists a b, closest A B a b) ->
  exists a b, closest A B a b /\ vcv (fun k => PA (ys k)) a /\ vcv (fun k => PB (2 [*] PA (ys k) [-] ys k)) b /\ vcv (fun k => ys (S k) [-] ys k) (eta [*] (b [-] a)) /\
    forall c d n, closest A B c d -> (2 - eta) * eta * RS n (fun k => norm2 ((PB (2 [*] PA (ys k) [-] ys k) [-] PA (ys k)) [-] (d [-] c))) <= norm2 (ys 0%nat [-] c).
Proof.
  intros He Hy (a0 & b0 & Hab). set (v := b0 [-] a0). set (p := fun k => PA (ys k)). set (q := fun k => PB (2 [*] PA (ys k) [-] ys k)).
  assert (Hc : 0 < (2 - eta) / eta) by (apply Rdiv_lt_0_compat; lra).
  assert (Hs : forall k, ys (S k) = ys k [+] eta [*] (q k [-] p k)) by (intro k; apply Hy).
  set (yy := fun a k => a [+] (INR k * eta) [*] v).
  assert (Hpos : forall k, 0 <= INR k * eta) by (intro k; apply Rmult_le_pos; [apply pos_INR|lra]).
  assert (Hray : forall a b k, closest A B a b -> PA (yy a k) = a /\ DRmap eta PA PB (yy a k) = yy a (S k)).
  { intros a b k H. pose proof (gap_unique _ _ _ _ H Hab) as G. fold v in G. unfold yy, DRmap. rewrite <- G, (PA_ray a b _ H (Hpos k)). split; [reflexivity|].
    replace (2 [*] a [-] (a [+] (INR k * eta) [*] (b [-] a))) with (a [-] (INR k * eta) [*] (b [-] a)) by vring. rewrite (PB_ray a b _ H (Hpos k)), S_INR. vring. }
  assert (Hfej : forall a b k, closest A B a b -> norm2 (ys (S k) [-] yy a (S k)) + (2 - eta) * eta * norm2 ((q k [-] p k) [-] v) <= norm2 (ys k [-] yy a k)).
  { intros a b k H. destruct (DRmap_averaged eta PA PB (proj_firm A PA HA HPA) (proj_firm B PB HBc HPB) He) as [_ G]. specialize (G (ys k) (yy a k)).
    destruct (Hray a b k H) as [_ ->] in G. rewrite <- Hy in G. rewrite (Hs k) in G at 2.
    replace (ys k [-] (ys k [+] eta [*] (q k [-] p k)) [-] (yy a k [-] yy a (S k))) with ((- eta) [*] (q k [-] p k [-] v)) in G by (unfold yy; rewrite S_INR; vring).
    replace ((2 - eta) / eta * norm2 ((- eta) [*] (q k [-] p k [-] v))) with ((2 - eta) * eta * norm2 (q k [-] p k [-] v)) in G by (generalize (q k [-] p k [-] v); intro w; iexp; field; lra). exact G. }
  assert (Hc2 : 0 < (2 - eta) * eta) by (apply Rmult_lt_0_compat; lra).
  assert (Hfej0 : forall a b k, closest A B a b -> norm2 (ys (S k) [-] yy a (S k)) <= norm2 (ys k [-] yy a k)).
  { intros a b k H. pose proof (Hfej a b k H). pose proof (norm2_nonneg (q k [-] p k [-] v)). assert (0 <= (2 - eta) * eta * norm2 (q k [-] p k [-] v)) by (apply Rmult_le_pos; lra). lra. }
  assert (Hgap : vcv (fun k => q k [-] p k) v).
  { apply vcv_iff2. apply (drop_vanish (fun k => norm2 (ys k [-] yy a0 k)) _ ((2 - eta) * eta)); [exact Hc2|intro; apply norm2_nonneg|intro; apply norm2_nonneg|]. intro k. apply (Hfej a0 b0 k Hab). }
  set (w := fun k => ys k [-] (INR k * eta) [*] v).
  set (R0 := norm (ys 0%nat [-] a0)).
  assert (Hwb : forall k, norm (w k [-] a0) <= R0).
  { intro k. apply norm_le_of2. replace (w k [-] a0) with (ys k [-] yy a0 k) by (unfold w, yy; vring). replace (ys 0%nat [-] a0) with (ys 0%nat [-] yy a0 0%nat) by (unfold yy; cbn [INR]; vring).
    apply (dec_le (fun k => norm2 (ys k [-] yy a0 k))). intro j. apply (Hfej0 a0 b0 j Hab). }
  assert (Hpb : forall k, norm (p k [-] a0) <= R0).
  { intro k. destruct (Hray a0 b0 k Hab) as [G _]. eapply Rle_trans; [|apply (Hwb k)]. replace (w k [-] a0) with (ys k [-] yy a0 k) by (unfold w, yy; vring). rewrite <- G at 1. apply (firm_nonexp PA (proj_firm A PA HA HPA)). }
  assert (Hb2 : forall (u : nat -> E), (forall k, norm (u k [-] a0) <= R0) -> forall k, norm (u k) <= R0 + norm a0).
  { intros u Hu k. pose proof (norm_triangle (u k [-] a0) a0) as G. replace (u k [-] a0 [+] a0) with (u k) in G by vring. specialize (Hu k). lra. }
  (* limit points of the shadows are closest points *)
  assert (Hclu : forall l phi, strict_inc phi -> vcv (fun k => p (phi k)) l -> closest A B l (l [+] v)).
  { intros l phi Hphi Hl. assert (Al : A l) by (apply (set_limit A PA (fun k => p (phi k)) l HA HPA); [intro k; apply HPA|exact Hl]).
    assert (Bl : B (l [+] v)). { apply (set_limit B PB (fun k => q (phi k)) (l [+] v) HBc HPB); [intro k; apply HPB|]. eapply vcv_ext; [|apply vcv_add; [exact Hl|apply (vcv_sub _ _ phi Hphi Hgap)]]. intro k. cbv beta. vring. }
    split; [exact Al|]. split; [exact Bl|]. intros a' b' Ha' Hb'. replace (l [-] (l [+] v)) with ((-1) [*] v) by vring. rewrite norm_scal, Rabs_left by lra. replace (- -1 * norm v) with (norm v) by ring. unfold v. rewrite norm_sub_sym. apply Hab; assumption. }
  (* the normal-cone inequality *)
  assert (Hnc : forall d e k, closest A B d e -> << w k [-] p k, d [-] p k >> <= 0).
  { intros d e k H. pose proof (gap_unique _ _ _ _ H Hab) as G. fold v in G. destruct (closest_vi d e H) as [V _]. specialize (V (p k) (proj1 (HPA _))). rewrite G in V.
    pose proof (proj_vi A (ys k) (p k) HA (HPA _) d (proj1 H)) as N. assert (Id : << w k [-] p k, d [-] p k >> = << ys k [-] p k, d [-] p k >> + INR k * eta * << v, p k [-] d >>) by (unfold w; iring).
    rewrite Id. specialize (Hpos k). nra. }
  (* one subsequence *)
  destruct (bw_prod E E HB HB (fun k => (p k, w k) : Prod_IPS E E) (2 * (R0 + norm a0))) as ([c wc] & phi & Hphi & Hcw).
  { intro k. pose proof (ExistMath.norm_pair E E (p k) (w k)). pose proof (Hb2 p Hpb k). pose proof (Hb2 w Hwb k). lra. }
  apply (prod_vcv (fun k => (p (phi k), w (phi k)) : Prod_IPS E E)) in Hcw. cbn [fst snd] in Hcw. destruct Hcw as [Hpc Hwc].
  pose proof (Hclu c phi Hphi Hpc) as Hc1. exists c, (c [+] v).
  assert (Hp : vcv p c).
  { apply (one_cluster_cv HB p (R0 + norm a0)); [apply Hb2; exact Hpb|]. intros d psi Hpsi Hpd.
    destruct (HB (fun k => w (psi k)) (R0 + norm a0)) as (wd & chi & Hchi & Hwd); [intro k; apply Hb2; exact Hwb|].
    set (psi' := fun k => psi (chi k)). assert (Hpsi' : strict_inc psi') by (apply (strict_inc_comp psi chi); assumption).
    assert (Hpd' : vcv (fun k => p (psi' k)) d) by (apply (vcv_sub (fun k => p (psi k)) d chi Hchi Hpd)).
    pose proof (Hclu d psi Hpsi Hpd) as Hd1.
    (* |w_k - c|^2 - |w_k - d|^2 has a limit *)
    assert (Hcvg : forall a b, closest A B a b -> exists L, Un_cv (fun k => norm2 (w k [-] a)) L).
    { intros a b H. destruct (decreasing_cv (fun k => norm2 (w k [-] a))) as [L HL].
      - intro k. cbv beta. replace (w (S k) [-] a) with (ys (S k) [-] yy a (S k)) by (unfold w, yy; vring). replace (w k [-] a) with (ys k [-] yy a k) by (unfold w, yy; vring). apply (Hfej0 a b k H).
      - exists 0. intros x (k & ->). unfold opp_seq. pose proof (norm2_nonneg (w k [-] a)). lra.
      - exists L. exact HL. }
    destruct (Hcvg c _ Hc1) as [Lc HLc]. destruct (Hcvg d _ Hd1) as [Ld HLd].
    assert (Hval : forall a b wl om, closest A B a b -> strict_inc om -> vcv (fun k => w (om k)) wl -> forall L, Un_cv (fun k => norm2 (w k [-] a)) L -> norm2 (wl [-] a) = L).
    { intros a b wl om H Hom Hwl L HL. apply (UL_sequence (fun k => norm2 (w (om k) [-] a))).
      - apply (vcv_norm2 (fun k => w (om k) [-] a)). apply (vcv_minus (fun k => w (om k)) (fun _ => a)); [exact Hwl|apply vcv_const].
      - apply (Un_cv_sub _ _ om Hom HL). }
    assert (I1 : norm2 (wc [-] c) - norm2 (wc [-] d) = norm2 (wd [-] c) - norm2 (wd [-] d)).
    { rewrite (Hval c _ wc phi Hc1 Hphi Hwc Lc HLc), (Hval d _ wc phi Hd1 Hphi Hwc Ld HLd), (Hval c _ wd psi' Hc1 Hpsi' Hwd Lc HLc), (Hval d _ wd psi' Hd1 Hpsi' Hwd Ld HLd). reflexivity. }
    assert (Hlim : forall d e c wl om, closest A B d e -> strict_inc om -> vcv (fun k => p (om k)) c -> vcv (fun k => w (om k)) wl -> << wl [-] c, d [-] c >> <= 0).
    { intros d' e' c' wl om H Hom Hpl Hwl.
      assert (G : forall k, norm2 (p (om k) [-] d') + norm2 (w (om k) [-] p (om k)) <= norm2 (w (om k) [-] d')).
      { intro k. pose proof (Hnc d' e' (om k) H) as G. assert (Id : norm2 (w (om k) [-] d') = norm2 (p (om k) [-] d') + norm2 (w (om k) [-] p (om k)) - 2 * << w (om k) [-] p (om k), d' [-] p (om k) >>) by iring. lra. }
      assert (G1 : Un_cv (fun k => norm2 (w (om k) [-] d')) (norm2 (wl [-] d'))) by (apply (vcv_norm2 (fun k => w (om k) [-] d')); apply (vcv_minus (fun k => w (om k)) (fun _ => d')); [exact Hwl|apply vcv_const]).
      assert (G2 : Un_cv (fun k => norm2 (p (om k) [-] d')) (norm2 (c' [-] d'))) by (apply (vcv_norm2 (fun k => p (om k) [-] d')); apply (vcv_minus (fun k => p (om k)) (fun _ => d')); [exact Hpl|apply vcv_const]).
      assert (G3 : Un_cv (fun k => norm2 (w (om k) [-] p (om k))) (norm2 (wl [-] c'))) by (apply (vcv_norm2 (fun k => w (om k) [-] p (om k))); apply (vcv_minus (fun k => w (om k)) (fun k => p (om k))); assumption).
      assert (G4 : norm2 (c' [-] d') + norm2 (wl [-] c') - norm2 (wl [-] d') <= 0).
      { apply (Un_cv_le_lim (fun k => norm2 (p (om k) [-] d') + norm2 (w (om k) [-] p (om k)) - norm2 (w (om k) [-] d'))); [apply CV_minus; [apply CV_plus; assumption|assumption]|]. intro k. specialize (G k). lra. }
      assert (Id : << wl [-] c', d' [-] c' >> = / 2 * (norm2 (c' [-] d') + norm2 (wl [-] c') - norm2 (wl [-] d'))) by (iexp; field). lra. }
    pose proof (Hlim d _ c wc phi Hd1 Hphi Hpc Hwc) as J1. pose proof (Hlim c _ d wd psi' Hc1 Hpsi' Hpd' Hwd) as J2.
    apply norm2_sub_eq0. pose proof (norm2_nonneg (d [-] c)). 
    assert (Id : norm2 (d [-] c) = / 2 * ((norm2 (wd [-] c) - norm2 (wd [-] d)) - (norm2 (wc [-] c) - norm2 (wc [-] d))) + << wc [-] c, d [-] c >> + << wd [-] d, c [-] d >>) by (iexp; field). lra. }
  split; [exact Hc1|]. split; [exact Hp|]. split; [|split].
  - change (vcv q (c [+] v)). eapply vcv_ext; [|apply vcv_add; [exact Hp|exact Hgap]]. intro k. cbv beta. vring.
  - replace (eta [*] (c [+] v [-] c)) with (eta [*] v) by vring. eapply vcv_ext; [|apply (vcv_scal eta); exact Hgap]. intro k. cbv beta. rewrite Hs. vring.
  - intros a b n H. pose proof (gap_unique _ _ _ _ H Hab) as G. fold v in G. rewrite G. change (fun k => norm2 (PB (2 [*] PA (ys k) [-] ys k) [-] PA (ys k) [-] v)) with (fun k => norm2 (q k [-] p k [-] v)).
    assert (K : norm2 (ys n [-] yy a n) + (2 - eta) * eta * RS n (fun k => norm2 (q k [-] p k [-] v)) <= norm2 (ys 0%nat [-] a)).
    { induction n as [|n IH]; [cbn [RS]; unfold yy; cbn [INR]; replace (a [+] (0 * eta) [*] v) with a by vring; lra|]. cbn [RS]. pose proof (Hfej a b n H). lra. }
    pose proof (norm2_nonneg (ys n [-] yy a n)). lra.
Qed.
End Sets.

(** alternating projections *)
Section Alt.
Context {E : IPS} (HB : bw E) (A B : E -> Prop) (PA PB : E -> E).
Hypothesis HA : convex_set A.
Hypothesis HBc : convex_set B.
Hypothesis HPA : forall x, is_proj A x (PA x).
Hypothesis HPB : forall x, is_proj B x (PB x).

Lemma alt_fix a : PA (PB a) = a <-> closest A B a (PB a).
Proof.
  split.
  - intro H. apply (proj_closest A B HA HBc); [rewrite <- H at 2; apply HPA|apply HPB].
  - intro H. destruct (closest_proj A B a (PB a) H) as [H1 _]. apply (proj_unique A (PB a) _ _ HA (HPA _) H1).
Qed.
Lemma closest_PB a b : closest A B a b -> PB a = b.
Proof. intro H. destruct (closest_proj A B a b H) as [_ H1]. apply (proj_unique B a _ _ HBc (HPB _) H1). Qed.
Lemma alt_cv xs : (forall k, xs (S k) = PA (PB (xs k))) -> (exists a b, closest A B a b) -> exists a b, closest A B a b /\ vcv xs a /\ vcv (fun k => PB (xs k)) b.
Proof.
  intros Hx (a & b & Hab). destruct (km_cv HB (1 / 2) (fun x => PA (PB x)) xs) as (l & Fl & Hl); [apply (comp_averaged PB PA); [apply (proj_firm B)|apply (proj_firm A)]; assumption| |exact Hx|].
  - exists a. apply alt_fix. rewrite (closest_PB a b Hab). exact Hab.
  - exists l, (PB l). split; [apply alt_fix; exact Fl|]. split; [exact Hl|]. apply (vcv_nonexp PB); [apply firm_nonexp, (proj_firm B); assumption|exact Hl].
Qed.
(** a closest pair exists as soon as the orbit is bounded, in particular when one of the sets is *)
Lemma alt_bounded xs M : (forall k, xs (S k) = PA (PB (xs k))) -> (forall k, norm (xs k) <= M) -> exists a b, closest A B a b.
Proof.
  intros Hx HM. destruct (bounded_orbit_fix HB (fun x => PA (PB x)) xs M) as [a Ha]; [|exact Hx|exact HM|].
  - intros x y. cbv beta. eapply Rle_trans; [apply (firm_nonexp PA (proj_firm A PA HA HPA))|apply (firm_nonexp PB (proj_firm B PB HBc HPB))].
  - exists a, (PB a). apply alt_fix. exact Ha.
Qed.
Lemma closest_exists_A : bounded_set A -> exists a b, closest A B a b.
Proof.
  intros [M HM]. apply (alt_bounded (fun k => Nat.iter (S k) (fun x => PA (PB x)) vzero) M); [reflexivity|]. intro k. apply HM. cbn [Nat.iter nat_rect]. apply HPA.
Qed.
End Alt.

(** ** many sets, as two sets of the product space *)
Section Fam.
Context {E : IPS} (HB : bw E) (m : nat).

Definition ptab (h : nat -> E) : Pow E m := exist _ (map h (seq 0 m)) (eq_trans (map_length _ _) (seq_length _ _)).
Definition pget (u : Pow E m) (i : nat) : E := nthv (proj1_sig u) i.
Lemma plen (u : Pow E m) : length (proj1_sig u) = m. Proof. apply proj2_sig. Qed.
Lemma pget_ptab h i : (i < m)%nat -> pget (ptab h) i = h i.
Proof. intro Hi. unfold pget, nthv, ptab. cbn [proj1_sig]. rewrite (map_nth_lt _ _ _ 0%nat) by (rewrite seq_length; exact Hi). rewrite seq_nth by exact Hi. reflexivity. Qed.
Lemma pow_ext (u v : Pow E m) : (forall i, (i < m)%nat -> pget u i = pget v i) -> u = v.
Proof. intro H. apply nlist_eq. apply (nth_ext _ _ (vzero : E) (vzero : E)); [rewrite !plen; reflexivity|]. intros i Hi. rewrite plen in Hi. apply (H i Hi). Qed.
Lemma pget_add (u v : Pow E m) i : (i < m)%nat -> pget (u [+] v) i = pget u i [+] pget v i.
Proof. intro Hi. unfold pget, nthv. cbn [vadd Pow proj1_sig]. apply (nth_map2 _ _ _ _ vzero vzero); rewrite !plen; auto. Qed.
Lemma pget_scal c (u : Pow E m) i : (i < m)%nat -> pget (c [*] u) i = c [*] pget u i.
Proof. intro Hi. unfold pget, nthv. cbn [vscal Pow proj1_sig]. apply map_nth_lt. rewrite plen; auto. Qed.
Lemma pget_sub (u v : Pow E m) i : (i < m)%nat -> pget (u [-] v) i = pget u i [-] pget v i.
Proof. intro Hi. unfold vsub. rewrite pget_add by exact Hi. f_equal. apply pget_scal. exact Hi. Qed.
Lemma linner_RS (a b : list E) : length a = length b -> linner a b = RS (length a) (fun i => << nthv a i, nthv b i >>).
Proof.
  revert b. induction a as [|x a IH]; intros [|y b] H; try discriminate; [reflexivity|]. cbn [length]. rewrite RS_shift. cbn [linner nthv nth]. rewrite IH by (injection H; auto). reflexivity.
Qed.
Lemma pow_inner (u v : Pow E m) : << u, v >> = RS m (fun i => << pget u i, pget v i >>).
Proof. cbn [inner Pow]. rewrite linner_RS by (rewrite !plen; reflexivity). rewrite plen. reflexivity. Qed.
Lemma pow_norm2 (u : Pow E m) : norm2 u = RS m (fun i => norm2 (pget u i)).
Proof. unfold norm2. apply pow_inner. Qed.
Lemma pow_vcv (u : nat -> Pow E m) l i : (i < m)%nat -> vcv u l -> vcv (fun k => pget (u k) i) (pget l i).
Proof.
  intros Hi Hl eps He. destruct (Hl eps He) as [N HN]. exists N. intros k Hk. eapply Rle_lt_trans; [|apply (HN k Hk)]. rewrite <- pget_sub by exact Hi. apply sqrt_le_1_alt. fold (norm2 (pget (u k [-] l) i)). fold (norm2 (u k [-] l)). rewrite pow_norm2.
  apply (RS_le_one m (fun i => norm2 (pget (u k [-] l) i))); [intros; apply norm2_nonneg|exact Hi].
Qed.

Variables (w : nat -> R) (C : nat -> E -> Prop) (T : nat -> E -> E).
Hypothesis Hm : (0 < m)%nat.
Hypothesis Hw : forall i, (i < m)%nat -> 0 < w i.
Hypothesis Sw : RS m w = 1.
Hypothesis HC : forall i, (i < m)%nat -> convex_set (C i).
Hypothesis HT : forall i x, (i < m)%nat -> is_proj (C i) x (T i x).
Let s i := sqrt (w i).
Lemma s_pos i : (i < m)%nat -> 0 < s i. Proof. intro Hi. apply sqrt_lt_R0. auto. Qed.
Lemma s_sq i : (i < m)%nat -> s i * s i = w i. Proof. intro Hi. apply sqrt_sqrt. left. auto. Qed.
Definition setC (u : Pow E m) : Prop := forall i, (i < m)%nat -> C i (/ s i [*] pget u i).
Definition setD (u : Pow E m) : Prop := exists x, forall i, (i < m)%nat -> pget u i = s i [*] x.
Definition PC (u : Pow E m) : Pow E m := ptab (fun i => s i [*] T i (/ s i [*] pget u i)).
Definition PD (u : Pow E m) : Pow E m := ptab (fun i => s i [*] VS m (fun j => s j [*] pget u j)).
Lemma setC_convex : convex_set setC.
Proof.
  intros x y t Hx Hy Ht i Hi. rewrite pget_add, !pget_scal by exact Hi. replace (/ s i [*] ((1 - t) [*] pget x i [+] t [*] pget y i)) with ((1 - t) [*] (/ s i [*] pget x i) [+] t [*] (/ s i [*] pget y i)) by vring.
  apply (HC i Hi); auto.
Qed.
Lemma setD_convex : convex_set setD.
Proof. intros x y t [a Ha] [b Hb] Ht. exists ((1 - t) [*] a [+] t [*] b). intros i Hi. rewrite pget_add, !pget_scal, Ha, Hb by exact Hi. vring. Qed.
Lemma PC_proj u : is_proj setC u (PC u).
Proof.
  apply vi_proj.
  - intros i Hi. unfold PC. rewrite pget_ptab by exact Hi. pose proof (s_pos i Hi). replace (/ s i [*] (s i [*] T i (/ s i [*] pget u i))) with (T i (/ s i [*] pget u i)) by (vext v; field; lra). apply HT. exact Hi.
  - intros y Hy. rewrite pow_inner. replace 0 with (RS m (fun _ => 0)) by apply RS_zero. apply RS_le. intros i Hi. rewrite !pget_sub by exact Hi. unfold PC. rewrite !pget_ptab by exact Hi. pose proof (s_pos i Hi) as Hs.
    pose proof (proj_vi (C i) _ _ (HC i Hi) (HT i (/ s i [*] pget u i) Hi) _ (Hy i Hi)) as H. set (p := T i (/ s i [*] pget u i)) in *. set (a := pget u i) in *. set (b := pget y i) in *.
    assert (Id : << a [-] s i [*] p, b [-] s i [*] p >> = s i * s i * << / s i [*] a [-] p, / s i [*] b [-] p >>) by (iexp; field; lra). rewrite Id. assert (0 < s i * s i) by nra. nra.
Qed.
Lemma PD_proj u : is_proj setD u (PD u).
Proof.
  set (x := VS m (fun j => s j [*] pget u j)). apply vi_proj.
  - exists x. intros i Hi. unfold PD. rewrite pget_ptab by exact Hi. reflexivity.
  - intros y [z Hz]. right. rewrite pow_inner. rewrite (RS_ext m _ (fun i => << s i [*] pget u i, z [-] x >> - w i * << x, z [-] x >>)).
    + rewrite RS_sub, <- inner_VS_l, RS_scal_r, Sw. fold x. ring.
    + intros i Hi. rewrite !pget_sub, Hz by exact Hi. unfold PD. rewrite !pget_ptab by exact Hi. fold x. rewrite <- (s_sq i Hi). iring.
Qed.
Lemma norm2_scaled i (x a : E) : (i < m)%nat -> norm2 (s i [*] x [-] s i [*] a) = w i * norm2 (x [-] a).
Proof. intro Hi. rewrite <- (s_sq i Hi). iring. Qed.
Lemma closest_comp u v x : closest setC setD u v -> (forall i, (i < m)%nat -> pget v i = s i [*] x) -> compromise m w C x (fun i => / s i [*] pget u i).
Proof.
  intros (H1 & H2 & H3) Hx. split; [exact H1|]. intros y c Hc. set (c' := ptab (fun i => s i [*] c i)). set (y' := ptab (fun i => s i [*] y)).
  specialize (H3 c' y'). rewrite (norm_sub_sym u v), (norm_sub_sym c' y') in H3. 
  assert (G : norm (v [-] u) <= norm (y' [-] c')). { apply H3. - intros i Hi. unfold c'. rewrite pget_ptab by exact Hi. pose proof (s_pos i Hi). replace (/ s i [*] (s i [*] c i)) with (c i) by (vext z; field; lra). auto. - exists y. intros i Hi. unfold y'. rewrite pget_ptab by exact Hi. reflexivity. }
  apply norm_le_iff in G. rewrite !pow_norm2 in G. rewrite (RS_ext m (fun i => w i * norm2 (x [-] / s i [*] pget u i)) (fun i => norm2 (pget (v [-] u) i))).
  - rewrite (RS_ext m (fun i => w i * norm2 (y [-] c i)) (fun i => norm2 (pget (y' [-] c') i))); [exact G|]. intros i Hi. rewrite pget_sub by exact Hi. unfold y', c'. rewrite !pget_ptab by exact Hi. rewrite norm2_scaled by exact Hi. reflexivity.
  - intros i Hi. rewrite pget_sub, Hx by exact Hi. pose proof (s_pos i Hi). rewrite <- (norm2_scaled i) by exact Hi. f_equal. vext z. field. lra.
Qed.
Lemma comp_closest x a : compromise m w C x a -> closest setC setD (ptab (fun i => s i [*] a i)) (ptab (fun i => s i [*] x)).
Proof.
  intros [H1 H2]. split; [|split].
  - intros i Hi. rewrite pget_ptab by exact Hi. pose proof (s_pos i Hi). replace (/ s i [*] (s i [*] a i)) with (a i) by (vext z; field; lra). auto.
  - exists x. intros i Hi. rewrite pget_ptab by exact Hi. reflexivity.
  - intros u v Hu [y Hy]. specialize (H2 y (fun i => / s i [*] pget u i) Hu). rewrite norm_sub_sym, (norm_sub_sym u v). apply norm_le_iff. rewrite !pow_norm2.
    rewrite (RS_ext m _ (fun i => w i * norm2 (x [-] a i))).
    + rewrite (RS_ext m (fun i => norm2 (pget (v [-] u) i)) (fun i => w i * norm2 (y [-] / s i [*] pget u i))); [exact H2|]. intros i Hi. rewrite pget_sub, Hy by exact Hi. pose proof (s_pos i Hi). rewrite <- (norm2_scaled i) by exact Hi. f_equal. vext z. field. lra.
    + intros i Hi. rewrite pget_sub, !pget_ptab by exact Hi. apply norm2_scaled. exact Hi.
Qed.

Lemma fam_sets eta (xs : nat -> E) (ys : nat -> nat -> E) : 0 < eta < 2 -> (forall k, xs k = VS m (fun i => w i [*] ys k i)) ->
  (forall k i, (i < m)%nat -> ys (S k) i = ys k i [+] eta [*] (2 [*] VS m (fun i => w i [*] T i (ys k i)) [-] xs k [-] T i (ys k i))) -> (exists x a, compromise m w C x a) ->
  exists x a, compromise m w C x a /\ vcv xs x /\ vcv (fun k => VS m (fun i => w i [*] T i (ys k i))) x /\ forall i, (i < m)%nat -> vcv (fun k => T i (ys k i)) (a i).
Proof.
  intros He Hx Hy (x0 & a0 & H0). set (Y := fun k => ptab (fun i => s i [*] ys k i)). set (pn := fun k => VS m (fun i => w i [*] T i (ys k i))).
  assert (E1 : forall k, PC (Y k) = ptab (fun i => s i [*] T i (ys k i))).
  { intro k. apply pow_ext. intros i Hi. unfold PC. rewrite !pget_ptab by exact Hi. unfold Y. rewrite pget_ptab by exact Hi. pose proof (s_pos i Hi). do 2 f_equal. vext z. field. lra. }
  assert (E2 : forall k, PD (2 [*] PC (Y k) [-] Y k) = ptab (fun i => s i [*] (2 [*] pn k [-] xs k))).
  { intro k. unfold PD. apply pow_ext. intros i Hi. rewrite !pget_ptab by exact Hi. f_equal. rewrite (VS_ext m _ (fun j => 2 [*] (w j [*] T j (ys k j)) [-] w j [*] ys k j)).
    - rewrite VS_sub, VS_scal, Hx. reflexivity.
    - intros j Hj. rewrite pget_sub, pget_scal, E1 by exact Hj. unfold Y. rewrite !pget_ptab by exact Hj. rewrite <- (s_sq j Hj). vring. }
  destruct (dr_sets (bw_pow E m HB) setC setD PC PD setC_convex setD_convex PC_proj PD_proj eta Y He) as (u & v & Huv & L1 & L2 & _).
  - intro k. apply pow_ext. intros i Hi. unfold DRmap. rewrite E2, pget_add, pget_scal, pget_sub, E1 by exact Hi. unfold Y. rewrite !pget_ptab by exact Hi. rewrite Hy by exact Hi. fold (pn k). vring.
  - eexists _, _. apply (comp_closest x0 a0 H0).
  - assert (Hv : exists x, forall i, (i < m)%nat -> pget v i = s i [*] x) by apply Huv. destruct Hv as [x Hv]. exists x, (fun i => / s i [*] pget u i). pose proof (closest_comp u v x Huv Hv) as HK.
    assert (La : forall i, (i < m)%nat -> vcv (fun k => T i (ys k i)) (/ s i [*] pget u i)).
    { intros i Hi. eapply vcv_ext; [|apply (vcv_scal (/ s i)); apply (pow_vcv _ _ i Hi L1)]. intro k. cbv beta. rewrite E1, pget_ptab by exact Hi. pose proof (s_pos i Hi). vext z. field. lra. }
    assert (Lq : vcv (fun k => 2 [*] pn k [-] xs k) x).
    { assert (G := vcv_scal (/ s 0%nat) _ _ (pow_vcv _ _ 0%nat Hm L2)). rewrite Hv in G by exact Hm. pose proof (s_pos 0%nat Hm). replace (/ s 0%nat [*] (s 0%nat [*] x)) with x in G by (vext z; field; lra).
      eapply vcv_ext; [|exact G]. intro k. cbv beta. rewrite E2, pget_ptab by exact Hm. vext z. field. lra. }
    assert (Hxa : x = VS m (fun i => w i [*] (/ s i [*] pget u i))).
    { assert (G : PD u = v). { destruct (closest_proj setC setD u v Huv) as [_ G]. apply (proj_unique setD u _ _ setD_convex (PD_proj u) G). }
      apply (f_equal (fun z => / s 0%nat [*] pget z 0%nat)) in G. rewrite Hv in G by exact Hm. unfold PD in G. rewrite pget_ptab in G by exact Hm. pose proof (s_pos 0%nat Hm).
      assert (Q : forall z : E, / s 0%nat [*] (s 0%nat [*] z) = z) by (intro z; vext z'; field; lra). rewrite !Q in G. rewrite <- G. apply VS_ext. intros i Hi. pose proof (s_pos i Hi). rewrite <- (s_sq i Hi). vext z. field. lra. }
    assert (Lp : vcv pn x). { rewrite Hxa. apply (VS_cv m (fun k i => w i [*] T i (ys k i))). intros i Hi. apply vcv_scal. apply La. exact Hi. }
    split; [exact HK|]. split; [|split; [exact Lp|exact La]]. replace x with (2 [*] x [-] x) by vring. eapply vcv_ext; [|apply vcv_minus; [apply (vcv_scal 2); exact Lp|exact Lq]]. intro k. cbv beta. vring.
Qed.

(** a compromise exists when one of the sets is bounded *)
Lemma comp_exists : (exists i, (i < m)%nat /\ bounded_set (C i)) -> exists x a, compromise m w C x a.
Proof.
  intros (i0 & Hi0 & [M HM]). set (Q := fun x => VS m (fun i => w i [*] T i x)). set (F := fun x => RS m (fun i => w i * norm2 (x [-] T i x))).
  assert (HQ : nonexp Q).
  { intros x y. unfold Q. rewrite <- VS_sub. eapply Rle_trans; [apply norm_VS|]. replace (norm (x [-] y)) with (RS m (fun i => w i * norm (x [-] y))) by (rewrite RS_scal_r, Sw; ring). apply RS_le. intros i Hi.
    replace (w i [*] T i x [-] w i [*] T i y) with (w i [*] (T i x [-] T i y)) by vring. specialize (Hw i Hi). rewrite norm_scal, Rabs_right by lra. apply Rmult_le_compat_l; [lra|]. apply (proj_nonexp (C i) x y); auto. }
  assert (Hmean : forall x, RS m (fun i => w i * norm2 (Q x [-] T i x)) <= F x).
  { intro x. unfold F. assert (Id : RS m (fun i => w i * norm2 (x [-] T i x)) = RS m (fun i => w i * norm2 (Q x [-] T i x)) + norm2 (x [-] Q x)).
    { rewrite (RS_ext m _ (fun i => w i * norm2 (Q x [-] T i x) + (w i * (norm2 (x [-] Q x) + 2 * << x [-] Q x, Q x >>) - 2 * << x [-] Q x, w i [*] T i x >>))) by (intros i Hi; iring).
      rewrite RS_add, RS_sub, RS_scal_r, RS_scal, <- inner_VS_r, Sw. fold (Q x). ring. }
    pose proof (norm2_nonneg (x [-] Q x)). lra. }
  assert (Hdec : forall x, F (Q x) <= F x).
  { intro x. eapply Rle_trans; [|apply Hmean]. unfold F. apply RS_le. intros i Hi. apply Rmult_le_compat_l; [left; auto|]. apply norm_le_iff. rewrite (norm_sub_sym (Q x)), (norm_sub_sym (Q x) (T i x)). apply (HT i (Q x) Hi). apply (HT i x Hi). }
  set (xs := fun k => Nat.iter k Q vzero).
  assert (HF : forall k, F (xs k) <= F vzero). { induction k as [|k IH]; [unfold xs; cbn; lra|]. change (xs (S k)) with (Q (xs k)). specialize (Hdec (xs k)). lra. }
  assert (Hb : forall k, norm (xs k) <= M + sqrt (F vzero / w i0)).
  { intro k. pose proof (Hw i0 Hi0) as Hwi. assert (G : w i0 * norm2 (xs k [-] T i0 (xs k)) <= F vzero).
    { eapply Rle_trans; [|apply (HF k)]. apply (RS_le_one m (fun i => w i * norm2 (xs k [-] T i (xs k)))); [|exact Hi0]. intros j Hj. apply Rmult_le_pos; [left; auto|apply norm2_nonneg]. }
    assert (G2 : norm (xs k [-] T i0 (xs k)) <= sqrt (F vzero / w i0)). { apply sqrt_le_1_alt. fold (norm2 (xs k [-] T i0 (xs k))). apply (Rmult_le_reg_l (w i0)); [exact Hwi|]. replace (w i0 * (F vzero / w i0)) with (F vzero) by (field; lra). exact G. }
    pose proof (norm_triangle (xs k [-] T i0 (xs k)) (T i0 (xs k))) as G3. replace (xs k [-] T i0 (xs k) [+] T i0 (xs k)) with (xs k) in G3 by vring. pose proof (HM _ (proj1 (HT i0 (xs k) Hi0))). lra. }
  destruct (bounded_orbit_fix HB Q xs _ HQ ltac:(reflexivity) Hb) as [x Hx].
  set (v := ptab (fun i => s i [*] x)). assert (Hv : forall i, (i < m)%nat -> pget v i = s i [*] x) by (intros i Hi; unfold v; rewrite pget_ptab by exact Hi; reflexivity).
  exists x, (fun i => / s i [*] pget (PC v) i). apply (closest_comp (PC v) v x); [|exact Hv]. apply (proj_closest setC setD setC_convex setD_convex); [apply PC_proj|].
  assert (G : PD (PC v) = v).
  { apply pow_ext. intros i Hi. unfold PD. rewrite pget_ptab, Hv by exact Hi. f_equal. transitivity (Q x); [|exact Hx]. unfold Q. apply VS_ext. intros j Hj. unfold PC. rewrite pget_ptab, Hv by exact Hj. pose proof (s_pos j Hj). rewrite <- (s_sq j Hj).
    replace (/ s j [*] (s j [*] x)) with x by (vext z; field; lra). vring. }
  rewrite <- G at 2. apply PD_proj.
Qed.
End Fam.
