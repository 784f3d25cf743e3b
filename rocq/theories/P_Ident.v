(** * ProximalGradient with L1 or Box finds the zeros and the active bounds in finitely many iterations (M_PG.v, M_L1.v) *)
From Coq Require Import String Psatz.
From Verif Require Import Base Space Spec ConvexFacts Smooth VSum MatFacts Sep M_ProxOp SpecOps P_ProxOp M_Norms P_Norms M_L1 M_L2 P_L1 P_L2 P_L21 M_Objs S_L1 S_Lasso P_Lasso M_Loop LoopFacts SeqFacts M_PG SplitMath P_PG P_PG2 P_PG3 S_PG2 S_Seq Compact Fejer CountMath S_Iter P_Iter P_Iter2 P_Iter3 M_Proj P_Proj P_Count P_Pnp S_Sparse P_Sparse P_Denoise.
From Verif Require Export S_Ident.
Open Scope result_scope.
Open Scope R_scope.

Lemma norm_le_norm2 {E : IPS} (a b : E) : norm a <= norm b -> norm2 a <= norm2 b.
Proof. intro H. rewrite <- !norm_sq. pose proof (norm_nonneg a). apply Rmult_le_compat; auto. Qed.
Lemma Rabs_le_between a b : Rabs a <= b -> - b <= a <= b.
Proof. unfold Rabs. destruct (Rcase_abs a); lra. Qed.

Lemma dist2_entries n (x y : Vec n) : norm2 (x [-] y) = RS n (fun i => (get x i - get y i) * (get x i - get y i)).
Proof. rewrite vec_norm2. apply RS_ext. intros i Hi. rewrite get_sub by auto. reflexivity. Qed.

(** marked iterations, each of which decreases D by c, are few *)
Lemma marked_count (D : nat -> R) (c : R) (b : nat -> bool) : (forall j, 0 <= D j) -> (forall j, D (S j) <= D j) -> (forall j, b j = true -> D (S j) + c <= D j) ->
  forall k, RS k (fun j => if b j then 1 else 0) * c <= D 0%nat.
Proof.
  intros H0 H1 H2. assert (G : forall k, RS k (fun j => if b j then 1 else 0) * c + D k <= D 0%nat).
  { induction k as [|k IH]; cbn [RS]; [lra|]. specialize (H1 k). specialize (H2 k). destruct (b k); [specialize (H2 eq_refl)|]; lra. }
  intro k. specialize (G k). specialize (H0 k). lra.
Qed.
Lemma eventually_not (D : nat -> R) (c : R) (Bad : nat -> Prop) : 0 < c -> (forall j, 0 <= D j) -> (forall j, D (S j) <= D j) -> (forall j, Bad j -> D (S j) + c <= D j) ->
  exists N, forall j, (N <= j)%nat -> ~ Bad j.
Proof.
  intros Hc H0 H1 H2. destruct (decreasing_cv D) as [l Hl]; [exact H1|exists 0; intros x [i ->]; unfold opp_seq; specialize (H0 i); lra|].
  destruct (Hl (c / 2) ltac:(lra)) as [N HN]. exists N. intros j Hj Hb. specialize (H2 j Hb).
  pose proof (HN j Hj) as A. pose proof (HN (S j) ltac:(lia)) as B. unfold R_dist in A, B. apply Rabs_def2 in A. apply Rabs_def2 in B. lra.
Qed.
Lemma finite_all n (P : nat -> nat -> Prop) : (forall i, (i < n)%nat -> exists N, forall j, (N <= j)%nat -> P i j) -> exists N, forall j i, (N <= j)%nat -> (i < n)%nat -> P i j.
Proof.
  induction n as [|n IH]; intro H; [exists 0%nat; intros; lia|]. destruct IH as [N HN]; [intros i Hi; apply H; lia|]. destruct (H n ltac:(lia)) as [M HM].
  exists (Nat.max N M). intros j i Hj Hi. destruct (Nat.eq_dec i n) as [->|Hne]; [apply HM; lia|apply HN; lia].
Qed.

(** an entrywise map that does not increase distances, one of whose entries gains m^2 *)
Lemma RS_gain n (a b : nat -> R) m i : (forall k, (k < n)%nat -> a k <= b k) -> (i < n)%nat -> a i + m <= b i -> RS n a + m <= RS n b.
Proof.
  induction n as [|n IH]; intros H Hi Hg; [lia|]. cbn [RS]. destruct (Nat.eq_dec i n) as [->|Hne].
  - assert (RS n a <= RS n b) by (apply RS_le; intros; apply H; lia). lra.
  - assert (RS n a + m <= RS n b) by (apply IH; auto; try lia; intros; apply H; lia). specialize (H n ltac:(lia)). lra.
Qed.

Section Entry.
Context {n : nat} (f : Vec n -> R) (df : Vec n -> Vec n) (L tau : R) (phi : nat -> R -> R) (D : Vec n -> Vec n) (xs : nat -> Vec n) (xo : Vec n).
Hypotheses (Hc : convex (etot f)) (HL : 0 < L) (Hs : L_smooth f df L) (Ht : 0 < tau) (Hb : tau * L <= 2).
Hypothesis HD : forall v i, (i < n)%nat -> get (D v) i = phi i (get v i).
Hypothesis Hphi : forall i a b, (i < n)%nat -> (phi i a - phi i b) * (phi i a - phi i b) <= (a - b) * (a - b).
Hypothesis Hx : forall j, xs (S j) = D (xs j [-] tau [*] df (xs j)).
Hypothesis Ho : xo = D (xo [-] tau [*] df xo).
Let vo i := get (xo [-] tau [*] df xo) i.
Lemma entry_mono j : norm2 (xs (S j) [-] xo) <= norm2 (xs j [-] xo).
Proof.
  pose proof (step_nonexp f df L tau Hc HL Hs Ht Hb (xs j) xo) as Hn. apply norm_le_norm2 in Hn. eapply Rle_trans; [|exact Hn]. rewrite Hx. rewrite Ho at 1. rewrite !dist2_entries. apply RS_le. intros i Hi. rewrite !HD by auto. apply Hphi. auto.
Qed.
Lemma entry_gain j i m : (i < n)%nat -> (forall a, phi i a <> get xo i -> (phi i a - get xo i) * (phi i a - get xo i) + m <= (a - vo i) * (a - vo i)) ->
  get (xs (S j)) i <> get xo i -> norm2 (xs (S j) [-] xo) + m <= norm2 (xs j [-] xo).
Proof.
  intros Hi Hg Hne. pose proof (step_nonexp f df L tau Hc HL Hs Ht Hb (xs j) xo) as Hn. apply norm_le_norm2 in Hn. eapply Rle_trans; [|exact Hn]. rewrite !dist2_entries.
  apply (RS_gain n _ _ m i); auto.
  - intros k Hk. rewrite Hx. rewrite Ho at 1 2. rewrite !HD by auto. apply Hphi; auto.
  - rewrite Hx in *. rewrite HD in * by auto. apply Hg; auto.
Qed.
End Entry.

Lemma soft_lip2 t a b : 0 <= t -> (soft t a - soft t b) * (soft t a - soft t b) <= (a - b) * (a - b).
Proof.
  intro Ht. assert (H : 0 <= soft t a - soft t b <= a - b \/ a - b <= soft t a - soft t b <= 0).
  { destruct (Rle_dec b a) as [H|H]; [left|right]; destruct (soft_cases t a Ht) as [[A ->]|[[A ->]|[A ->]]], (soft_cases t b Ht) as [[B ->]|[[B ->]|[B ->]]]; lra. }
  destruct H; nra.
Qed.
Lemma soft_zero_fix t m x u : 0 <= t -> 0 < m -> Rabs u <= t - m -> soft t (x - u) = x -> x = 0.
Proof. intros Ht Hm Hu. apply Rabs_le_between in Hu. destruct (soft_cases t (x - u) Ht) as [[A ->]|[[A ->]|[A ->]]]; lra. Qed.
Lemma soft_gain t m u a : 0 <= t -> 0 < m -> Rabs u <= t - m -> soft t a <> 0 -> (soft t a - 0) * (soft t a - 0) + m * m <= (a - (0 - u)) * (a - (0 - u)).
Proof. intros Ht Hm Hu. apply Rabs_le_between in Hu. destruct (soft_cases t a Ht) as [[A ->]|[[A ->]|[A ->]]]; intro H; [nra|nra|lra]. Qed.

Lemma L1_entries n (og : Op (Vec n)) lam t : is_L1 og lam -> 0 < t -> exists D : Vec n -> Vec n, (forall v, o_prox og v t = Ok (D v)) /\ forall v i, (i < n)%nat -> get (D v) i = soft (t * lam) (get v i).
Proof.
  intros (c0 & ch & ->) Ht. exists (fun v => vzip (fun s a => soft (t * s) a) (const_sigma n lam) v). split.
  - intro v. cbn [obj o_prox d_prox l1_body b_prox]. rewrite check_tau_pos by auto. unfold l1_prox. destruct (Rleb_spec t 0) as [[H ->]|[H ->]]; [lra|]. reflexivity.
  - intros v i Hi. rewrite get_vzip by auto. unfold const_sigma. cbn [proj1_sig]. rewrite (nth_indep _ 0 lam) by (rewrite repeat_length; auto). rewrite nth_repeat. reflexivity.
Qed.

Lemma l1_min_ext n (f : Vec n -> R) e lam x : is_min (etot (fun x => f x + e * lam * sum_abs x)) x <-> is_min (eadd (etot f) (escal e (etot (l1n lam)))) x.
Proof.
  assert (H : forall z, eval (eadd (etot f) (escal e (etot (l1n lam)))) z = f z + e * lam * sum_abs z) by (intro z; cbn [eval etot eadd escal]; unfold l1n, sum_abs; ring).
  split; intros [_ Hx].
  - split; [split; exact I|]. intros y _. rewrite !H. apply Hx. exact I.
  - split; [exact I|]. intros y _. cbn [eval etot]. rewrite <- !H. apply Hx. split; exact I.
Qed.

(*! C108_l1 : ProximalGradient with a smooth convex f (L-Lipschitz gradient), g = L1(sigma=lam), epsg = e, 0 < tau <= 2/L, no relaxation or acceleration: for a solution xo
   and d > 0, the number of iterations whose result is not exactly 0 at some entry i with |grad f(xo)_i| <= e lam - d is at most |x0 - xo|^2/(tau d)^2, for any
   number of iterations; and from some iteration on every entry with |grad f(xo)_i| < e lam is exactly 0, as it is in xo *)
Lemma C108_l1_l : forall n (of og : Op (Vec n)) f df L lam e x0 tau beta niterback accel,
  smooth_op of f df L -> is_L1 og lam -> 0 < lam -> 0 < e -> 0 < tau -> tau * L <= 2 -> accel = None \/ accel = Some "None"%string ->
  exists xs, xs 0%nat = x0 /\ (forall k, ProximalGradient of og x0 [e] (Some tau) false beta 1 (S k) niterback accel None = Ok (xs (S k), map xs (seq 1 (S k)))) /\
    forall xo, is_min (etot (fun x => f x + e * lam * sum_abs x)) xo ->
      (forall d (mark : nat -> bool), 0 < d -> (forall j, mark j = true -> exists i, (i < n)%nat /\ Rabs (get (df xo) i) <= e * lam - d /\ get (xs (S j)) i <> 0) ->
         forall k, RS k (fun j => if mark j then 1 else 0) * ((tau * d) * (tau * d)) <= norm2 (x0 [-] xo)) /\
      (exists N, forall j i, (N <= j)%nat -> (i < n)%nat -> Rabs (get (df xo) i) < e * lam -> get xo i = 0 /\ get (xs (S j)) i = 0).
Proof.
  intros n of og f df L lam e x0 tau beta nb accel (_ & Hgr & Hc & HL & Hs) Hg Hlam He Ht Hb Hac.
  destruct (L1_entries n og lam (e * tau) Hg ltac:(nra)) as (D & HDo & HD). destruct (L1_facts n og lam ltac:(lra) Hg) as (Hp & _ & _).
  destruct (pg_maps of og df D e x0 tau beta 1 nb accel Hgr HDo) as (xs & X0 & Hrun & Hst); [destruct Hac as [-> | ->]; [left|right; left]; reflexivity|].
  exists xs. split; [exact X0|]. split; [exact Hrun|]. intros xo Ho. apply l1_min_ext in Ho.
  assert (Hth : 0 < e * tau) by nra. assert (Hth2 : 0 <= e * tau * lam) by nra.
  apply (pg_fix_min f df L (etot (l1n lam)) xo e tau Hc HL Hs (l1n_convex n lam ltac:(lra)) He Ht) in Ho.
  assert (Hfix : xo = D (xo [-] tau [*] df xo)).
  { destruct (Hp (xo [-] tau [*] df xo) (e * tau) Hth) as (p & E1 & Hq). rewrite HDo in E1. assert (E2 : D (xo [-] tau [*] df xo) = p) by congruence. rewrite E2. exact (prox_unique _ _ _ _ _ (l1n_convex n lam ltac:(lra)) Hth Ho Hq). }
  assert (Hx : forall j, xs (S j) = D (xs j [-] tau [*] df (xs j))) by (intro j; rewrite Hst; vring).
  assert (Hlip : forall (i : nat) a b, (i < n)%nat -> (soft (e * tau * lam) a - soft (e * tau * lam) b) * (soft (e * tau * lam) a - soft (e * tau * lam) b) <= (a - b) * (a - b)) by (intros; apply soft_lip2; auto).
  assert (Hz : forall i d, (i < n)%nat -> 0 < d -> Rabs (get (df xo) i) <= e * lam - d -> get xo i = 0 /\ Rabs (tau * get (df xo) i) <= e * tau * lam - tau * d).
  { intros i d Hi Hd Hr. assert (Hr2 : Rabs (tau * get (df xo) i) <= e * tau * lam - tau * d). { rewrite Rabs_mult, (Rabs_right tau) by lra. apply (Rmult_le_compat_l tau) in Hr; lra. }
    split; [|exact Hr2]. apply (soft_zero_fix (e * tau * lam) (tau * d) _ (tau * get (df xo) i) Hth2); [apply Rmult_lt_0_compat; auto|exact Hr2|].
    transitivity (get (D (xo [-] tau [*] df xo)) i); [rewrite HD, get_sub, get_scal by auto; reflexivity|rewrite <- Hfix; reflexivity]. }
  assert (Hgain : forall j i d, (i < n)%nat -> 0 < d -> Rabs (get (df xo) i) <= e * lam - d -> get (xs (S j)) i <> 0 -> norm2 (xs (S j) [-] xo) + (tau * d) * (tau * d) <= norm2 (xs j [-] xo)).
  { intros j i d Hi Hd Hr Hne. destruct (Hz i d Hi Hd Hr) as [Z1 Z2].
    apply (entry_gain f df L tau (fun _ => soft (e * tau * lam)) D xs xo Hc HL Hs Ht Hb HD Hlip Hx Hfix j i); [auto| |rewrite Z1; exact Hne].
    intros a Ha. rewrite Z1 in *. rewrite get_sub, get_scal, Z1 by auto. apply soft_gain; auto. apply Rmult_lt_0_compat; auto. }
  assert (Hmono : forall j, norm2 (xs (S j) [-] xo) <= norm2 (xs j [-] xo)) by (intro j; apply (entry_mono f df L tau (fun _ => soft (e * tau * lam)) D xs xo Hc HL Hs Ht Hb HD Hlip Hx Hfix)).
  split.
  - intros d mark Hd Hm k. rewrite <- X0. apply (marked_count (fun j => norm2 (xs j [-] xo)) ((tau * d) * (tau * d)) mark); [intro; apply norm2_nonneg|exact Hmono|].
    intros j Hj. destruct (Hm j Hj) as (i & Hi & Hr & Hne). apply (Hgain j i d); auto.
  - apply finite_all. intros i Hi. destruct (Rlt_dec (Rabs (get (df xo) i)) (e * lam)) as [Hlt|Hge]; [|exists 0%nat; intros; contradiction].
    set (d := e * lam - Rabs (get (df xo) i)). assert (Hd : 0 < d) by (unfold d; lra). assert (Hr : Rabs (get (df xo) i) <= e * lam - d) by (unfold d; lra).
    destruct (eventually_not (fun j => norm2 (xs j [-] xo)) ((tau * d) * (tau * d)) (fun j => get (xs (S j)) i <> 0)) as [N HN].
    + assert (0 < tau * d) by (apply Rmult_lt_0_compat; auto). nra.
    + intro; apply norm2_nonneg.
    + exact Hmono.
    + intros j Hj. apply (Hgain j i d); auto.
    + exists N. intros j Hj _. split; [apply (Hz i d); auto|]. destruct (Req_dec (get (xs (S j)) i) 0) as [Hq|Hq]; [exact Hq|contradiction (HN j Hj Hq)].
Qed.

Lemma get_vzip_any {A : Type} n (f : A -> R -> R) (w : nlist A n) (x : Vec n) a0 i : (i < n)%nat -> get (vzip f w x : Vec n) i = f (nth i (proj1_sig w) a0) (get x i).
Proof.
  intro Hi. destruct w as [w Hw], x as [x Hx]. unfold get, lst, vzip. cbn [proj1_sig]. assert (H : (i < List.length w)%nat /\ List.length w = List.length x) by (split; [rewrite Hw; exact Hi|rewrite Hw; symmetry; exact Hx]).
  clear Hi Hw Hx. revert x i H. induction w as [|a w IH]; intros x i [H1 H2]; [cbn in H1; lia|]. destruct x as [|b x]; [discriminate H2|]. destruct i as [|i]; cbn [map2 nth]; [reflexivity|].
  apply IH. split; [apply Nat.succ_lt_mono; exact H1|]. injection H2 as H2. exact H2.
Qed.
Lemma box_prox_entries n (og : Op (Vec n)) (lu : nlist bounds n) t : is_box og lu -> 0 < t -> exists D : Vec n -> Vec n, (forall v, o_prox og v t = Ok (D v)) /\ forall v i, (i < n)%nat -> get (D v) i = clip (nth i (proj1_sig lu) (None, None)) (get v i).
Proof.
  intros -> Ht. exists (fun v => vzip clip lu v). split.
  - intro v. cbn [obj o_prox d_prox box_body b_prox]. rewrite check_tau_pos by auto. reflexivity.
  - intros v i Hi. apply get_vzip_any. auto.
Qed.
Lemma clip_lip2 lu a b : (clip lu a - clip lu b) * (clip lu a - clip lu b) <= (a - b) * (a - b).
Proof. destruct (Rle_dec a b) as [H|H]; [pose proof (clip_mono lu a b H)|pose proof (clip_mono lu b a ltac:(lra))]; nra. Qed.
Lemma clip_gain_low lu l m u a : bounds_ok lu -> fst lu = Some l -> within lu l -> 0 < m -> m <= u -> clip lu a <> l -> (clip lu a - l) * (clip lu a - l) + m * m <= (a - (l - u)) * (a - (l - u)).
Proof.
  intros Hok Hl Hw Hm Hu Hne. destruct (clip_within lu a Hok) as [H _]. specialize (H l Hl). pose proof (clip_vi lu a l Hok Hw) as V.
  assert (Hp : l < clip lu a) by lra. assert (Ha : clip lu a <= a) by (apply Rnot_lt_le; intro; nra). nra.
Qed.
Lemma clip_gain_up lu l m u a : bounds_ok lu -> snd lu = Some l -> within lu l -> 0 < m -> u <= - m -> clip lu a <> l -> (clip lu a - l) * (clip lu a - l) + m * m <= (a - (l - u)) * (a - (l - u)).
Proof.
  intros Hok Hl Hw Hm Hu Hne. destruct (clip_within lu a Hok) as [_ H]. specialize (H l Hl). pose proof (clip_vi lu a l Hok Hw) as V.
  assert (Hp : clip lu a < l) by lra. assert (Ha : a <= clip lu a) by (apply Rnot_lt_le; intro; nra). nra.
Qed.

(*! C108_box : the same with g = Box(lower, upper), lower <= upper: for a solution xo of min f subject to the bounds and d > 0, the number of iterations whose result differs from xo at some entry
   i where xo is at its lower bound with grad f(xo)_i >= d or at its upper bound with grad f(xo)_i <= -d is at most |x0 - xo|^2/(tau d)^2; and from some iteration on, all entries of
   xo at a bound with a non-zero gradient pointing outwards are found exactly *)
Lemma C108_box_l : forall n (of og : Op (Vec n)) f df L (lu : nlist bounds n) e x0 tau beta niterback accel,
  smooth_op of f df L -> is_box og lu -> Forall bounds_ok (proj1_sig lu) -> 0 < e -> 0 < tau -> tau * L <= 2 -> accel = None \/ accel = Some "None"%string ->
  exists xs, xs 0%nat = x0 /\ (forall k, ProximalGradient of og x0 [e] (Some tau) false beta 1 (S k) niterback accel None = Ok (xs (S k), map xs (seq 1 (S k)))) /\
    forall xo, is_min (mkEfun (fun x => forall i, (i < n)%nat -> (forall l, lower_of lu i = Some l -> l <= get x i) /\ (forall u, upper_of lu i = Some u -> get x i <= u)) f) xo ->
      let strict d i := lower_of lu i = Some (get xo i) /\ d <= get (df xo) i \/ upper_of lu i = Some (get xo i) /\ get (df xo) i <= - d in
      (forall d (mark : nat -> bool), 0 < d -> (forall j, mark j = true -> exists i, (i < n)%nat /\ strict d i /\ get (xs (S j)) i <> get xo i) ->
         forall k, RS k (fun j => if mark j then 1 else 0) * ((tau * d) * (tau * d)) <= norm2 (x0 [-] xo)) /\
      (forall d, 0 < d -> exists N, forall j i, (N <= j)%nat -> (i < n)%nat -> strict d i -> get (xs (S j)) i = get xo i).
Proof.
  intros n of og f df L lu e x0 tau beta nb accel (_ & Hgr & Hc & HL & Hs) Hg Hok He Ht Hb Hac.
  assert (Hth : 0 < e * tau) by nra.
  destruct (box_prox_entries n og lu (e * tau) Hg Hth) as (D & HDo & HD). destruct (box_facts n og lu Hg Hok) as (Hp & _).
  destruct (pg_maps of og df D e x0 tau beta 1 nb accel Hgr HDo) as (xs & X0 & Hrun & Hst); [destruct Hac as [-> | ->]; [left|right; left]; reflexivity|].
  exists xs. split; [exact X0|]. split; [exact Hrun|]. intros xo Ho strict.
  assert (Ho' : is_min (eadd (etot f) (escal e (indic (box_set lu)))) xo).
  { destruct Ho as [H1 H2]. split; [split; [exact I|apply box_entries; exact H1]|]. intros y [_ Hy]. cbn [edom escal indic] in Hy. rewrite box_entries in Hy. specialize (H2 y Hy). cbn [eval eadd escal indic etot] in *. lra. }
  assert (Hw : forall i, (i < n)%nat -> within (nth i (proj1_sig lu) (None, None)) (get xo i)) by (apply box_entries; apply Ho').
  apply (pg_fix_min f df L (indic (box_set lu)) xo e tau Hc HL Hs (box_convex n lu) He Ht) in Ho'.
  assert (Hfix : xo = D (xo [-] tau [*] df xo)).
  { destruct (Hp (xo [-] tau [*] df xo) (e * tau) Hth) as (p & E1 & Hq). rewrite HDo in E1. assert (E2 : D (xo [-] tau [*] df xo) = p) by congruence. rewrite E2. exact (prox_unique _ _ _ _ _ (box_convex n lu) Hth Ho' Hq). }
  assert (Hx : forall j, xs (S j) = D (xs j [-] tau [*] df (xs j))) by (intro j; rewrite Hst; vring).
  set (phi := fun i => clip (nth i (proj1_sig lu) (None, None))).
  assert (Hlip : forall (i : nat) a b, (i < n)%nat -> (phi i a - phi i b) * (phi i a - phi i b) <= (a - b) * (a - b)) by (intros; apply clip_lip2; auto).
  assert (Hbo : forall i, (i < n)%nat -> bounds_ok (nth i (proj1_sig lu) (None, None))).
  { intros i Hi. rewrite Forall_forall in Hok. apply Hok. apply nth_In. destruct lu as [l Hl]. cbn [proj1_sig]. rewrite Hl. exact Hi. }
  assert (Hgain : forall j i d, (i < n)%nat -> 0 < d -> strict d i -> get (xs (S j)) i <> get xo i -> norm2 (xs (S j) [-] xo) + (tau * d) * (tau * d) <= norm2 (xs j [-] xo)).
  { intros j i d Hi Hd Hr Hne. assert (0 < tau * d) by (apply Rmult_lt_0_compat; auto).
    apply (entry_gain f df L tau phi D xs xo Hc HL Hs Ht Hb HD Hlip Hx Hfix j i); [auto| |exact Hne].
    intros a Ha. rewrite get_sub, get_scal by auto. destruct Hr as [[R1 R2]|[R1 R2]].
    - apply clip_gain_low; auto. apply Rmult_le_compat_l; lra.
    - apply clip_gain_up; auto. apply (Rmult_le_compat_l tau) in R2; lra. }
  assert (Hmono : forall j, norm2 (xs (S j) [-] xo) <= norm2 (xs j [-] xo)) by (intro j; apply (entry_mono f df L tau phi D xs xo Hc HL Hs Ht Hb HD Hlip Hx Hfix)).
  split.
  - intros d mark Hd Hm k. rewrite <- X0. apply (marked_count (fun j => norm2 (xs j [-] xo)) ((tau * d) * (tau * d)) mark); [intro; apply norm2_nonneg|exact Hmono|].
    intros j Hj. destruct (Hm j Hj) as (i & Hi & Hr & Hne). apply (Hgain j i d); auto.
  - intros d Hd. apply finite_all. intros i Hi.
    destruct (eventually_not (fun j => norm2 (xs j [-] xo)) ((tau * d) * (tau * d)) (fun j => strict d i /\ get (xs (S j)) i <> get xo i)) as [N HN].
    + assert (0 < tau * d) by (apply Rmult_lt_0_compat; auto). nra.
    + intro; apply norm2_nonneg.
    + exact Hmono.
    + intros j [Hr Hj]. apply (Hgain j i d); auto.
    + exists N. intros j Hj Hr. destruct (Req_dec (get (xs (S j)) i) (get xo i)) as [Hq|Hq]; [exact Hq|contradiction (HN j Hj (Logic.conj Hr Hq))].
Qed.

(*! C108_lasso : the LASSO problem with the objects of the library: f = L2(Op=A, b=b, sigma=s), g = L1(sigma=lam), epsg = e, s |A v|^2 <= L |v|^2, 0 < tau <= 2/L, no acceleration: for a
   solution xo and d > 0, at most |x0 - xo|^2/(tau d)^2 iterations return a vector that is not exactly 0 at some entry i with |s A^T(b - A xo)|_i <= e lam - d; from some
   iteration on all entries with |s A^T(b - A xo)|_i < e lam are exactly 0 *)
Lemma C108_lasso_l : forall n (F : IPS) (of og : Op (Vec n)) (A : linop (Vec n) F) b s L lam e x0 tau beta niterback accel,
  is_L2 of A b s -> is_L1 og lam -> 0 < s -> 0 < lam -> 0 < e -> 0 < L -> (forall v, s * norm2 (A v) <= L * norm2 v) -> 0 < tau -> tau * L <= 2 -> accel = None \/ accel = Some "None"%string ->
  exists xs, xs 0%nat = x0 /\ (forall k, ProximalGradient of og x0 [e] (Some tau) false beta 1 (S k) niterback accel None = Ok (xs (S k), map xs (seq 1 (S k)))) /\
    forall xo, is_min (etot (lasso A b s (e * lam))) xo -> let c i := Rabs (s * get (ladj A (b [-] A xo)) i) in
      (forall d (mark : nat -> bool), 0 < d -> (forall j, mark j = true -> exists i, (i < n)%nat /\ c i <= e * lam - d /\ get (xs (S j)) i <> 0) ->
         forall k, RS k (fun j => if mark j then 1 else 0) * ((tau * d) * (tau * d)) <= norm2 (x0 [-] xo)) /\
      (exists N, forall j i, (N <= j)%nat -> (i < n)%nat -> c i < e * lam -> get xo i = 0 /\ get (xs (S j)) i = 0).
Proof.
  intros n F of og A b s L lam e x0 tau beta nb accel Hf Hg Hs Hlam He HL HA Ht Hb Hac.
  destruct (C108_l1_l n of og (sfit A b s) (dsfit A b s) L lam e x0 tau beta nb accel (L2_smooth_op of A b s L Hs HL Hf HA) Hg Hlam He Ht Hb Hac) as (xs & X0 & Hrun & H).
  exists xs. split; [exact X0|]. split; [exact Hrun|]. intros xo Ho c.
  assert (Hc : forall i, (i < n)%nat -> Rabs (get (dsfit A b s xo) i) = c i).
  { intros i Hi. unfold c. rewrite <- (Rabs_Ropp (s * _)). f_equal. unfold dsfit. rewrite get_scal by auto. replace (b [-] A xo) with ((-1) [*] (A xo [-] b)) by vring. rewrite ladj_scal, get_scal by auto. ring. }
  assert (Ho' : is_min (etot (fun x => sfit A b s x + e * lam * sum_abs x)) xo) by (apply l1_min_ext, lasso_ext; exact Ho).
  destruct (H xo Ho') as [H1 [N H2]]. split.
  - intros d mark Hd Hm. apply (H1 d mark Hd). intros j Hj. destruct (Hm j Hj) as (i & Hi & Hr & Hne). exists i. rewrite Hc by auto. auto.
  - exists N. intros j i Hj Hi Hr. apply H2; auto. rewrite Hc by auto. exact Hr.
Qed.

(*! C108_strict_refuted : the strict inequality is needed: f = 1/2 (x - 1)^2 and g = |x| on vectors of one entry, tau = 1/2, x0 = 1: the solution is 0, with |A^T(b - A xo)| = lam, and the
   iterates are (1/2)^k, never exactly 0 *)
Lemma C108_strict_refuted_l : forall (of og : Op (Vec 1)) beta niterback, let b : Vec 1 := vtab 1 (fun _ => 1) in is_L2 of (same_op 1) b 1 -> is_L1 og 1 ->
  is_min (etot (lasso (same_op 1) b 1 1)) vzero /\ Rabs (1 * get (ladj (same_op 1) (b [-] same_op 1 vzero)) 0) = 1 /\
  forall k, exists x tr, ProximalGradient of og b [1] (Some (1/2)) false beta 1 (S k) niterback None None = Ok (x, tr) /\ get x 0 = (1/2) ^ (S k).
Proof.
  intros of og beta nb b Hf Hg. assert (Eb : get b 0 = 1) by (unfold b; rewrite get_vtab by lia; reflexivity).
  assert (HA : forall v : Vec 1, 1 * norm2 (same_op 1 v) <= 1 * norm2 v) by (intro v; cbn [same_op lapp]; lra).
  assert (E0 : get (ladj (same_op 1) (b [-] same_op 1 vzero)) 0 = 1) by (cbn [same_op lapp ladj]; rewrite get_sub, get_zero by lia; lra).
  split; [|split].
  - apply (proj1 (C78_optimality_l 1 (Vec 1) (same_op 1) b 1 1 ltac:(lra) ltac:(lra))). intros i Hi. assert (i = 0%nat) as -> by lia. cbn zeta. rewrite E0, get_zero. rewrite Rabs_right by lra. split; [lra|]. split; intro; lra.
  - rewrite E0, Rabs_right; lra.
  - destruct (L2_smooth_op of (same_op 1) b 1 1 ltac:(lra) ltac:(lra) Hf HA) as (_ & Hgr & _).
    destruct (L1_entries 1 og 1 (1 * (1/2)) Hg ltac:(lra)) as (D & HDo & HD).
    destruct (pg_maps of og (dsfit (same_op 1) b 1) D 1 b (1/2) beta 1 nb None Hgr HDo (or_introl eq_refl)) as (xs & X0 & Hrun & Hst).
    assert (G : forall k, get (xs k) 0 = (1/2) ^ k).
    { induction k as [|k IH]; [rewrite X0; exact Eb|]. assert (Hx : xs (S k) = D (xs k [-] (1/2) [*] dsfit (same_op 1) b 1 (xs k))) by (rewrite Hst; vring).
      rewrite Hx, HD, get_sub, get_scal by lia. unfold dsfit. cbn [same_op lapp ladj]. rewrite get_scal, get_sub, IH, Eb by lia.
      pose proof (pow_lt (1/2) k ltac:(lra)) as Hp. cbn [pow]. set (q := (1/2) ^ k) in *. destruct (soft_cases (1 * (1/2) * 1) (q - 1/2 * (1 * (q - 1))) ltac:(lra)) as [[S1 ->]|[[S1 ->]|[S1 ->]]]; lra. }
    intro k. exists (xs (S k)), (map xs (seq 1 (S k))). split; [apply Hrun|apply G].
Qed.

(*!ex C108_example : A the identity on vectors of two entries, b = (3, 1/2), s = lam = e = tau = L = 1: objects L2 and L1 exist, the solution is (2, 0) and |A^T(b - A xo)| is 1/2 < 1 at the second entry; from x0 = 0 at most
   16 of the iterations have a non-zero second entry, however many are made *)
Lemma C108_example_l : let b : Vec 2 := vtab 2 (fun i => if Nat.eqb i 0 then 3 else 1/2) in let xo : Vec 2 := vtab 2 (fun i => if Nat.eqb i 0 then 2 else 0) in
  exists of og : Op (Vec 2), is_L2 of (same_op 2) b 1 /\ is_L1 og 1 /\ (forall v : Vec 2, 1 * norm2 (same_op 2 v) <= 1 * norm2 v) /\ is_min (etot (lasso (same_op 2) b 1 (1 * 1))) xo /\
    exists xs, (forall k, ProximalGradient of og vzero [1] (Some 1) false (1/2) 1 (S k) 10 None None = Ok (xs (S k), map xs (seq 1 (S k)))) /\
      forall mark : nat -> bool, (forall j, mark j = true -> get (xs (S j)) 1 <> 0) -> forall k, RS k (fun j => if mark j then 1 else 0) <= 16.
Proof.
  intros b xo. eexists. eexists. split.
  { apply (L2_exists 2 (Vec 2) (same_op 2) b 1 (mkL2 (WithOp (same_op 2) true b) None 1 true (fun _ => 10%nat) true Legacy DenseDefault) None); reflexivity. }
  split; [exists 0%nat, (fun _ _ => 0%nat); reflexivity|]. set (of := obj 2 (l2_body _ _ _ _)). set (og := obj 2 (l1_body _ _ _ _)).
  assert (Hf : is_L2 of (same_op 2) b 1) by (apply (L2_exists 2 (Vec 2) (same_op 2) b 1 (mkL2 (WithOp (same_op 2) true b) None 1 true (fun _ => 10%nat) true Legacy DenseDefault) None); reflexivity).
  assert (Hg : is_L1 og 1) by (exists 0%nat, (fun _ _ => 0%nat); reflexivity).
  assert (HA : forall v : Vec 2, 1 * norm2 (same_op 2 v) <= 1 * norm2 v) by (intro v; cbn [same_op lapp]; lra).
  assert (Ec : forall i, (i < 2)%nat -> get (ladj (same_op 2) (b [-] same_op 2 xo)) i = if Nat.eqb i 0 then 1 else 1/2).
  { intros i Hi. cbn [same_op lapp ladj]. unfold b, xo. rewrite get_sub, !get_vtab by lia. destruct (Nat.eqb i 0); lra. }
  assert (Hm : is_min (etot (lasso (same_op 2) b 1 (1 * 1))) xo).
  { apply C78_optimality_l; [lra|lra|]. intros i Hi. cbn zeta. rewrite Ec by auto. unfold xo. rewrite get_vtab by auto. destruct (Nat.eqb i 0); rewrite Rabs_right by lra; (split; [lra|split; intro; lra]). }
  split; [exact HA|]. split; [exact Hm|].
  destruct (C108_lasso_l 2 (Vec 2) of og (same_op 2) b 1 1 1 1 vzero 1 (1/2) 10 None Hf Hg ltac:(lra) ltac:(lra) ltac:(lra) ltac:(lra) HA ltac:(lra) ltac:(lra) (or_introl eq_refl)) as (xs & _ & Hrun & H).
  exists xs. split; [exact Hrun|]. intros mark Hmark k. destruct (H xo Hm) as [H1 _].
  specialize (H1 (1/2) mark ltac:(lra)). assert (H2 : RS k (fun j => if mark j then 1 else 0) * (1 * (1/2) * (1 * (1/2))) <= norm2 ((vzero : Vec 2) [-] xo)).
  { apply H1. intros j Hj. exists 1%nat. split; [lia|]. split; [rewrite Ec by lia; cbn [Nat.eqb]; rewrite Rabs_right; lra|apply Hmark; exact Hj]. }
  rewrite dist2_entries in H2. unfold xo in H2. cbn [RS] in H2. rewrite !get_vtab, !get_zero in H2 by lia. cbn [Nat.eqb] in H2. lra.
Qed.
