(** * Proofs about the regularisation weight and the data (M_PG.v, M_L2.v, M_L1.v) *)
From Coq Require Import String Psatz Classical.
From Verif Require Import Base Space Spec VSum Sep ConvexFacts Smooth MatFacts M_ProxOp SpecOps P_ProxOp M_Loop LoopFacts SeqFacts M_PG P_PG P_PG2 P_PG3 S_Seq Compact Fejer IterMath IterMath2 IterMath3 S_Iter P_Iter S_Exist ExistMath CountMath M_L1 P_L1 M_L2 S_L2 P_L2 M_Objs S_Lasso P_Lasso S_PG2 S_Pnp PnpMath P_Pnp S_Noncvx NoncvxMath S_Breg2 P_Incons SeqConv P_Sparse S_Sparse.
From Verif Require Export S_Path.
Open Scope result_scope.
Open Scope R_scope.

(** ** minimisers of f + e g *)
Section Min.
Context {E : IPS}.
Variables (f : E -> R) (g : efun E).
Lemma wmin_ineq e l y : is_min (eadd (etot f) (escal e g)) l -> edom g y -> f l + e * eval g l <= f y + e * eval g y.
Proof. intros [_ H] Hy. exact (H y (conj I Hy)). Qed.
Lemma wmin_dom e l : is_min (eadd (etot f) (escal e g)) l -> edom g l.
Proof. intros [[_ H] _]. exact H. Qed.
Lemma wmin_mono e1 e2 l1 l2 : e1 < e2 -> is_min (eadd (etot f) (escal e1 g)) l1 -> is_min (eadd (etot f) (escal e2 g)) l2 -> 0 < e1 -> f l1 <= f l2 /\ eval g l2 <= eval g l1.
Proof.
  intros He H1 H2 Hp. pose proof (wmin_ineq _ _ l2 H1 (wmin_dom _ _ H2)) as A. pose proof (wmin_ineq _ _ l1 H2 (wmin_dom _ _ H1)) as B.
  assert (G : eval g l2 <= eval g l1) by nra. split; [nra|exact G].
Qed.
Lemma wmin_flat e l m : 0 < e -> is_min (eadd (etot f) (escal e g)) l -> edom g m -> f m <= f l -> eval g l <= eval g m.
Proof. intros He Hl Hm Hf. pose proof (wmin_ineq _ _ m Hl Hm). nra. Qed.
Lemma wmin_flat2 e l m : 0 < e -> is_min (eadd (etot f) (escal e g)) l -> edom g m -> eval g m <= eval g l -> f l <= f m.
Proof. intros He Hl Hm Hf. pose proof (wmin_ineq _ _ m Hl Hm). nra. Qed.
End Min.

Lemma wmin_gap {E : IPS} (f : E -> R) df L g e e' f' df' L' (l l' : E) : convex (etot f) -> 0 < L -> L_smooth f df L -> convex (etot f') -> 0 < L' -> L_smooth f' df' L' -> convex g -> 0 < e -> 0 < e' ->
  is_min (eadd (etot f) (escal e g)) l -> is_min (eadd (etot f') (escal e' g)) l' ->
  << df' l' [-] df l, l' [-] l >> <= (e' - e) * (eval g l - eval g l').
Proof.
  intros Hc HL Hs Hc' HL' Hs' Hg He He' Hm Hm'.
  destruct (min_sum_subgrad_inv f df L (escal e g) l ltac:(lra) (L_smooth_convex f df L Hc Hs) (convex_scal e g ltac:(lra) Hg) Hm) as [D1 S1].
  destruct (min_sum_subgrad_inv f' df' L' (escal e' g) l' ltac:(lra) (L_smooth_convex f' df' L' Hc' Hs') (convex_scal e' g ltac:(lra) Hg) Hm') as [D2 S2].
  specialize (S1 l' D2). specialize (S2 l D1). cbn [eval escal] in S1, S2. rewrite inner_opp_l in S1, S2.
  replace (l [-] l') with (vopp (l' [-] l)) in S2 by vring. rewrite inner_opp_r in S2. rewrite inner_sub_l. lra.
Qed.

(** ** the limits of ProximalGradient *)
(*! C103_limits : f convex with L-Lipschitz gradient, g convex, eps > 0: the possible limits of ProximalGradient without backtracking and acceleration (over all starts, admissible steps and relaxations) are exactly the
   minimisers of f + eps g. No completeness or finite dimension is needed, and no assumption that minimisers exist *)
Lemma C103_limits_l : forall (E : IPS) (proxf proxg : Op E) f df L g eps l, smooth_op proxf f df L -> impl_prox proxg g -> convex g -> 0 < eps ->
  (pg_limit proxf proxg L eps l <-> is_min (eadd (etot f) (escal eps g)) l).
Proof.
  intros E proxf proxg f df L g eps l [_ [Hgr [Hcv [HL Hsm]]]] Hp Hg He. split.
  - intros (x0 & tau & beta & eta & nb & accel & ys & Ht & Hn & Ha & Hrun' & Hv). assert (Het : 0 < eps * tau) by (apply Rmult_lt_0_compat; assumption).
    destruct (prox_map proxg g (eps * tau) Hp Het) as (D & ED & HD). destruct (pg_maps proxf proxg df D eps x0 tau beta eta nb accel Hgr ED Ha) as (xs & X0 & Hrun & HR).
    assert (Hx : vcv xs l). { apply vcv_unshift. apply (vcv_ext ys); [|exact Hv]. intro n. destruct (Hrun' n) as [tr Hn']. rewrite Hrun in Hn'. injection Hn' as <- _. reflexivity. }
    set (T := fun x => x [+] eta [*] (D (x [-] tau [*] df x) [-] x)) in *.
    assert (HT : forall v w, norm (T v [-] T w) <= norm (v [-] w)).
    { intros v w. destruct (pgmap_averaged f df L tau eta D Hcv HL Hsm Ht Hn (prox_firmly g (eps * tau) D Hg Het HD)) as [Hk Hav]. specialize (Hav v w). fold (T v) (T w) in Hav.
      apply norm_le_iff. pose proof (norm2_nonneg ((v [-] T v) [-] (w [-] T w))). nra. }
    assert (Hf : T l = l). { apply (vcv_unique (fun n => T (xs n))); [apply vcv_nonexp; auto|]. apply (vcv_ext (fun n => xs (S n))); [intro; apply HR|]. apply vcv_shift, Hx. }
    apply (pg_fix_min f df L g l eps tau); auto. pose proof (HD (l [-] tau [*] df l)) as H. replace (D (l [-] tau [*] df l)) with l in H; [exact H|].
    replace (D (l [-] tau [*] df l)) with (l [+] / eta [*] (T l [-] l)) by (unfold T; vext z; field; lra). rewrite Hf. vring.
  - intro Hl. assert (HiL : 0 < / L) by (apply Rinv_0_lt_compat; auto). assert (Het : 0 < eps * / L) by (apply Rmult_lt_0_compat; assumption).
    destruct (prox_map proxg g (eps * / L) Hp Het) as (D & ED & HD). assert (Ha : unaccelerated None 1) by (left; reflexivity).
    destruct (pg_maps proxf proxg df D eps l (/ L) 1 1 0 None Hgr ED Ha) as (xs & X0 & Hrun & HR).
    assert (K : forall n, xs n = l).
    { induction n as [|n IH]; [exact X0|]. rewrite HR, IH. apply (pg_fix_min f df L g l eps (/ L)) in Hl; auto. rewrite (prox_unique g (eps * / L) _ _ _ Hg Het (HD (l [-] / L [*] df l)) Hl). vring. }
    exists l, (/ L), 1, 1, 0%nat, None, (fun _ => l). split; [exact HiL|]. split; [rewrite Rinv_l by lra; lra|]. split; [exact Ha|]. split; [|apply vcv_const].
    intro n. rewrite Hrun, K. eexists. reflexivity.
Qed.

(*! C103_weight : limits l1, l2 for the weights eps1 < eps2: the larger weight never gives a smaller data term f nor a larger penalty g; the optimal value is a concave function of the
   weight, and a non-decreasing one when g >= 0 *)
Lemma C103_weight_l : forall (E : IPS) (proxf proxg : Op E) f df L g e1 e2 l1 l2, smooth_op proxf f df L -> impl_prox proxg g -> convex g -> 0 < e1 < e2 ->
  pg_limit proxf proxg L e1 l1 -> pg_limit proxf proxg L e2 l2 ->
  f l1 <= f l2 /\ eval g l2 <= eval g l1 /\
  (forall t l, 0 <= t <= 1 -> pg_limit proxf proxg L (t * e1 + (1 - t) * e2) l ->
     t * (f l1 + e1 * eval g l1) + (1 - t) * (f l2 + e2 * eval g l2) <= f l + (t * e1 + (1 - t) * e2) * eval g l) /\
  ((forall y, edom g y -> 0 <= eval g y) -> f l1 + e1 * eval g l1 <= f l2 + e2 * eval g l2).
Proof.
  intros E proxf proxg f df L g e1 e2 l1 l2 Hs Hp Hg He H1 H2. apply (C103_limits_l E proxf proxg f df L g) in H1; auto; [|lra]. apply (C103_limits_l E proxf proxg f df L g) in H2; auto; [|lra].
  destruct (wmin_mono f g e1 e2 l1 l2 ltac:(lra) H1 H2 ltac:(lra)) as [A B]. split; [exact A|]. split; [exact B|]. split.
  - intros t l Ht Hl. apply (C103_limits_l E proxf proxg f df L g) in Hl; auto; [|nra]. pose proof (wmin_ineq f g e1 l1 l H1 (wmin_dom f g _ _ Hl)). pose proof (wmin_ineq f g e2 l2 l H2 (wmin_dom f g _ _ Hl)). nra.
  - intro Hp0. pose proof (wmin_ineq f g e1 l1 l2 H1 (wmin_dom f g _ _ H2)). pose proof (Hp0 l2 (wmin_dom f g _ _ H2)). nra.
Qed.

(*! C103_constrained : a limit l for the weight eps > 0 also solves the two constrained problems with its own values as bounds: it minimises the data term f among the vectors whose
   penalty is at most g(l), and the penalty g among the vectors whose data term is at most f(l) *)
Lemma C103_constrained_l : forall (E : IPS) (proxf proxg : Op E) f df L g eps l, smooth_op proxf f df L -> impl_prox proxg g -> convex g -> 0 < eps -> pg_limit proxf proxg L eps l ->
  edom g l /\ (forall y, edom g y -> eval g y <= eval g l -> f l <= f y) /\ (forall y, edom g y -> f y <= f l -> eval g l <= eval g y).
Proof.
  intros E proxf proxg f df L g eps l Hs Hp Hg He H. apply (C103_limits_l E proxf proxg f df L g) in H; auto. split; [apply (wmin_dom f g _ _ H)|]. split; intros y Hy Hle.
  - apply (wmin_flat2 f g eps); auto.
  - apply (wmin_flat f g eps); auto.
Qed.

(*! C103_data : L2(A, b, s) and L2(A, b', s) objects and a convex penalty g; l and l' limits for the data b and b' and the weights e and e'.
   Then s |A l' - A l|^2 <= s <b' - b, A l' - A l> + (e' - e)(g(l) - g(l')). In particular with the same weight the fit moves no more than the data, and with the same data and
   weight all limits (whatever the start and the step) have the same fit A l and the same penalty g(l) *)
Lemma C103_data_l : forall (E F : IPS) (A : linop E F) b b' s L (f f' proxg : Op E) g e e' l l', is_L2 f A b s -> is_L2 f' A b' s -> 0 < s -> 0 < L -> (forall v, s * norm2 (A v) <= L * norm2 v) ->
  impl_prox proxg g -> convex g -> 0 < e -> 0 < e' -> pg_limit f proxg L e l -> pg_limit f' proxg L e' l' ->
  s * norm2 (A l' [-] A l) <= s * << b' [-] b, A l' [-] A l >> + (e' - e) * (eval g l - eval g l') /\
  (e = e' -> norm (A l' [-] A l) <= norm (b' [-] b)) /\ (e = e' -> b = b' -> A l = A l' /\ eval g l = eval g l').
Proof.
  intros E F A b b' s L f f' proxg g e e' l l' Hf Hf' Hs HL HA Hp Hg He He' Hl Hl'. pose proof (L2_smooth_op f A b s L Hs HL Hf HA) as S1. pose proof (L2_smooth_op f' A b' s L Hs HL Hf' HA) as S2.
  apply (C103_limits_l E f proxg _ _ L g) with (1 := S1) in Hl; auto. apply (C103_limits_l E f' proxg _ _ L g) with (1 := S2) in Hl'; auto.
  destruct S1 as (_ & _ & C1 & _ & M1). destruct S2 as (_ & _ & C2 & _ & M2).
  pose proof (wmin_gap _ _ L g e e' _ _ L l l' C1 HL M1 C2 HL M2 Hg He He' Hl Hl') as G.
  assert (K : << dsfit A b' s l' [-] dsfit A b s l, l' [-] l >> = s * norm2 (A l' [-] A l) - s * << b' [-] b, A l' [-] A l >>).
  { unfold dsfit. replace (s [*] ladj A (A l' [-] b') [-] s [*] ladj A (A l [-] b)) with (s [*] ladj A ((A l' [-] A l) [-] (b' [-] b))).
    - rewrite inner_scal_l. rewrite inner_sym, <- ladj_spec, lapp_sub, inner_sym, inner_sub_l. unfold norm2. ring.
    - replace ((A l' [-] A l) [-] (b' [-] b)) with ((A l' [-] b') [-] (A l [-] b)) by vring. rewrite ladj_sub. vring. }
  rewrite K in G. split; [lra|].
  assert (N : e = e' -> norm (A l' [-] A l) <= norm (b' [-] b)).
  { intro Ee. subst e'. replace ((e - e) * (eval g l - eval g l')) with 0 in G by ring. pose proof (CS (b' [-] b) (A l' [-] A l)) as Hcs. pose proof (norm_nonneg (A l' [-] A l)). pose proof (norm_nonneg (b' [-] b)).
    rewrite <- norm_sq in G. destruct (Rle_or_lt (norm (A l' [-] A l)) (norm (b' [-] b))) as [Hq|Hq]; [exact Hq|exfalso]. apply (Rmult_le_compat_l s) in Hcs; [|lra].
    assert (s * (norm (b' [-] b) * norm (A l' [-] A l)) < s * (norm (A l' [-] A l) * norm (A l' [-] A l))); [|lra]. apply Rmult_lt_compat_l; [exact Hs|]. apply Rmult_lt_compat_r; lra. }
  split; [exact N|]. intros Ee Eb. specialize (N Ee). subst e' b'. replace (b [-] b) with (vzero : F) in N by vring. rewrite norm_zero in N.
  assert (Z : A l' = A l). { apply norm2_sub_eq0. pose proof (norm_nonneg (A l' [-] A l)). rewrite <- norm_sq. nra. }
  split; [symmetry; exact Z|]. pose proof (wmin_ineq _ g e l l' Hl (wmin_dom _ g _ _ Hl')) as I1. pose proof (wmin_ineq _ g e l' l Hl' (wmin_dom _ g _ _ Hl)) as I2. unfold sfit in I1, I2. rewrite Z in *. nra.
Qed.

(** ** the weight tends to zero or to infinity *)
Lemma lsc_le {E : IPS} (g : efun E) u l c : lsc g -> vcv u l -> (forall k : nat, edom g (u k)) -> (forall d, 0 < d -> exists N, forall k, (N <= k)%nat -> eval g (u k) <= c + d) -> edom g l /\ eval g l <= c.
Proof.
  intros Hg Hu Hd Hb. assert (K : forall d, 0 < d -> edom g l /\ eval g l <= c + d).
  { intros d Hp. destruct (Hb d Hp) as [N HN]. apply (Hg (fun k => u (N + k)%nat) l).
    - intros q Hq. destruct (Hu q Hq) as [N' H']. exists N'. intros k Hk. apply H'. lia.
    - intro k. split; [apply Hd|]. apply HN. lia. }
  split; [apply (K 1); lra|]. apply le_epsilon. intros d Hp. apply K. exact Hp.
Qed.
Lemma f_lower {E : IPS} (f : E -> R) df L u l : convex (etot f) -> L_smooth f df L -> vcv u l -> forall d, 0 < d -> exists N, forall k, (N <= k)%nat -> f l <= f (u k) + d.
Proof.
  intros Hc [Hgr _] Hu d Hd. pose proof (norm_nonneg (df l)) as Hn. destruct (Hu (d / (norm (df l) + 1))) as [N HN]; [apply Rdiv_lt_0_compat; lra|].
  exists N. intros k Hk. specialize (HN k Hk). pose proof (convex_grad_ineq f l (u k) (df l) Hc (Hgr l)) as H. pose proof (CS_abs (df l) (u k [-] l)) as H2. pose proof (Rle_abs (- << df l, u k [-] l >>)) as H3. rewrite Rabs_Ropp in H3.
  assert (norm (df l) * norm (u k [-] l) <= d); [|lra]. apply Rle_trans with ((norm (df l) + 1) * (d / (norm (df l) + 1))); [|right; field; lra].
  apply Rmult_le_compat; try apply norm_nonneg; lra.
Qed.
Lemma g_lower {E : IPS} (f : E -> R) df L g e (l : E) : convex (etot f) -> 0 < L -> L_smooth f df L -> convex g -> 0 < e -> is_min (eadd (etot f) (escal e g)) l ->
  forall M, exists c, forall y, edom g y -> norm y <= M -> c <= eval g y.
Proof.
  intros Hc HL Hs Hg He Hm M.
  destruct (min_sum_subgrad_inv f df L (escal e g) l ltac:(lra) (L_smooth_convex f df L Hc Hs) (convex_scal e g ltac:(lra) Hg) Hm) as [D1 S1].
  exists (eval g l - norm (df l) * (M + norm l) / e). intros y Hy HM. specialize (S1 y Hy). cbn [eval escal] in S1. rewrite inner_opp_l in S1.
  pose proof (CS (df l) (y [-] l)) as H. pose proof (norm_nonneg (df l)). assert (norm (y [-] l) <= M + norm l).
  { replace (y [-] l) with (y [+] ((-1) [*] l)) by vring. eapply Rle_trans; [apply norm_triangle|]. rewrite norm_scal, Rabs_left by lra. lra. }
  assert (norm (df l) * norm (y [-] l) <= norm (df l) * (M + norm l)) by (apply Rmult_le_compat_l; lra).
  apply (Rmult_le_reg_l e); [exact He|]. replace (e * (eval g l - norm (df l) * (M + norm l) / e)) with (e * eval g l - norm (df l) * (M + norm l)) by (field; lra). lra.
Qed.
Lemma small_prod (e : nat -> R) c : Un_cv e 0 -> (forall k, 0 < e k) -> forall d, 0 < d -> exists N, forall k, (N <= k)%nat -> e k * c <= d.
Proof.
  intros He Hp d Hd. pose proof (Rabs_pos c). destruct (He (d / (Rabs c + 1))) as [N HN]; [apply Rdiv_lt_0_compat; lra|]. exists N. intros k Hk. specialize (HN k Hk). unfold R_dist in HN. rewrite Rminus_0_r, Rabs_right in HN by (specialize (Hp k); lra).
  specialize (Hp k). apply Rle_trans with (e k * (Rabs c + 1)).
  - apply Rmult_le_compat_l; [lra|]. pose proof (Rle_abs c). lra.
  - left. apply Rlt_le_trans with (d / (Rabs c + 1) * (Rabs c + 1)); [|right; field; lra]. apply Rmult_lt_compat_r; lra.
Qed.

(*! C103_vanishing : limits l_k for weights eps_k -> 0 (g lower semicontinuous, and some minimiser of f over the domain of g exists): every cluster point of the l_k minimises f over the
   domain of g and has the least penalty g among these minimisers; if the l_k stay bounded (finite dimension) they approach the set of such points; and no l_k has a larger
   penalty than any of these minimisers *)
Lemma C103_vanishing_l : forall (E : IPS) (proxf proxg : Op E) f df L g eps l, smooth_op proxf f df L -> impl_prox proxg g -> convex g -> lsc g -> (forall k : nat, 0 < eps k) -> Un_cv eps 0 ->
  (forall k, pg_limit proxf proxg L (eps k) (l k)) -> (exists m, edom g m /\ forall y, edom g y -> f m <= f y) ->
  (forall p, cluster l p -> best_then (edom g) f (eval g) p) /\
  (bw E -> (exists M, forall k, norm (l k) <= M) -> approaches (best_then (edom g) f (eval g)) l) /\
  (forall k m, edom g m -> (forall y, edom g y -> f m <= f y) -> eval g (l k) <= eval g m).
Proof.
  intros E proxf proxg f df L g eps l Hs Hp Hg Hlsc He Hcv Hl (m0 & Hm0 & Hb0). assert (Hmin : forall k, is_min (eadd (etot f) (escal (eps k) g)) (l k)) by (intro k; apply (C103_limits_l E proxf proxg f df L g); auto).
  destruct Hs as (_ & _ & Hc & HL & Hsm).
  assert (Kg : forall k m, edom g m -> (forall y, edom g y -> f m <= f y) -> eval g (l k) <= eval g m).
  { intros k m Hm Hb. apply (wmin_flat f g (eps k)); auto. apply Hb. apply (wmin_dom f g _ _ (Hmin k)). }
  assert (Kc : forall p, cluster l p -> best_then (edom g) f (eval g) p).
  { intros p (phi & Hphi & Hv). pose proof (fun k => wmin_dom f g _ _ (Hmin (phi k))) as Hd.
    assert (Kl : forall m, edom g m -> (forall y, edom g y -> f m <= f y) -> edom g p /\ eval g p <= eval g m).
    { intros m Hm Hb. apply (Hlsc _ _ _ Hv). intro k. split; [apply Hd|]. apply Kg; auto. }
    split; [apply (Kl m0); auto|]. split; [|intros m Hm Hb; apply Kl; auto].
    intros y Hy. destruct (vcv_bounded _ _ Hv) as [M HM]. destruct (g_lower f df L g (eps 0%nat) (l 0%nat) Hc HL Hsm Hg (He 0%nat) (Hmin 0%nat) M) as [c Hlow].
    apply le_epsilon. intros d Hdp. destruct (f_lower f df L _ p Hc Hsm Hv (d / 2) ltac:(lra)) as [N1 H1].
    destruct (small_prod (fun k => eps (phi k)) (eval g y - c) (Un_cv_sub eps 0 phi Hphi Hcv) (fun k => He (phi k)) (d / 2) ltac:(lra)) as [N2 H2].
    specialize (H1 (Nat.max N1 N2) ltac:(lia)). specialize (H2 (Nat.max N1 N2) ltac:(lia)). set (k := Nat.max N1 N2) in *. pose proof (wmin_ineq f g _ _ y (Hmin (phi k)) Hy) as H3.
    pose proof (Hlow _ (Hd k) (HM k)) as H4. apply (Rmult_le_compat_l (eps (phi k))) in H4; [|left; apply He]. rewrite Rmult_minus_distr_l in H2. lra. }
  split; [exact Kc|]. split; [|exact Kg]. intros HB [M HM]. apply (approach_cluster _ l M); auto.
Qed.

(*! C103_dominating : limits l_k for weights eps_k -> infinity (g lower semicontinuous with a minimiser): every cluster point of the l_k minimises g and has the least
   data term f among the minimisers of g; if the l_k stay bounded (finite dimension) they approach the set of such points; no l_k has a larger data term than any
   minimiser of g *)
Lemma C103_dominating_l : forall (E : IPS) (proxf proxg : Op E) f df L g eps l, smooth_op proxf f df L -> impl_prox proxg g -> convex g -> lsc g -> (forall k : nat, 0 < eps k) -> cv_infty eps ->
  (forall k, pg_limit proxf proxg L (eps k) (l k)) -> (exists m, is_min g m) ->
  (forall p, cluster l p -> best_then (edom g) (eval g) f p) /\
  (bw E -> (exists M, forall k, norm (l k) <= M) -> approaches (best_then (edom g) (eval g) f) l) /\
  (forall k m, is_min g m -> f (l k) <= f m).
Proof.
  intros E proxf proxg f df L g eps l Hs Hp Hg Hlsc He Hcv Hl (m0 & Hm0 & Hb0). assert (Hmin : forall k, is_min (eadd (etot f) (escal (eps k) g)) (l k)) by (intro k; apply (C103_limits_l E proxf proxg f df L g); auto).
  destruct Hs as (_ & _ & Hc & HL & Hsm).
  assert (Kf : forall k m, is_min g m -> f (l k) <= f m).
  { intros k m [Hm Hb]. apply (wmin_flat2 f g (eps k)); auto. apply Hb. apply (wmin_dom f g _ _ (Hmin k)). }
  assert (Kc : forall p, cluster l p -> best_then (edom g) (eval g) f p).
  { intros p (phi & Hphi & Hv). pose proof (fun k => wmin_dom f g _ _ (Hmin (phi k))) as Hd.
    assert (Hiv : Un_cv (fun k => / eps (phi k)) 0) by (apply (Un_cv_sub (fun k => / eps k) 0 phi Hphi); apply cv_infty_cv_0; exact Hcv).
    assert (Hip : forall k, 0 < / eps (phi k)) by (intro k; apply Rinv_0_lt_compat, He).
    assert (Kl : edom g p /\ eval g p <= eval g m0).
    { apply (lsc_le g _ p (eval g m0) Hlsc Hv Hd). intros d Hdp. destruct (f_lower f df L _ p Hc Hsm Hv 1 ltac:(lra)) as [N1 H1].
      destruct (small_prod _ (f m0 - f p + 1) Hiv Hip d Hdp) as [N2 H2]. exists (Nat.max N1 N2). intros k Hk. specialize (H1 k ltac:(lia)). specialize (H2 k ltac:(lia)).
      pose proof (wmin_ineq f g _ _ m0 (Hmin (phi k)) Hm0) as H3. specialize (He (phi k)). set (e := eps (phi k)) in *.
      apply (Rmult_le_reg_l e); [exact He|]. apply (Rmult_le_compat_l e) in H2; [|lra]. replace (e * (/ e * (f m0 - f p + 1))) with (f m0 - f p + 1) in H2 by (field; lra). lra. }
    destruct Kl as [Kd Kl]. split; [exact Kd|]. split; [intros y Hy; specialize (Hb0 y Hy); lra|].
    intros m Hm Hb. apply le_epsilon. intros d Hdp. destruct (f_lower f df L _ p Hc Hsm Hv d Hdp) as [N1 H1]. specialize (H1 N1 ltac:(lia)). pose proof (Kf (phi N1) m (conj Hm Hb)). lra. }
  split; [exact Kc|]. split; [|exact Kf]. intros HB [M HM]. apply (approach_cluster _ l M); auto.
Qed.

(*! C103_noise : exact data b0 = A x for some x in the domain of g (lower semicontinuous), observed as b_k with |b_k - b0| <= d_k; l_k limits for L2(A, b_k, s) objects and weights eps_k.
   If d_k -> 0, eps_k -> 0 and d_k^2/eps_k -> 0, every cluster point of the l_k solves A p = b0 with the least penalty g among all solutions, and bounded l_k (finite dimension) approach the set of
   such solutions; moreover g(l_k) <= g(m) + s d_k^2/(2 eps_k) for every solution m of A m = b0 *)
Lemma C103_noise_l : forall (E F : IPS) (A : linop E F) b0 b s L (of : nat -> Op E) proxg g eps d l, (forall k, is_L2 (of k) A (b k) s) -> 0 < s -> 0 < L -> (forall v, s * norm2 (A v) <= L * norm2 v) ->
  impl_prox proxg g -> convex g -> lsc g -> (forall k : nat, 0 < eps k) -> Un_cv eps 0 -> (forall k, norm (b k [-] b0) <= d k) -> Un_cv d 0 -> Un_cv (fun k => d k * d k / eps k) 0 ->
  (forall k, pg_limit (of k) proxg L (eps k) (l k)) -> (exists m, edom g m /\ A m = b0) ->
  (forall p, cluster l p -> is_min (eadd (indic (fun x => A x = b0)) g) p) /\
  (bw E -> (exists M, forall k, norm (l k) <= M) -> approaches (is_min (eadd (indic (fun x => A x = b0)) g)) l) /\
  (forall k m, edom g m -> A m = b0 -> eval g (l k) <= eval g m + s * (d k * d k) / (2 * eps k)).
Proof.
  intros E F A b0 b s L of proxg g eps d l Hf Hs HL HA Hp Hg Hlsc He Hcv Hd Hd0 Hde Hl (m0 & Hm0 & Hb0). pose proof (fun k => L2_smooth_op (of k) A (b k) s L Hs HL (Hf k) HA) as Sm.
  assert (Hmin : forall k, is_min (eadd (etot (sfit A (b k) s)) (escal (eps k) g)) (l k)) by (intro k; apply (C103_limits_l E (of k) proxg _ _ L g (eps k) (l k) (Sm k)); auto).
  assert (K0 : forall k m, edom g m -> A m = b0 -> s / 2 * norm2 (A (l k) [-] b k) + eps k * eval g (l k) <= s / 2 * (d k * d k) + eps k * eval g m).
  { intros k m Hm Hb. pose proof (wmin_ineq _ g _ _ m (Hmin k) Hm) as H. unfold sfit in H. rewrite Hb in H. rewrite (norm2_sub_sym b0) in H. specialize (Hd k). pose proof (norm_nonneg (b k [-] b0)). rewrite <- (norm_sq (b k [-] b0)) in H.
    assert (norm (b k [-] b0) * norm (b k [-] b0) <= d k * d k) by (apply Rmult_le_compat; lra). assert (s / 2 * (norm (b k [-] b0) * norm (b k [-] b0)) <= s / 2 * (d k * d k)) by (apply Rmult_le_compat_l; lra). lra. }
  assert (Kg : forall k m, edom g m -> A m = b0 -> eval g (l k) <= eval g m + s * (d k * d k) / (2 * eps k)).
  { intros k m Hm Hb. specialize (K0 k m Hm Hb). specialize (He k). assert (0 <= s / 2 * norm2 (A (l k) [-] b k)) by (apply Rmult_le_pos; [lra|apply norm2_nonneg]).
    apply (Rmult_le_reg_l (eps k)); [exact He|]. replace (eps k * (eval g m + s * (d k * d k) / (2 * eps k))) with (s / 2 * (d k * d k) + eps k * eval g m) by (field; lra). lra. }
  assert (Kc : forall p, cluster l p -> is_min (eadd (indic (fun x => A x = b0)) g) p).
  { intros p (phi & Hphi & Hv). pose proof (fun k => wmin_dom _ g _ _ (Hmin (phi k))) as Hdm.
    assert (Kl : forall m, edom g m -> A m = b0 -> edom g p /\ eval g p <= eval g m).
    { intros m Hm Hb. apply (lsc_le g _ p (eval g m) Hlsc Hv Hdm). intros q Hq. destruct (Un_cv_sub _ 0 phi Hphi Hde (2 * q / s)) as [N HN]; [apply Rdiv_lt_0_compat; lra|].
      exists N. intros k Hk. specialize (HN k Hk). unfold R_dist in HN. rewrite Rminus_0_r in HN. pose proof (Rle_abs (d (phi k) * d (phi k) / eps (phi k))) as H1. specialize (Kg (phi k) m Hm Hb).
      specialize (He (phi k)). replace (s * (d (phi k) * d (phi k)) / (2 * eps (phi k))) with (s / 2 * (d (phi k) * d (phi k) / eps (phi k))) in Kg by (field; lra).
      assert (s / 2 * (d (phi k) * d (phi k) / eps (phi k)) <= s / 2 * (2 * q / s)) by (apply Rmult_le_compat_l; lra). replace (s / 2 * (2 * q / s)) with q in * by (field; lra). lra. }
    assert (Ab : A p = b0).
    { destruct (vcv_bounded _ _ Hv) as [M HM]. destruct (Sm 0%nat) as (_ & _ & C0 & _ & M0). destruct (g_lower _ _ L g (eps 0%nat) (l 0%nat) C0 HL M0 Hg (He 0%nat) (Hmin 0%nat) M) as [c Hlow].
      assert (Z : Un_cv (fun k => norm2 (A (l (phi k)) [-] b (phi k))) 0).
      { apply (Un_cv_squeeze _ (fun k => d (phi k) * d (phi k) + eps (phi k) * (2 / s * (eval g m0 - c)))).
        - intro k. split; [apply norm2_nonneg|]. specialize (K0 (phi k) m0 Hm0 Hb0). pose proof (Hlow _ (Hdm k) (HM k)) as H4. apply (Rmult_le_compat_l (eps (phi k))) in H4; [|left; apply He].
          apply (Rmult_le_reg_l (s / 2)); [lra|]. replace (s / 2 * (d (phi k) * d (phi k) + eps (phi k) * (2 / s * (eval g m0 - c)))) with (s / 2 * (d (phi k) * d (phi k)) + eps (phi k) * (eval g m0 - c)) by (field; lra). lra.
        - replace 0 with (0 * 0 + 0 * (2 / s * (eval g m0 - c))) by ring. apply CV_plus; apply CV_mult; try apply Un_cv_const; apply Un_cv_sub; auto. }
      assert (V1 : vcv (fun k => A (l (phi k)) [-] b (phi k)) (vzero : F)).
      { apply vcv_iff2. apply (Un_cv_ext (fun k => norm2 (A (l (phi k)) [-] b (phi k)))); [|exact Z]. intro k. f_equal. vring. }
      assert (Vb : vcv (fun k => b (phi k)) b0).
      { intros q Hq. destruct (Un_cv_sub d 0 phi Hphi Hd0 q Hq) as [N HN]. exists N. intros k Hk. specialize (HN k Hk). unfold R_dist in HN. rewrite Rminus_0_r in HN. eapply Rle_lt_trans; [apply Hd|]. eapply Rle_lt_trans; [apply Rle_abs|exact HN]. }
      assert (VA : vcv (fun k => A (l (phi k))) (A p)).
      { apply (vcv_lapp A (L / s)); [left; apply Rdiv_lt_0_compat; lra| |exact Hv]. intro a. apply (Rmult_le_reg_l s); [exact Hs|]. replace (s * (L / s * norm2 a)) with (L * norm2 a) by (field; lra). apply HA. }
      pose proof (vcv_unique _ _ _ (vcv_minus _ _ _ _ VA Vb) V1) as Hz. replace (A p) with ((A p [-] b0) [+] b0) by vring. rewrite Hz. vring. }
    split; [split; [exact Ab|apply (Kl m0); auto]|]. intros y [Hy1 Hy2]. cbn [eval eadd indic]. destruct (Kl y Hy2 Hy1) as [_ K]. lra. }
  split; [exact Kc|]. split; [|exact Kg]. intros HB [M HM]. apply (approach_cluster _ l M); auto.
Qed.

(** ** LASSO *)
Lemma abs_sum_nonneg n (x : Vec n) : 0 <= abs_sum x.
Proof. unfold abs_sum. replace 0 with (RS n (fun _ => 0)) by apply RS_zero. apply RS_le. intros. apply Rabs_pos. Qed.
Lemma abs_sum_entry n (x : Vec n) i : (i < n)%nat -> Rabs (get x i) <= abs_sum x.
Proof. intro Hi. unfold abs_sum. rewrite <- (RS_delta n i (fun j => Rabs (get x j)) Hi). apply RS_le. intros j Hj. pose proof (Rabs_pos (get x j)). destruct (Nat.eqb i j); lra. Qed.
Lemma abs_sum_bound n (M : R) : exists K, forall x : Vec n, abs_sum x <= M -> norm x <= K.
Proof.
  exists (sqrt (RS n (fun _ => M * M))). intros x Hx. unfold norm. apply sqrt_le_1_alt. unfold norm2. rewrite vec_inner. apply RS_le. intros i Hi. pose proof (abs_sum_entry n x i Hi). pose proof (Rabs_pos (get x i)).
  replace (get x i * get x i) with (Rabs (get x i) * Rabs (get x i)) by (rewrite <- Rabs_mult; apply Rabs_right; apply Rle_ge; fold (Rsqr (get x i)); apply Rle_0_sqr). apply Rmult_le_compat; lra.
Qed.
Lemma abs_sum_lsc n lam : lsc (etot (l1n (n:=n) lam)).
Proof.
  intros u l c Hu Hb. split; [exact I|]. cbn [eval etot] in *. apply (Un_cv_le_lim (fun k => l1n lam (u k))); [|intro k; apply Hb]. unfold l1n. apply CV_mult; [apply Un_cv_const|]. apply RS_cv. intros i Hi.
  intros q Hq. destruct (Hu q Hq) as [N HN]. exists N. intros k Hk. unfold R_dist. specialize (HN k Hk). pose proof (get_le_norm n (u k [-] l) i Hi) as H. rewrite get_sub in H by auto.
  pose proof (Rabs_triang_inv2 (get (u k) i) (get l i)). lra.
Qed.
(*! C103_lasso : L2(A, b, s) and L1(lam) objects on vectors. For every weight e > 0 ProximalGradient has limits. For weights eps_k -> 0 its limits approach the set of the least squares solutions of
   A x = b with the least l1 norm, and all have at most that l1 norm; once e lam is at least every |s (A^T b)_i| the only limit is the zero vector *)
Lemma C103_lasso_l : forall n m (A : linop (Vec n) (Vec m)) b s lam L (f g : Op (Vec n)), is_L2 f A b s -> is_L1 g lam -> 0 < s -> 0 < lam -> 0 < L -> (forall v, s * norm2 (A v) <= L * norm2 v) ->
  (forall e, 0 < e -> exists l, pg_limit f g L e l) /\
  (forall eps l, (forall k : nat, 0 < eps k) -> Un_cv eps 0 -> (forall k, pg_limit f g L (eps k) (l k)) -> (exists x, ladj A (A x [-] b) = vzero) ->
     approaches (best_then (fun _ => True) (fun x => norm (A x [-] b)) abs_sum) l /\
     forall k x, best_then (fun _ => True) (fun x => norm (A x [-] b)) abs_sum x -> abs_sum (l k) <= abs_sum x) /\
  (forall e l, 0 < e -> (forall i, (i < n)%nat -> Rabs (s * get (ladj A b) i) <= e * lam) -> (pg_limit f g L e l <-> l = vzero)).
Proof.
  intros n m A b s lam L f g Hf Hg Hs Hlam HL HA. pose proof (L2_smooth_op f A b s L Hs HL Hf HA) as Sm. destruct (L1_facts n g lam ltac:(lra) Hg) as (Hp & _ & _). pose proof (l1n_convex n lam ltac:(lra)) as Hcv.
  assert (Iff : forall e l, 0 < e -> (pg_limit f g L e l <-> is_min (etot (lasso A b s (e * lam))) l)).
  { intros e l He. rewrite (C103_limits_l (Vec n) f g _ _ L _ e l Sm Hp Hcv He). apply lasso_ext. }
  assert (N2 : forall x y, sfit A b s x <= sfit A b s y <-> norm (A x [-] b) <= norm (A y [-] b)).
  { intros x y. rewrite norm_le_iff. unfold sfit. split; intro H; [apply (Rmult_le_reg_l (s / 2)); lra|apply Rmult_le_compat_l; lra]. }
  split; [|split].
  - intros e He. destruct (C78_solution_l n (Vec m) A b s (e * lam) Hs ltac:(apply Rmult_lt_0_compat; auto)) as [z Hz]. exists z. apply Iff; auto.
  - intros eps l He Hc Hl (x0 & Hx0).
    assert (Hls : forall y, sfit A b s x0 <= sfit A b s y).
    { intro y. replace y with (x0 [+] (y [-] x0)) by vring. rewrite sfit_expand. unfold dsfit. rewrite Hx0. assert (0 <= s / 2 * norm2 (A (y [-] x0))) by (apply Rmult_le_pos; [lra|apply norm2_nonneg]).
      replace (<< s [*] (vzero : Vec n), y [-] x0 >>) with 0 by (rewrite inner_scal_l, inner_zero_l; ring). lra. }
    destruct (C103_vanishing_l (Vec n) f g _ _ L _ eps l Sm Hp Hcv (abs_sum_lsc n lam) He Hc Hl) as (_ & K2 & K3); [exists x0; split; [exact I|intros; apply Hls]|].
    assert (Eb : forall x, best_then (edom (etot (l1n lam))) (sfit A b s) (eval (etot (l1n lam))) x <-> best_then (fun _ => True) (fun x => norm (A x [-] b)) abs_sum x).
    { intro x. unfold best_then. cbn [edom eval etot]. split; intros (_ & H1 & H2); (split; [exact I|]; split; [intros y _; apply N2; apply H1; exact I|]).
      - intros z _ Hz. assert (H : l1n lam x <= l1n lam z) by (apply H2; [exact I|]; intros y _; apply N2; apply Hz; exact I). unfold l1n in H. unfold abs_sum. apply (Rmult_le_reg_l lam); lra.
      - intros z _ Hz. assert (H : abs_sum x <= abs_sum z) by (apply H2; [exact I|]; intros y _; apply N2; apply Hz; exact I). unfold l1n. unfold abs_sum in H. apply Rmult_le_compat_l; lra. }
    assert (Kb : forall k x, (forall y, sfit A b s x <= sfit A b s y) -> abs_sum (l k) <= abs_sum x).
    { intros k x Hx. assert (H : l1n lam (l k) <= l1n lam x) by (apply (K3 k x I); intros; apply Hx). unfold l1n in H. unfold abs_sum. apply (Rmult_le_reg_l lam); lra. }
    split.
    + destruct (abs_sum_bound n (abs_sum x0)) as [M HM]. specialize (K2 (proj1 (proj2 C75_arrays_l) n)). intros q Hq. destruct (K2 ltac:(exists M; intro k; apply HM; apply Kb; exact Hls) q Hq) as [N HN]. exists N. intros k Hk. destruct (HN k Hk) as (z & Hz & Hd). exists z. split; [apply Eb; exact Hz|exact Hd].
    + intros k x Hx. apply Kb. intro y. apply N2. apply Hx. exact I.
  - intros e l He Hi. assert (Z : pg_limit f g L e vzero) by (apply Iff; auto; apply (proj2 (C78_optimality_l n (Vec m) A b s (e * lam) Hs ltac:(apply Rlt_le, Rmult_lt_0_compat; auto))); exact Hi).
    split; [|intros ->; exact Z]. intro Hl. destruct (C103_data_l (Vec n) (Vec m) A b b s L f f g _ e e l vzero Hf Hf Hs HL HA Hp Hcv He He Hl Z) as (_ & _ & K). destruct (K eq_refl eq_refl) as [_ K2]. cbn [eval etot] in K2. unfold l1n in K2.
    assert (A0 : abs_sum l = 0).
    { unfold abs_sum. apply Rmult_eq_reg_l with lam; [|lra]. rewrite K2. f_equal. rewrite <- (RS_zero n). apply RS_ext. intros i Hi'. rewrite get_zero. apply Rabs_R0. }
    apply vec_ext. intros i Hi'. pose proof (abs_sum_entry n l i Hi') as H. rewrite A0 in H. pose proof (Rabs_pos (get l i)). rewrite get_zero. destruct (Req_dec (get l i) 0) as [Hq|Hq]; [exact Hq|]. pose proof (Rabs_pos_lt _ Hq). lra.
Qed.

Lemma pg_lasso_iff n m (A : linop (Vec n) (Vec m)) b s lam L (f g : Op (Vec n)) e l : is_L2 f A b s -> is_L1 g lam -> 0 < s -> 0 < lam -> 0 < L -> (forall v, s * norm2 (A v) <= L * norm2 v) -> 0 < e ->
  pg_limit f g L e l <-> forall i, (i < n)%nat -> let c := s * get (ladj A (b [-] A l)) i in Rabs c <= e * lam /\ (0 < get l i -> c = e * lam) /\ (get l i < 0 -> c = - (e * lam)).
Proof.
  intros Hf Hg Hs Hlam HL HA He. pose proof (L2_smooth_op f A b s L Hs HL Hf HA) as Sm. destruct (L1_facts n g lam ltac:(lra) Hg) as (Hp & _ & _). pose proof (l1n_convex n lam ltac:(lra)) as Hcv.
  rewrite (C103_limits_l (Vec n) f g _ _ L _ e l Sm Hp Hcv He), lasso_ext. apply (proj1 (C78_optimality_l n (Vec m) A b s (e * lam) Hs ltac:(apply Rlt_le, Rmult_lt_0_compat; auto))).
Qed.
Definition row11 : linop (Vec 2) (Vec 1).
Proof.
  refine (mkLinop (Vec 2) (Vec 1) (fun x => vtab 1 (fun _ => get x 0 + get x 1)) (fun y => vtab 2 (fun i => get y 0)) _ _ _).
  - intros x y. apply vec_ext. intros i Hi. repeat first [rewrite get_vtab by lia | rewrite get_add by lia]. ring.
  - intros a x. apply vec_ext. intros i Hi. repeat first [rewrite get_vtab by lia | rewrite get_scal by lia]. ring.
  - intros x y. rewrite !vec_inner. cbn [RS]. rewrite !get_vtab by lia. ring.
Defined.
Lemma row11_get x : get (row11 x) 0 = get x 0 + get x 1.
Proof. apply get_vtab. lia. Qed.
(*! C103_start_refuted : what is NOT true: that the limit itself is determined by the operators, the data and the weight. With an L2 and an L1 object (LASSO) ProximalGradient can have
   different limits from different starts (they share the fit and the penalty, C103_data) *)
Lemma C103_start_refuted_l : ~ (forall n m (A : linop (Vec n) (Vec m)) b s lam L (f g : Op (Vec n)) e l l', is_L2 f A b s -> is_L1 g lam -> 0 < s -> 0 < lam -> 0 < L -> (forall v, s * norm2 (A v) <= L * norm2 v) -> 0 < e ->
  pg_limit f g L e l -> pg_limit f g L e l' -> l = l').
Proof.
  intro H. set (b := vtab 1 (fun _ => 2)). set (e1 := vtab 2 (fun i => if Nat.eqb i 0 then 1 else 0)). set (e2 := vtab 2 (fun i => if Nat.eqb i 0 then 0 else 1)).
  pose proof (L2_exists 2 (Vec 1) row11 b 1 (mkL2 (WithOp row11 true b) None 1 true (fun _ => 10%nat) true Legacy DenseDefault) None eq_refl eq_refl) as Hf.
  assert (Hg : is_L1 (obj 2 (l1_body (fun _ => const_sigma 2 1) None 0 (fun _ _ => 0%nat))) 1) by (exists 0%nat, (fun _ _ => 0%nat); reflexivity).
  assert (N : forall a, 1 * norm2 (row11 a) <= 2 * norm2 a).
  { intro a. unfold norm2. rewrite !vec_inner. cbn [RS]. rewrite row11_get. set (u := get a 0). set (v := get a 1). pose proof (Rle_0_sqr (u - v)). unfold Rsqr in *. lra. }
  assert (K : forall l : Vec 2, get l 0 + get l 1 = 1 -> 0 <= get l 0 -> 0 <= get l 1 -> forall i, (i < 2)%nat -> let c := 1 * get (ladj row11 (b [-] row11 l)) i in Rabs c <= 1 * 1 /\ (0 < get l i -> c = 1 * 1) /\ (get l i < 0 -> c = - (1 * 1))).
  { intros l H1 H2 H3 i Hi c. assert (Hc : c = 1). { unfold c. unfold row11 at 1. cbn [ladj]. rewrite get_vtab by auto. rewrite get_sub, row11_get by lia. unfold b. rewrite get_vtab by lia. lra. }
    rewrite Hc. rewrite Rabs_right by lra. split; [lra|]. split; intro; [lra|]. destruct i as [|[|i]]; [lra|lra|lia]. }
  assert (Q : e1 = e2).
  { apply (H 2%nat 1%nat row11 b 1 1 2 _ _ 1 e1 e2 Hf Hg); auto; try lra; apply (pg_lasso_iff 2 1 row11 b 1 1 2 _ _ 1 _ Hf Hg); auto; try lra; apply K; unfold e1, e2; rewrite ?get_vtab by lia; cbn [Nat.eqb]; lra. }
  apply (f_equal (fun v => get v 0)) in Q. unfold e1, e2 in Q. rewrite !get_vtab in Q by lia. cbn [Nat.eqb] in Q. lra.
Qed.

(*!ex C103_example : A x = x_0 + 2 x_1 and b = 2: L2(A, b, 1) and L1(1) objects and L = 5 meet the hypotheses, and for 0 < e < 4 the vector (0, 1 - e/4) is a limit; the weights and noise levels 1/(k+1) satisfy the conditions of
   C103_noise, the weights k+1 those of C103_dominating, and least squares solutions exist *)
Lemma C103_example_l : let A := row12 in let b : Vec 1 := vtab 1 (fun _ => 2) in
  (exists (f g : Op (Vec 2)), is_L2 f A b 1 /\ is_L1 g 1 /\ (exists h dh, smooth_op f h dh 5) /\ impl_prox g (etot (l1n 1)) /\ convex (etot (l1n (n:=2) 1)) /\ lsc (etot (l1n (n:=2) 1)) /\ is_min (etot (l1n (n:=2) 1)) vzero /\
     forall e, 0 < e < 4 -> pg_limit f g 5 e (vtab 2 (fun i => if Nat.eqb i 0 then 0 else 1 - e / 4))) /\
  (forall v, 1 * norm2 (A v) <= 5 * norm2 v) /\ (exists x, ladj A (A x [-] b) = vzero) /\ (exists x, A x = b) /\
  (forall k, 0 < / INR (S k)) /\ Un_cv (fun k => / INR (S k)) 0 /\ Un_cv (fun k => / INR (S k) * / INR (S k) / / INR (S k)) 0 /\ (forall k, 0 < INR (S k)) /\ cv_infty (fun k => INR (S k)).
Proof.
  intros A b.
  assert (N : forall a, 1 * norm2 (A a) <= 5 * norm2 a).
  { intro a. unfold A. rewrite row12_norm2. unfold norm2. rewrite vec_inner. cbn [RS]. set (u := get a 0). set (v := get a 1). pose proof (Rle_0_sqr (2 * u - v)). unfold Rsqr in *. lra. }
  pose proof (L2_exists 2 (Vec 1) A b 1 (mkL2 (WithOp A true b) None 1 true (fun _ => 10%nat) true Legacy DenseDefault) None eq_refl eq_refl) as Hf.
  assert (Hg : is_L1 (obj 2 (l1_body (fun _ => const_sigma 2 1) None 0 (fun _ _ => 0%nat))) 1) by (exists 0%nat, (fun _ _ => 0%nat); reflexivity).
  assert (Hx : A (vtab 2 (fun i => if Nat.eqb i 0 then 0 else 1)) = b).
  { apply vec_ext. intros i Hi. replace i with 0%nat by lia. unfold A, b. rewrite row12_get, !get_vtab by lia. cbn [Nat.eqb]. ring. }
  assert (Pk : forall k, 0 < INR (S k)) by (intro k; apply lt_0_INR; lia).
  assert (C1 : Un_cv (fun k => / INR (S k)) 0).
  { intros q Hq. destruct (archimed_cor1 q Hq) as (M & HM & HM0). exists M. intros k Hk. unfold R_dist. rewrite Rminus_0_r, Rabs_right by (left; apply Rinv_0_lt_compat; apply Pk).
    apply Rle_lt_trans with (/ INR M); [|exact HM]. apply Rinv_le_contravar; [apply lt_0_INR; lia|apply le_INR; lia]. }
  split; [|split; [exact N|split; [|split; [eexists; exact Hx|split; [|split; [exact C1|split; [|split; [exact Pk|]]]]]]]].
  - eexists. eexists. split; [exact Hf|]. split; [exact Hg|]. split; [exists (sfit A b 1), (dsfit A b 1); apply L2_smooth_op; auto; lra|]. split; [apply (L1_facts 2 _ 1 ltac:(lra) Hg)|]. split; [apply l1n_convex; lra|]. split; [apply abs_sum_lsc|]. split.
    + split; [exact I|]. intros y _. cbn [eval etot]. unfold l1n. pose proof (abs_sum_nonneg 2 y) as H. unfold abs_sum in H. replace (RS 2 (fun i => Rabs (get (vzero : Vec 2) i))) with 0; [lra|]. rewrite <- (RS_zero 2). apply RS_ext. intros i Hi. rewrite get_zero, Rabs_R0. reflexivity.
    + intros e He. apply (pg_lasso_iff 2 1 A b 1 1 5 _ _ e _ Hf Hg); auto; try lra. intros i Hi c. set (l := vtab 2 (fun i => if Nat.eqb i 0 then 0 else 1 - e / 4)) in *.
      assert (H0 : get (b [-] A l) 0 = e / 2). { rewrite get_sub by lia. unfold A. rewrite row12_get. unfold b, l. rewrite !get_vtab by lia. cbn [Nat.eqb]. field. }
      assert (Hc : c = if Nat.eqb i 0 then e / 2 else e). { unfold c. unfold A at 1, row12 at 1. cbn [ladj]. rewrite get_vtab by auto. fold (lapp A l). rewrite H0. destruct (Nat.eqb i 0); field. }
      rewrite Hc. unfold l. rewrite get_vtab by auto. destruct (Nat.eqb i 0); rewrite Rabs_right by lra; lra.
  - exists (vtab 2 (fun i => if Nat.eqb i 0 then 0 else 1)). rewrite Hx. replace (b [-] b) with (vzero : Vec 1) by vring. apply vec_ext. intros i Hi. unfold A, row12. cbn [ladj]. rewrite get_vtab by auto. rewrite !get_zero. destruct (Nat.eqb i 0); ring.
  - intro k. apply Rinv_0_lt_compat, Pk.
  - apply (Un_cv_ext (fun k => / INR (S k))); [|exact C1]. intro k. specialize (Pk k). revert Pk. generalize (INR (S k)). intros r Hr. field. lra.
  - intro M. destruct (archimed_cor1 (/ (Rabs M + 1))) as (N0 & HN & HN0); [apply Rinv_0_lt_compat; pose proof (Rabs_pos M); lra|]. exists N0. intros k Hk. pose proof (Rle_abs M). pose proof (Rabs_pos M).
    apply Rinv_lt_contravar in HN; [|apply Rmult_lt_0_compat; apply Rinv_0_lt_compat; [apply lt_0_INR; lia|lra]]. rewrite !Rinv_inv in HN. assert (INR N0 <= INR (S k)) by (apply le_INR; lia). lra.
Qed.
