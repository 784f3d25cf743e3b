(** * Proofs about the two-operator Dykstra algorithm (M_Dyk.v) *)
From Coq Require Import Psatz Classical.
From Verif Require Import Base Space Spec SpecOps ConvexFacts VSum MatFacts M_ProxOp M_Norms M_Loop LoopFacts LoopFacts2 SeqConv M_PG M_Multi M_Dyk P_Multi.
From Verif Require Export S_Dyk.
Open Scope result_scope.
Open Scope R_scope.

(** ** Specification: the documented recursion (Sum.py:52-59) *)

Section Math.
Context {E : IPS} (f g : efun E) (tau : R) (x0 : E) (xs ys ps qs : nat -> E).
Hypothesis Hf : convex f.
Hypothesis Hg : convex g.
Hypothesis Ht : 0 < tau.
Hypothesis HD : dykstra_seq f g tau x0 xs ys ps qs.

Lemma dyk_inv k : xs k [+] ps k [+] qs k = x0.
Proof.
  destruct HD as [H0 [H1 [H2 H]]]. induction k as [|k IH]; [rewrite H0, H1, H2; vring|]. destruct (H k) as [_ [-> [_ ->]]]. rewrite <- IH. vring.
Qed.
Lemma dyk_sub_f k : is_subgrad f (ys (S k)) (/ tau [*] ps (S k)).
Proof.
  destruct HD as [_ [_ [_ H]]]. destruct (H k) as [H1 [H2 _]]. apply prox_subgrad in H1; auto. replace (ps (S k)) with (xs k [+] ps k [-] ys (S k)); auto. rewrite H2. vring.
Qed.
Lemma dyk_sub_g k : is_subgrad g (xs (S k)) (/ tau [*] qs (S k)).
Proof.
  destruct HD as [_ [_ [_ H]]]. destruct (H k) as [_ [_ [H1 H2]]]. apply prox_subgrad in H1; auto. replace (qs (S k)) with (ys (S k) [+] qs k [-] xs (S k)); auto. rewrite H2. vring.
Qed.
Lemma dyk_agree k : (0 < k)%nat -> xs k = ys k -> is_prox (eadd f g) tau x0 (xs k).
Proof.
  intros Hk E1. destruct k as [|k]; [lia|]. apply subgrad_prox; auto.
  replace (/ tau [*] (x0 [-] xs (S k))) with (/ tau [*] ps (S k) [+] / tau [*] qs (S k)).
  - apply subgrad_add; [rewrite E1; apply dyk_sub_f|apply dyk_sub_g].
  - rewrite <- (dyk_inv (S k)). vring.
Qed.
(** how far the pair (y_k, x_k) is from optimal *)
Lemma dyk_gap k z : (0 < k)%nat -> edom f z -> edom g z ->
  eval f (ys k) + eval g (xs k) + / tau * << x0 [-] xs k, z [-] xs k >> <= eval f z + eval g z + / tau * << ps k, ys k [-] xs k >>.
Proof.
  intros Hk Hfz Hgz. destruct k as [|k]; [lia|]. destruct (dyk_sub_f k) as [_ H1]. destruct (dyk_sub_g k) as [_ H2]. specialize (H1 z Hfz). specialize (H2 z Hgz).
  rewrite <- (dyk_inv (S k)). 
  assert (EI : / tau * << xs (S k) [+] ps (S k) [+] qs (S k) [-] xs (S k), z [-] xs (S k) >> = 
    << / tau [*] ps (S k), z [-] ys (S k) >> + << / tau [*] qs (S k), z [-] xs (S k) >> + / tau * << ps (S k), ys (S k) [-] xs (S k) >>) by (iring).
  rewrite EI. lra.
Qed.

Section Fejer.
Context (z u v : E).
Hypothesis Hz : sum_prox_split f g tau x0 z u v.
Lemma dyk_fejer_p k : norm2 (ps (S k) [-] tau [*] u) + norm2 (ys (S k) [-] z) <= norm2 (qs k [-] tau [*] v).
Proof.
  destruct Hz as [Hu [Hv Hx]]. pose proof (subgrad_mono f _ _ _ _ (dyk_sub_f k) Hu) as Hm. pose proof (dyk_inv k) as Hi. destruct HD as [_ [_ [_ H]]]. destruct (H k) as [_ [Hp _]].
  assert (Eq : qs k [-] tau [*] v = vzero [-] ((ps (S k) [-] tau [*] u) [+] (ys (S k) [-] z))).
  { rewrite Hp. replace (qs k) with (x0 [-] xs k [-] ps k) by (rewrite <- Hi; vring). replace x0 with (z [+] tau [*] (u [+] v)) by (rewrite <- Hx; vring). vring. }
  rewrite Eq. assert (Hm' : 0 <= << ps (S k) [-] tau [*] u, ys (S k) [-] z >>).
  { replace (<< ps (S k) [-] tau [*] u, ys (S k) [-] z >>) with (tau * << / tau [*] ps (S k) [-] u, ys (S k) [-] z >>); [apply Rmult_le_pos; lra|]. inner_lin_all. field. lra. }
  set (a := ps (S k) [-] tau [*] u) in *. set (b := ys (S k) [-] z) in *. replace (norm2 (vzero [-] (a [+] b))) with (norm2 a + norm2 b + 2 * << a, b >>) by iring. lra.
Qed.
Lemma dyk_fejer_q k : norm2 (qs (S k) [-] tau [*] v) + norm2 (xs (S k) [-] z) <= norm2 (ps (S k) [-] tau [*] u).
Proof.
  destruct Hz as [Hu [Hv Hx]]. pose proof (subgrad_mono g _ _ _ _ (dyk_sub_g k) Hv) as Hm. pose proof (dyk_inv (S k)) as Hi.
  assert (Eq : ps (S k) [-] tau [*] u = vzero [-] ((qs (S k) [-] tau [*] v) [+] (xs (S k) [-] z))).
  { replace (ps (S k)) with (x0 [-] xs (S k) [-] qs (S k)) by (rewrite <- Hi; vring). replace x0 with (z [+] tau [*] (u [+] v)) by (rewrite <- Hx; vring). vring. }
  rewrite Eq. assert (Hm' : 0 <= << qs (S k) [-] tau [*] v, xs (S k) [-] z >>).
  { replace (<< qs (S k) [-] tau [*] v, xs (S k) [-] z >>) with (tau * << / tau [*] qs (S k) [-] v, xs (S k) [-] z >>); [apply Rmult_le_pos; lra|]. inner_lin_all. field. lra. }
  set (a := qs (S k) [-] tau [*] v) in *. set (b := xs (S k) [-] z) in *. replace (norm2 (vzero [-] (a [+] b))) with (norm2 a + norm2 b + 2 * << a, b >>) by iring. lra.
Qed.
Lemma dyk_summable n : RS n (fun k => norm2 (xs (S k) [-] z) + norm2 (ys (S k) [-] z)) + norm2 (qs n [-] tau [*] v) <= tau * tau * norm2 v.
Proof.
  induction n as [|n IH].
  - destruct HD as [_ [_ [-> _]]]. cbn [RS]. right. iring.
  - cbn [RS]. pose proof (dyk_fejer_p n). pose proof (dyk_fejer_q n). lra.
Qed.
Lemma dyk_p_bound k : norm2 (ps (S k) [-] tau [*] u) <= tau * tau * norm2 v.
Proof.
  pose proof (dyk_fejer_p k). pose proof (dyk_summable k). pose proof (norm2_nonneg (ys (S k) [-] z)).
  assert (0 <= RS k (fun k => norm2 (xs (S k) [-] z) + norm2 (ys (S k) [-] z))) by (apply RS_nonneg; intros i _; pose proof (norm2_nonneg (xs (S i) [-] z)); pose proof (norm2_nonneg (ys (S i) [-] z)); lra). lra.
Qed.
Lemma dyk_error k : norm2 (xs (S k) [-] z) <= tau * norm v * norm (ys (S k) [-] xs (S k)).
Proof.
  pose proof (dyk_inv (S k)) as Hi. destruct Hz as [Hu [Hv Hx]].
  pose proof (subgrad_mono f _ _ _ _ (dyk_sub_f k) Hu) as Hm1. pose proof (subgrad_mono g _ _ _ _ (dyk_sub_g k) Hv) as Hm2.
  set (P := ps (S k)) in *. set (Q := qs (S k)) in *. set (X := xs (S k)) in *. set (Y := ys (S k)) in *.
  assert (H1 : 0 <= << P [-] tau [*] u, Y [-] z >>).
  { replace (<< P [-] tau [*] u, Y [-] z >>) with (tau * << / tau [*] P [-] u, Y [-] z >>); [apply Rmult_le_pos; lra|]. inner_lin_all. field. lra. }
  assert (H2 : 0 <= << Q [-] tau [*] v, X [-] z >>).
  { replace (<< Q [-] tau [*] v, X [-] z >>) with (tau * << / tau [*] Q [-] v, X [-] z >>); [apply Rmult_le_pos; lra|]. inner_lin_all. field. lra. }
  assert (H3 : norm2 (X [-] z) <= << P [-] tau [*] u, Y [-] X >>).
  { assert (EQ : Q = x0 [-] X [-] P) by (rewrite <- Hi; vring). rewrite EQ in H2. replace x0 with (z [+] tau [*] (u [+] v)) in H2 by (rewrite <- Hx; vring).
    replace (<< z [+] tau [*] (u [+] v) [-] X [-] P [-] tau [*] v, X [-] z >>) with (- norm2 (X [-] z) - << P [-] tau [*] u, X [-] z >>) in H2 by iring.
    replace (<< P [-] tau [*] u, Y [-] z >>) with (<< P [-] tau [*] u, Y [-] X >> + << P [-] tau [*] u, X [-] z >>) in H1 by iring. lra. }
  eapply Rle_trans; [exact H3|]. eapply Rle_trans; [apply CS|]. apply Rmult_le_compat_r; [apply norm_nonneg|].
  apply norm_le_of_sq; [apply Rmult_le_pos; [lra|apply norm_nonneg]|]. pose proof (dyk_p_bound k) as HB. fold P in HB. 
  replace (tau * norm v * (tau * norm v)) with (tau * tau * (norm v * norm v)) by ring. rewrite norm_sq. exact HB.
Qed.
End Fejer.

(** dual descent: needs only a common point of the domains *)
Definition dyk_phi k := << ps k, ys k >> - tau * eval f (ys k) + << qs k, xs k >> - tau * eval g (xs k) + / 2 * norm2 (xs k).
Lemma dyk_descent k : (0 < k)%nat -> dyk_phi (S k) + / 2 * (norm2 (ys (S k) [-] xs k) + norm2 (xs (S k) [-] ys (S k))) <= dyk_phi k.
Proof.
  intro Hk. destruct k as [|j]; [lia|]. set (k := S j) in *. destruct (dyk_sub_f j) as [_ H1]. destruct (dyk_sub_g j) as [_ H2]. fold k in H1, H2.
  specialize (H1 (ys (S k)) (proj1 (dyk_sub_f k))). specialize (H2 (xs (S k)) (proj1 (dyk_sub_g k))).
  destruct HD as [_ [_ [_ H]]]. destruct (H k) as [_ [Hp [_ Hq]]]. unfold dyk_phi. rewrite Hp, Hq.
  apply (Rmult_le_compat_l tau) in H1; [|lra]. apply (Rmult_le_compat_l tau) in H2; [|lra].
  replace (tau * (eval f (ys k) + << / tau [*] ps k, ys (S k) [-] ys k >>)) with (tau * eval f (ys k) + << ps k, ys (S k) [-] ys k >>) in H1 by (inner_lin_all; field; lra).
  replace (tau * (eval g (xs k) + << / tau [*] qs k, xs (S k) [-] xs k >>)) with (tau * eval g (xs k) + << qs k, xs (S k) [-] xs k >>) in H2 by (inner_lin_all; field; lra).
  set (y' := ys (S k)) in *. set (x' := xs (S k)) in *.
  assert (EI : << ps k [+] xs k [-] y', y' >> + << qs k [+] y' [-] x', x' >> + / 2 * norm2 x' + / 2 * (norm2 (y' [-] xs k) + norm2 (x' [-] y')) =
     << ps k, ys k >> + << qs k, xs k >> + / 2 * norm2 (xs k) + << ps k, y' [-] ys k >> + << qs k, x' [-] xs k >>) by (unfold norm2; iexp; field).
  lra.
Qed.
Lemma dyk_phi_lower k z : (0 < k)%nat -> edom f z -> edom g z -> << x0, z >> - / 2 * norm2 z - tau * (eval f z + eval g z) <= dyk_phi k.
Proof.
  intros Hk Hfz Hgz. destruct k as [|j]; [lia|]. set (k := S j) in *. destruct (dyk_sub_f j) as [_ H1]. destruct (dyk_sub_g j) as [_ H2]. fold k in H1, H2.
  specialize (H1 z Hfz). specialize (H2 z Hgz). rewrite <- (dyk_inv k). unfold dyk_phi.
  apply (Rmult_le_compat_l tau) in H1; [|lra]. apply (Rmult_le_compat_l tau) in H2; [|lra].
  replace (tau * (eval f (ys k) + << / tau [*] ps k, z [-] ys k >>)) with (tau * eval f (ys k) + << ps k, z [-] ys k >>) in H1 by (inner_lin_all; field; lra).
  replace (tau * (eval g (xs k) + << / tau [*] qs k, z [-] xs k >>)) with (tau * eval g (xs k) + << qs k, z [-] xs k >>) in H2 by (inner_lin_all; field; lra).
  pose proof (norm2_nonneg (xs k [-] z)) as Hn. 
  assert (EI : << xs k [+] ps k [+] qs k, z >> - / 2 * norm2 z + / 2 * norm2 (xs k [-] z) = / 2 * norm2 (xs k) + << ps k, ys k >> + << qs k, xs k >> + << ps k, z [-] ys k >> + << qs k, z [-] xs k >>) by (unfold norm2; iexp; field).
  lra.
Qed.
Lemma dyk_moves_vanish z : edom f z -> edom g z -> forall eps, 0 < eps -> exists N, forall k, (N <= k)%nat -> norm2 (ys (S k) [-] xs k) + norm2 (xs (S k) [-] ys (S k)) < eps.
Proof.
  intros Hfz Hgz eps He.
  set (a := fun k => / 2 * (norm2 (ys (S (S k)) [-] xs (S k)) + norm2 (xs (S (S k)) [-] ys (S (S k))))).
  set (L := << x0, z >> - / 2 * norm2 z - tau * (eval f z + eval g z)).
  assert (HS : forall n, RS n a + dyk_phi (S n) <= dyk_phi 1).
  { induction n as [|n IH]; cbn [RS]; [lra|]. pose proof (dyk_descent (S n) ltac:(lia)). unfold a at 2. lra. }
  destruct (summable_vanish a (dyk_phi 1 - L)) with (eps := / 2 * eps) as [N HN].
  - intro j. unfold a. pose proof (norm2_nonneg (ys (S (S j)) [-] xs (S j))). pose proof (norm2_nonneg (xs (S (S j)) [-] ys (S (S j)))). lra.
  - intro n. pose proof (HS n). pose proof (dyk_phi_lower (S n) z ltac:(lia) Hfz Hgz). fold L in H0. lra.
  - lra.
  - exists (S N). intros k Hk. destruct k as [|k]; [lia|]. specialize (HN k ltac:(lia)). unfold a in HN. lra.
Qed.
End Math.

(** ** the loop computes that recursion *)
Definition step_impl {E : IPS} (step : E -> result E) (f : efun E) (tau : R) : Prop := forall v, exists y, step v = Ok y /\ is_prox f tau v y.

Lemma dyk2_run (E : IPS) (step1 step2 : E -> result E) f g tau x0 : step_impl step1 f tau -> step_impl step2 g tau ->
  exists xs ys ps qs, dykstra_seq f g tau x0 xs ys ps qs /\
    forall amax niter tol, exists k, dykstra_two amax x0 step1 step2 niter tol = Ok (xs k) /\ stops_when (dyk_small amax tol xs ys) niter k.
Proof.
  intros H1 H2. set (t := fun (step : E -> result E) v => match step v with Ok y => y | Err _ => v end).
  assert (T1 : forall v, step1 v = Ok (t step1 v) /\ is_prox f tau v (t step1 v)) by (intro v; destruct (H1 v) as [y [E1 E2]]; unfold t; rewrite E1; auto).
  assert (T2 : forall v, step2 v = Ok (t step2 v) /\ is_prox g tau v (t step2 v)) by (intro v; destruct (H2 v) as [y [E1 E2]]; unfold t; rewrite E1; auto).
  set (stp := fun s : dyk_state => let y := t step1 (d_x s [+] d_p s) in let x := t step2 (y [+] d_q s) in DY x y (d_p s [+] d_x s [-] y) (d_q s [+] y [-] x)).
  set (st := fun k => Base.iter k stp (DY x0 x0 vzero vzero)).
  assert (SS : forall k, st (S k) = stp (st k)) by (intro k; apply iter_S_out).
  exists (fun k => d_x (st k)), (fun k => d_y (st k)), (fun k => d_p (st k)), (fun k => d_q (st k)). split.
  - split; [reflexivity|]. split; [reflexivity|]. split; [reflexivity|]. intro k. rewrite SS. unfold stp. cbn [d_x d_y d_p d_q].
    split; [apply T1|]. split; [reflexivity|]. split; [apply T2|reflexivity].
  - intros amax niter tol.
    destruct (loop_iter_brk (dyk2_body amax step1 step2 tol) (fun _ => True) stp (fun s => Rltb (Rmax (amax (d_x (stp s) [-] d_x s)) (amax (d_y (stp s) [-] d_x s))) tol) (DY x0 x0 vzero vzero) I) with (n := niter) as [k [E1 Hk]].
    + intros j s _. split; auto. unfold dyk2_body. rewrite (proj1 (T1 _)). cbn [bind]. rewrite (proj1 (T2 _)). reflexivity.
    + exists k. unfold dykstra_two. rewrite E1. split; [reflexivity|]. destruct Hk as [Hk1 [Hk2 Hk3]].
      assert (EQ : forall j, (1 <= j)%nat -> (Rltb (Rmax (amax (d_x (stp (st (j - 1)%nat)) [-] d_x (st (j - 1)%nat))) (amax (d_y (stp (st (j - 1)%nat)) [-] d_x (st (j - 1)%nat)))) tol = true <->
         dyk_small amax tol (fun k => d_x (st k)) (fun k => d_y (st k)) j)).
      { intros j Hj. rewrite <- SS. replace (S (j - 1)) with j by lia. rewrite Rltb_true. unfold dyk_small. split.
        - intro H. split; eapply Rle_lt_trans; [apply Rmax_l|exact H|apply Rmax_r|exact H].
        - intros [Ha Hb]. apply Rmax_lub_lt; auto. }
      split; [exact Hk1|]. split.
      * intros j Hj HQ. apply EQ in HQ; [|lia]. exact (Hk2 j Hj HQ).
      * destruct Hk3 as [->|[Hk3 Hk4]]; [auto|]. right. split; auto. apply EQ; auto.
Qed.

Lemma stops_when_first (Q : nat -> Prop) n k N : stops_when Q n k -> (1 <= N)%nat -> Q N -> (k <= N)%nat.
Proof. intros [_ [H _]] HN HQ. destruct (Nat.le_gt_cases k N); auto. elim (H N); auto. Qed.
Lemma stops_never (Q : nat -> Prop) n k : stops_when Q n k -> (forall j, ~ Q j) -> k = n.
Proof. intros [_ [_ [H|[_ H]]]] HQ; auto. elim (HQ _ H). Qed.

Lemma impl_step {E : IPS} (o : Op E) f tau : impl_prox o f -> 0 < tau -> step_impl (fun v => o_prox o v tau) f tau.
Proof. intros H Ht v. apply H; auto. Qed.
Lemma sum_two {E : IPS} amax (a b : Op E) weights niter tol orig : exists o, sum_init [a; b] weights niter tol false orig = Ok o /\
  forall x0 tau, 0 < tau -> sum_prox amax o x0 tau = (o, dykstra_two amax x0 (fun v => o_prox a v tau) (fun v => o_prox b v tau) niter tol).
Proof.
  destruct weights; eexists; (split; [reflexivity|]); intros x0 tau Ht; unfold sum_prox; cbn [so_impl so_ops so_niter so_tol]; (destruct (Rleb_spec tau 0) as [[? _]|[_ ->]]; [lra|reflexivity]).
Qed.

(*! C35_recursion : Sum of any two operators implementing the prox of convex f and g, any starting point, step, weights, tolerance and iteration limit:
   the iterates follow the documented recursion, x + p + q equals the input at every iteration, at most niter iterations run and the loop ends
   exactly at the first iteration whose x and y both moved less than tol, and when the two iterates agree the result is the prox of f + g *)
Lemma C35_recursion_l : forall (E : IPS) amax (a b : Op E) f g x0 tau weights orig, impl_prox a f -> impl_prox b g -> convex f -> convex g -> 0 < tau ->
  exists xs ys ps qs, dykstra_seq f g tau x0 xs ys ps qs /\ (forall k, xs k [+] ps k [+] qs k = x0) /\
    forall niter tol, exists o k, sum_init [a; b] weights niter tol false orig = Ok o /\ sum_prox amax o x0 tau = (o, Ok (xs k)) /\
      stops_when (dyk_small amax tol xs ys) niter k /\ ((0 < k)%nat -> xs k = ys k -> is_prox (eadd f g) tau x0 (xs k)).
Proof.
  intros E amax a b f g x0 tau weights orig Ha Hb Hf Hg Ht.
  destruct (dyk2_run E (fun v => o_prox a v tau) (fun v => o_prox b v tau) f g tau x0 (impl_step a f tau Ha Ht) (impl_step b g tau Hb Ht)) as [xs [ys [ps [qs [HD HR]]]]].
  exists xs, ys, ps, qs. split; auto. split; [intro k; apply (dyk_inv f g tau x0 xs ys ps qs HD)|]. intros niter tol.
  destruct (HR amax niter tol) as [k [E1 Hk]]. destruct (sum_two amax a b weights niter tol orig) as [o [Eo Ho]]. exists o, k. split; auto. split; [rewrite Ho by auto; rewrite E1; reflexivity|].
  split; auto. intros Hk0 EQ. apply (dyk_agree f g tau x0 xs ys ps qs); auto.
Qed.

(*! C35_converges : if z is the prox of f + g at x0 with subgradients u of f and v of g at z adding up to (x0 - z)/tau, then with tol = 0 the result of
   Sum.prox tends to z as niter grows, and the squared errors of all iterates together never exceed tau^2 |v|^2 *)
Lemma C35_converges_l : forall (E : IPS) amax (a b : Op E) f g x0 tau weights orig z u v, impl_prox a f -> impl_prox b g -> convex f -> convex g -> 0 < tau ->
  (forall w, 0 <= amax w) -> sum_prox_split f g tau x0 z u v ->
  is_prox (eadd f g) tau x0 z /\
  exists xs, (forall n, RS n (fun k => norm2 (xs (S k) [-] z)) <= tau * tau * norm2 v) /\
    (forall niter, exists o, sum_init [a; b] weights niter 0 false orig = Ok o /\ sum_prox amax o x0 tau = (o, Ok (xs niter))) /\
    (forall eps, 0 < eps -> exists N, forall niter, (N <= niter)%nat -> norm (xs niter [-] z) < eps).
Proof.
  intros E amax a b f g x0 tau weights orig z u v Ha Hb Hf Hg Ht Hm Hz. split.
  { destruct Hz as [Hu [Hv Hx]]. apply subgrad_prox; auto. rewrite Hx. replace (/ tau [*] (tau [*] (u [+] v))) with (u [+] v) by (vfield; lra). apply subgrad_add; auto. }
  destruct (dyk2_run E (fun v => o_prox a v tau) (fun v => o_prox b v tau) f g tau x0 (impl_step a f tau Ha Ht) (impl_step b g tau Hb Ht)) as [xs [ys [ps [qs [HD HR]]]]].
  assert (HS : forall n, RS n (fun k => norm2 (xs (S k) [-] z)) <= tau * tau * norm2 v).
  { intro n. pose proof (dyk_summable f g tau x0 xs ys ps qs Hf Hg Ht HD z u v Hz n) as H. rewrite RS_add in H. pose proof (norm2_nonneg (qs n [-] tau [*] v)).
    assert (0 <= RS n (fun k => norm2 (ys (S k) [-] z))) by (apply RS_nonneg; intros; apply norm2_nonneg). lra. }
  exists xs. split; auto. split.
  - intro niter. destruct (HR amax niter 0) as [k [E1 Hk]]. destruct (sum_two amax a b weights niter 0 orig) as [o [Eo Ho]]. exists o. split; auto. rewrite Ho by auto. rewrite E1.
    replace k with niter; auto. symmetry. apply (stops_never _ _ _ Hk). intros j [H _]. specialize (Hm (xs j [-] xs (j - 1)%nat)). lra.
  - intros eps He. destruct (summable_vanish _ _ (fun j => norm2_nonneg (xs (S j) [-] z)) HS (eps * eps)) as [N HN]; [nra|].
    exists (S N). intros n Hn. apply norm_small; auto. destruct n as [|n]; [lia|]. apply (HN n). lia.
Qed.

(*! C35_stops : if the two functions have a common point of finiteness and tol > 0, the loop stops by itself: some N bounds the number of iterations
   whatever niter is, so for every niter beyond N the result is the same and it passed the tolerance test *)
Lemma C35_stops_l : forall (E : IPS) amax (a b : Op E) f g x0 tau weights orig tol, impl_prox a f -> impl_prox b g -> convex f -> convex g -> 0 < tau ->
  (forall w, amax w <= norm w) -> 0 < tol -> (exists z, edom f z /\ edom g z) ->
  exists xs ys ps qs N, dykstra_seq f g tau x0 xs ys ps qs /\ dyk_small amax tol xs ys N /\
    forall niter, (N <= niter)%nat -> exists o, sum_init [a; b] weights niter tol false orig = Ok o /\ sum_prox amax o x0 tau = (o, Ok (xs N)).
Proof.
  intros E amax a b f g x0 tau weights orig tol Ha Hb Hf Hg Ht Hm Htol [z [Hfz Hgz]].
  destruct (dyk2_run E (fun v => o_prox a v tau) (fun v => o_prox b v tau) f g tau x0 (impl_step a f tau Ha Ht) (impl_step b g tau Hb Ht)) as [xs [ys [ps [qs [HD HR]]]]].
  destruct (dyk_moves_vanish f g tau x0 xs ys ps qs Hf Hg Ht HD z Hfz Hgz (tol / 2 * (tol / 2))) as [M HM]; [nra|].
  assert (HQ : dyk_small amax tol xs ys (S M)).
  { specialize (HM M (le_n M)). pose proof (norm2_nonneg (ys (S M) [-] xs M)). pose proof (norm2_nonneg (xs (S M) [-] ys (S M))).
    assert (N1 : norm (ys (S M) [-] xs M) < tol / 2) by (apply norm_small; lra). assert (N2 : norm (xs (S M) [-] ys (S M)) < tol / 2) by (apply norm_small; lra).
    unfold dyk_small. replace (S M - 1)%nat with M by lia. split; eapply Rle_lt_trans; try apply Hm; [|lra].
    replace (xs (S M) [-] xs M) with ((xs (S M) [-] ys (S M)) [+] (ys (S M) [-] xs M)) by vring. eapply Rle_lt_trans; [apply norm_triangle|lra]. }
  destruct (HR amax (S M) tol) as [N [_ HN]]. assert (HNM : (N <= S M)%nat) by (apply HN).
  assert (HQN : dyk_small amax tol xs ys N). { destruct HN as [_ [_ [->|[_ H]]]]; auto. }
  assert (HN0 : (1 <= N)%nat). { destruct HN as [_ [_ [->|[H _]]]]; lia. }
  exists xs, ys, ps, qs, N. split; auto. split; auto. intros niter Hn. destruct (HR amax niter tol) as [k [E1 Hk]]. destruct (sum_two amax a b weights niter tol orig) as [o [Eo Ho]].
  exists o. split; auto. rewrite Ho by auto. rewrite E1. replace k with N; auto.
  pose proof (stops_when_first _ _ _ N Hk HN0 HQN) as Hle. destruct (Nat.eq_dec k N) as [|Hne]; auto. exfalso.
  destruct Hk as [Hk1 [_ [Hk3|[Hk3 Hk4]]]]; [lia|]. destruct HN as [_ [HN2 _]]. apply (HN2 k); auto. lia.
Qed.

(*! C35_stop_error : on arrays of n entries, whenever the loop ends with its tolerance test passed, the squared distance of the result to the prox z of f + g
   is at most 2 tol sqrt(n) tau |v| *)
Lemma C35_stop_error_l : forall n (a b : Op (Vec n)) f g x0 tau weights orig z u v, impl_prox a f -> impl_prox b g -> convex f -> convex g -> 0 < tau ->
  sum_prox_split f g tau x0 z u v -> exists xs ys ps qs, dykstra_seq f g tau x0 xs ys ps qs /\
    forall niter tol, exists o k, sum_init [a; b] weights niter tol false orig = Ok o /\ sum_prox vamax o x0 tau = (o, Ok (xs k)) /\ (k <= niter)%nat /\
      (k = niter /\ ~ dyk_small vamax tol xs ys k \/ k = 0%nat \/ norm2 (xs k [-] z) <= 2 * tol * sqrt (INR n) * (tau * norm v)).
Proof.
  intros n a b f g x0 tau weights orig z u v Ha Hb Hf Hg Ht Hz.
  destruct (dyk2_run (Vec n) (fun v => o_prox a v tau) (fun v => o_prox b v tau) f g tau x0 (impl_step a f tau Ha Ht) (impl_step b g tau Hb Ht)) as [xs [ys [ps [qs [HD HR]]]]].
  exists xs, ys, ps, qs. split; auto. intros niter tol. destruct (HR vamax niter tol) as [k [E1 Hk]]. destruct (sum_two vamax a b weights niter tol orig) as [o [Eo Ho]].
  exists o, k. split; auto. split; [rewrite Ho by auto; rewrite E1; reflexivity|]. split; [apply Hk|].
  assert (HE : (1 <= k)%nat -> dyk_small vamax tol xs ys k -> norm2 (xs k [-] z) <= 2 * tol * sqrt (INR n) * (tau * norm v)).
  { intros Hk1 [H1 H2]. destruct k as [|k]; [lia|]. eapply Rle_trans; [apply (dyk_error f g tau x0 xs ys ps qs Hf Hg Ht HD z u v Hz k)|].
    rewrite (Rmult_comm _ (tau * norm v)). apply Rmult_le_compat_l; [apply Rmult_le_pos; [lra|apply norm_nonneg]|].
    replace (S k - 1)%nat with k in * by lia. pose proof (vamax_tri n (ys (S k)) (xs k) (xs (S k))) as Htri. rewrite (vamax_sym n (xs k)) in Htri.
    pose proof (vamax_nonneg n (ys (S k) [-] xs (S k))) as H0. pose proof (norm2_le_vamax n (ys (S k) [-] xs (S k))) as HN.
    assert (Htol : 0 < tol) by (pose proof (vamax_nonneg n (xs (S k) [-] xs k)); lra). pose proof (sqrt_pos (INR n)) as Hs. pose proof (sqrt_sqrt (INR n) (pos_INR n)) as Hss.
    apply norm_le_of_sq; [apply Rmult_le_pos; [lra|auto]|]. eapply Rle_trans; [exact HN|].
    replace (2 * tol * sqrt (INR n) * (2 * tol * sqrt (INR n))) with (INR n * (2 * tol * (2 * tol))) by (rewrite <- Hss at 1; ring).
    apply Rmult_le_compat_l; [apply pos_INR|]. nra. }
  destruct k as [|k]; [auto|]. destruct Hk as [_ [_ [Hk|[Hk1 Hk2]]]].
  - destruct (classic (dyk_small vamax tol xs ys (S k))) as [H|H]; [right; right; apply HE; auto; lia|left; auto].
  - right; right. apply HE; auto.
Qed.
