(** * Proofs about ProximalPoint and ProximalGradient (M_PG.v) *)
From Coq Require Import String Psatz.
From Verif Require Import Base Space Spec ConvexFacts Smooth M_ProxOp SpecOps P_ProxOp M_Loop LoopFacts Trace SeqFacts M_PG M_Norms P_Norms.
From Verif Require Export S_PG.
Open Scope result_scope.
Open Scope R_scope.


(** ** Mathematics of the recursions *)
Section Math.
Context {E : IPS}.

Lemma prox_ineq (f : efun E) tau x p y : convex f -> 0 < tau -> is_prox f tau x p -> edom f y ->
  2 * tau * (eval f p - eval f y) + norm2 (p [-] y) + norm2 (p [-] x) <= norm2 (x [-] y).
Proof.
  intros Hc Ht Hp Hy. apply prox_subgrad in Hp; auto.
  pose proof (subgrad_prox_strong f tau x p Ht Hp y Hy) as H.
  rewrite (norm2_sub_sym p y), (norm2_sub_sym x y).
  apply (Rmult_le_compat_l (2 * tau)) in H; [|lra].
  replace (2 * tau * (eval f p + / (2 * tau) * norm2 (p [-] x) + / (2 * tau) * norm2 (y [-] p)))
    with (2 * tau * eval f p + norm2 (p [-] x) + norm2 (y [-] p)) in H by (field; lra).
  replace (2 * tau * (eval f y + / (2 * tau) * norm2 (y [-] x))) with (2 * tau * eval f y + norm2 (y [-] x)) in H by (field; lra).
  lra.
Qed.

Lemma pp_dom (f : efun E) tau xs k : pp_seq f tau xs k -> (1 <= k)%nat -> edom f (xs k).
Proof. intros H Hk. destruct k; [lia|]. apply (H k). lia. Qed.

Lemma pp_mono (f : efun E) tau xs k : 0 < tau -> pp_seq f tau xs k -> forall j, (1 <= j)%nat -> (S j <= k)%nat ->
  eval f (xs (S j)) <= eval f (xs j).
Proof.
  intros Ht H j Hj Hk. destruct (H j ltac:(lia)) as [_ Hm].
  assert (Hd : edom f (xs j)). { destruct j; [lia|]. apply (H j). lia. }
  specialize (Hm _ Hd). rewrite vsub_diag, norm2_zero in Hm. pose proof (norm2_nonneg (xs (S j) [-] xs j)).
  assert (0 < / (2 * tau)) by (apply Rinv_0_lt_compat; lra). nra.
Qed.

Lemma pp_rate (f : efun E) tau xs k : convex f -> 0 < tau -> pp_seq f tau xs k -> forall y, edom f y ->
  2 * tau * INR k * (eval f (xs k) - eval f y) + norm2 (xs k [-] y) <= norm2 (xs 0%nat [-] y).
Proof.
  intros Hc Ht. induction k as [|k IH]; intros H y Hy; [simpl; lra|].
  assert (Hk : pp_seq f tau xs k) by (intros j Hj; apply H; lia).
  specialize (IH Hk y Hy).
  pose proof (prox_ineq f tau _ _ y Hc Ht (H k ltac:(lia)) Hy) as Hi.
  pose proof (norm2_nonneg (xs (S k) [-] xs k)).
  rewrite S_INR. destruct k as [|k].
  - simpl INR in *. lra.
  - pose proof (pp_mono f tau xs (S (S k)) Ht H (S k) ltac:(lia) ltac:(lia)) as Hm.
    pose proof (pos_INR (S k)).
    assert (0 <= 2 * tau * INR (S k) * (eval f (xs (S k)) - eval f (xs (S (S k))))) by (apply Rmult_le_pos; [apply Rmult_le_pos; lra|lra]).
    lra.
Qed.

(** One proximal-gradient step with sufficient decrease. *)
Lemma pg_ineq (f : E -> R) (df : E -> E) (g : efun E) tau eps y p :
  0 < tau -> 0 < eps -> (forall z, f y + << df y, z [-] y >> <= f z) -> convex g ->
  is_prox g (eps * tau) (y [-] tau [*] df y) p ->
  f p <= f y + << df y, p [-] y >> + / (2 * tau) * norm2 (p [-] y) ->
  forall z, edom g z ->
  2 * tau * ((f p + eps * eval g p) - (f z + eps * eval g z)) + norm2 (p [-] z) <= norm2 (y [-] z).
Proof.
  intros Ht He Hf Hg Hp Hd z Hz. assert (Het : 0 < eps * tau) by nra.
  apply prox_subgrad in Hp; auto. destruct Hp as [_ Hp]. specialize (Hp z Hz). specialize (Hf z).
  rewrite inner_scal_l in Hp.
  apply (Rmult_le_compat_l (2 * (eps * tau))) in Hp; [|lra].
  replace (2 * (eps * tau) * (eval g p + / (eps * tau) * << y [-] tau [*] df y [-] p, z [-] p >>))
    with (2 * tau * (eps * eval g p) + 2 * << y [-] p, z [-] p >> - 2 * tau * << df y, z [-] p >>) in Hp
    by (iexp; field; split; lra).
  apply (Rmult_le_compat_l (2 * tau)) in Hd; [|lra].
  replace (2 * tau * (f y + << df y, p [-] y >> + / (2 * tau) * norm2 (p [-] y))) with
    (2 * tau * f y + 2 * tau * << df y, p [-] y >> + norm2 (p [-] y)) in Hd by (field; lra).
  apply (Rmult_le_compat_l (2 * tau)) in Hf; [|lra].
  replace (norm2 (y [-] z)) with (norm2 (p [-] y) + norm2 (p [-] z) - 2 * << y [-] p, z [-] p >>) by iring.
  replace (<< df y, z [-] y >>) with (<< df y, z [-] p >> + << df y, p [-] y >>) in Hf by iring.
  lra.
Qed.


(** Sufficient decrease along the run. *)
Definition suff_dec (f : E -> R) (df : E -> E) (tau : nat -> R) (xs ys : nat -> E) (k : nat) : Prop :=
  forall j, (j < k)%nat ->
    f (xs (S j)) <= f (ys j) + << df (ys j), xs (S j) [-] ys j >> + / (2 * tau j) * norm2 (xs (S j) [-] ys j).

Lemma suff_dec_small (f : E -> R) df L tau xs ys k : smooth_convex f df L -> 0 < L ->
  (forall j, (j < k)%nat -> 0 < tau j <= / L) -> suff_dec f df tau xs ys k.
Proof.
  intros [_ H] HL Ht j Hj. specialize (Ht j Hj). eapply Rle_trans; [apply H|].
  apply Rplus_le_compat_l, Rmult_le_compat_r; [apply norm2_nonneg|].
  replace (/ (2 * tau j)) with (/ tau j / 2) by (field; lra).
  assert (L <= / tau j); [|lra]. rewrite <- (Rinv_inv L). apply Rinv_le_contravar; lra.
Qed.

Section PGmath.
Variables (f : E -> R) (df : E -> E) (g : efun E) (eps : R).
Hypothesis (Hf : forall x y, f x + << df x, y [-] x >> <= f y) (Hg : convex g) (He : 0 < eps).
Let F x := f x + eps * eval g x.

Lemma convex_total : convex (etot f).
Proof.
  intros x y t _ _ Ht. split; [exact I|]. cbn [eval etot]. set (w := (1 - t) [*] x [+] t [*] y).
  pose proof (Hf w x) as H1. pose proof (Hf w y) as H2.
  apply (Rmult_le_compat_l (1 - t)) in H1; [|lra]. apply (Rmult_le_compat_l t) in H2; [|lra].
  assert ((1 - t) * << df w, x [-] w >> + t * << df w, y [-] w >> = 0).
  { rewrite <- !inner_scal_r, <- inner_add_r. replace ((1 - t) [*] (x [-] w) [+] t [*] (y [-] w)) with (vzero : E) by (unfold w; vring). apply inner_zero_r. }
  nra.
Qed.

Lemma pg_F_convex x y t : edom g x -> edom g y -> 0 <= t <= 1 ->
  edom g ((1 - t) [*] x [+] t [*] y) /\ F ((1 - t) [*] x [+] t [*] y) <= (1 - t) * F x + t * F y.
Proof.
  intros Hx Hy Ht. destruct (Hg x y t Hx Hy Ht) as [H1 H2]. split; auto.
  destruct (convex_total x y t I I Ht) as [_ H3]. cbn [eval etot] in H3. unfold F. nra.
Qed.

Variables (tau : nat -> R) (omega : nat -> R) (xs ys : nat -> E).
Hypothesis Htau : forall j, 0 < tau j.

Lemma pg_doc_step eta k : eta = 1 -> pg_doc df g (fun _ => eps) tau eta omega xs ys k -> forall j, (j < k)%nat ->
  is_prox g (eps * tau j) (ys j [-] tau j [*] df (ys j)) (xs (S j)).
Proof.
  intros -> [_ H] j Hj. destruct (H j Hj) as [p [Hp [Hx _]]].
  replace (xs (S j)) with p; auto. rewrite Hx. vring.
Qed.
Lemma pg_doc_dom k : pg_doc df g (fun _ => eps) tau 1 omega xs ys k -> forall j, (1 <= j <= k)%nat -> edom g (xs j).
Proof. intros H j Hj. destruct j; [lia|]. eapply (pg_doc_step 1 k); eauto. lia. Qed.

(** No acceleration. *)
Lemma pg_plain k : (forall j, omega j = 0) -> pg_doc df g (fun _ => eps) tau 1 omega xs ys k -> forall j, (j <= k)%nat -> ys j = xs j.
Proof.
  intros Ho [H0 H] j Hj. destruct j; auto. destruct (H j ltac:(lia)) as [p [_ [_ Hy]]]. rewrite Hy, Ho. vring.
Qed.

Lemma pg_mono k : (forall j, omega j = 0) -> pg_doc df g (fun _ => eps) tau 1 omega xs ys k -> suff_dec f df tau xs ys k ->
  forall j, (j < k)%nat -> edom g (xs j) -> F (xs (S j)) <= F (xs j).
Proof.
  intros Ho H Hs j Hj Hd.
  pose proof (pg_ineq f df g (tau j) eps (ys j) (xs (S j)) (Htau j) He (Hf (ys j)) Hg
    (pg_doc_step 1 k eq_refl H j Hj) (Hs j Hj) (xs j) Hd) as Hi.
  rewrite (pg_plain k Ho H j ltac:(lia)), vsub_diag, norm2_zero in Hi.
  pose proof (norm2_nonneg (xs (S j) [-] xs j)). pose proof (Htau j). unfold F. nra.
Qed.

Lemma pg_rate k z : (forall j, omega j = 0) -> pg_doc df g (fun _ => eps) tau 1 omega xs ys k -> suff_dec f df tau xs ys k ->
  edom g z ->
  (forall j, (S j < k)%nat -> tau (S j) * (F (xs (S j)) - F z) <= tau j * (F (xs (S j)) - F z)) ->
  forall j, (S j <= k)%nat ->
    2 * tau j * INR (S j) * (F (xs (S j)) - F z) + norm2 (xs (S j) [-] z) <= norm2 (xs 0%nat [-] z).
Proof.
  intros Ho H Hs Hz Hm j.
  assert (Hi : forall j, (j < k)%nat -> 2 * tau j * (F (xs (S j)) - F z) + norm2 (xs (S j) [-] z) <= norm2 (xs j [-] z)).
  { clear j. intros j Hj.
    pose proof (pg_ineq f df g _ eps _ _ (Htau j) He (Hf (ys j)) Hg (pg_doc_step 1 k eq_refl H j Hj) (Hs j Hj) z Hz) as Hi.
    rewrite (pg_plain k Ho H j ltac:(lia)) in Hi. exact Hi. }
  induction j as [|j IH]; intro Hj; specialize (Hi _ Hj).
  - simpl INR. lra.
  - specialize (IH ltac:(lia)). specialize (Hm j ltac:(lia)).
    pose proof (pg_mono k Ho H Hs (S j) Hj (pg_doc_dom k H (S j) ltac:(lia))) as Hd.
    rewrite (S_INR (S j)). pose proof (pos_INR (S j)) as Hp. pose proof (Htau (S j)) as Ht.
    assert (0 <= tau (S j) * INR (S j) * (F (xs (S j)) - F (xs (S (S j))))) by (apply Rmult_le_pos; [nra|lra]).
    assert (INR (S j) * (tau (S j) * (F (xs (S j)) - F z)) <= INR (S j) * (tau j * (F (xs (S j)) - F z))) by (apply Rmult_le_compat_l; lra).
    nra.
Qed.

(** Acceleration: t_0 = 1, t_{k+1}^2 - t_{k+1} <= t_k^2, omega_k = (t_k - 1)/t_{k+1}. *)
Variable t : nat -> R.
Hypotheses (Ht0 : t 0%nat = 1) (Ht1 : forall j, 1 <= t j) (Ht2 : forall j, t (S j) * t (S j) - t (S j) <= t j * t j).

Lemma fista_step k z : pg_doc df g (fun _ => eps) tau 1 omega xs ys k -> suff_dec f df tau xs ys k -> edom g z ->
  forall j, (j < k)%nat -> (t j = 1 \/ edom g (xs j)) ->
  2 * tau j * (t j * t j * (F (xs (S j)) - F z) - (t j * t j - t j) * (F (xs j) - F z))
    + norm2 (t j [*] xs (S j) [-] (t j - 1) [*] xs j [-] z)
  <= norm2 (t j [*] ys j [-] (t j - 1) [*] xs j [-] z).
Proof.
  intros H Hs Hz j Hj Hd. set (s := t j). assert (Hs1 : 1 <= s) by apply Ht1.
  set (w := (1 - / s) [*] xs j [+] / s [*] z).
  assert (Hi : 0 < / s <= 1). { split; [apply Rinv_0_lt_compat; lra|]. rewrite <- Rinv_1. apply Rinv_le_contravar; lra. }
  assert (Hw : edom g w /\ s * s * F w <= (s * s - s) * F (xs j) + s * F z).
  { destruct Hd as [Hd|Hd].
    - fold s in Hd. unfold w. rewrite Hd, Rinv_1. replace ((1 - 1) [*] xs j [+] 1 [*] z) with z by vring. split; auto. lra.
    - destruct (pg_F_convex (xs j) z (/ s) Hd Hz ltac:(lra)) as [H1 H2]. split; auto. fold w in H2.
      apply (Rmult_le_compat_l (s * s)) in H2; [|nra].
      replace (s * s * ((1 - / s) * F (xs j) + / s * F z)) with ((s * s - s) * F (xs j) + s * F z) in H2 by (field; lra). exact H2. }
  destruct Hw as [Hw Hc].
  pose proof (pg_ineq f df g (tau j) eps (ys j) (xs (S j)) (Htau j) He (Hf (ys j)) Hg
    (pg_doc_step 1 k eq_refl H j Hj) (Hs j Hj) w Hw) as Hq.
  fold (F (xs (S j))) (F w) in Hq.
  apply (Rmult_le_compat_l (s * s)) in Hq; [|nra].
  rewrite Rmult_plus_distr_l in Hq.
  replace (s * s * norm2 (xs (S j) [-] w)) with (norm2 (s [*] xs (S j) [-] (s - 1) [*] xs j [-] z)) in Hq.
  2:{ rewrite <- norm2_scal. f_equal. unfold w. vfield. lra. }
  replace (s * s * norm2 (ys j [-] w)) with (norm2 (s [*] ys j [-] (s - 1) [*] xs j [-] z)) in Hq.
  2:{ rewrite <- norm2_scal. f_equal. unfold w. vfield. lra. }
  pose proof (Htau j). nra.
Qed.

Lemma fista_rate k z : (forall j, omega j = (t j - 1) / t (S j)) ->
  pg_doc df g (fun _ => eps) tau 1 omega xs ys k -> suff_dec f df tau xs ys k ->
  (forall j, (S j < k)%nat -> tau (S j) <= tau j) ->
  edom g z -> (forall y, edom g y -> F z <= F y) ->
  forall j, (S j <= k)%nat ->
    2 * tau j * (t j * t j) * (F (xs (S j)) - F z)
      + norm2 (t j [*] xs (S j) [-] (t j - 1) [*] xs j [-] z) <= norm2 (xs 0%nat [-] z).
Proof.
  intros Ho H Hs Hm Hz Hmin j. induction j as [|j IH]; intro Hj.
  - pose proof (fista_step k z H Hs Hz 0%nat Hj (or_introl Ht0)) as Hi. rewrite Ht0 in *.
    destruct H as [H0 _]. rewrite H0 in Hi.
    replace (1 [*] xs 0%nat [-] (1 - 1) [*] xs 0%nat [-] z) with (xs 0%nat [-] z) in Hi by vring. lra.
  - specialize (IH ltac:(lia)).
    pose proof (pg_doc_dom k H (S j) ltac:(lia)) as Hd.
    pose proof (fista_step k z H Hs Hz (S j) Hj (or_intror Hd)) as Hi.
    assert (Hy : t (S j) [*] ys (S j) [-] (t (S j) - 1) [*] xs (S j) [-] z = t j [*] xs (S j) [-] (t j - 1) [*] xs j [-] z).
    { destruct H as [_ H]. destruct (H j ltac:(lia)) as [p [_ [_ ->]]]. rewrite Ho. pose proof (Ht1 (S j)). vfield. lra. }
    rewrite Hy in Hi. specialize (Hm j ltac:(lia)). specialize (Hmin _ Hd). pose proof (Ht2 j) as Hq.
    pose proof (Htau (S j)) as Ht. pose proof (Ht1 (S j)) as H1. set (v := F (xs (S j)) - F z) in *.
    assert (Hv : 0 <= v) by (unfold v; lra).
    assert (tau (S j) * ((t (S j) * t (S j) - t (S j)) * v) <= tau j * (t j * t j * v)).
    { apply Rmult_le_compat; try lra; [apply Rmult_le_pos; nra|]. apply Rmult_le_compat_r; lra. }
    nra.
Qed.
End PGmath.
End Math.

(** ** ProximalPoint *)
Section PP.
Context {E : IPS}.

Lemma pp_run (o : Op E) (f : efun E) x0 tau niter tol :
  impl_prox o f -> impl_call o f -> 0 < tau ->
  (tol <> None -> forall x, edom f x -> eval f x <> 0) ->
  exists xs k, ProximalPoint o x0 tau niter tol = Ok (xs k, map xs (seq 1 k)) /\
    xs 0%nat = x0 /\ pp_seq f tau xs k /\ stops_at tol (fun j => eval f (xs j)) niter k /\ (niter <> 0%nat -> (0 < k)%nat).
Proof.
  intros Hp Hc Ht Hnz.
  set (Seq := fun k (s : pp_state E) (xs : nat -> E) => xs 0%nat = x0 /\ pp_seq f tau xs k /\ pp_x s = xs k /\
    pp_tr s = map xs (seq 1 k) /\
    (tol <> None -> (k = 0%nat -> pp_pf s = None) /\ (k <> 0%nat -> pp_pf s = Some (eval f (xs k))))).
  set (P := fun k s => exists xs, Seq k s xs /\
    forall t, tol = Some t -> forall j, (1 <= j <= k)%nat -> ~ rel_small t (fun j => eval f (xs j)) j).
  set (Q := fun k s => exists xs, Seq k s xs /\
    exists t, tol = Some t /\ (forall j, (1 <= j < k)%nat -> ~ rel_small t (fun j => eval f (xs j)) j) /\
       rel_small t (fun j => eval f (xs j)) k).
  assert (Hstep : forall j s, (0 <= j < 0 + niter)%nat -> P j s -> exists s' b, pp_body o tau tol j s = Ok (s', b) /\
     (b = false -> P (S j) s') /\ (b = true -> Q (S j) s')).
  { intros j s _ [xs [[S0 [S1 [S2 [S3 S4]]]] Hno]].
    destruct (Hp (pp_x s) tau Ht) as [p [Ep Hpp]]. unfold pp_body. rewrite Ep. simpl.
    set (xs' := upd xs (S j) p).
    assert (Hx : forall i, (i <= j)%nat -> xs' i = xs i) by (intros; apply upd_lt; lia).
    assert (Hxs : xs' (S j) = p) by apply upd_eq.
    assert (Hseq : forall pf, (tol <> None -> pf = Some (eval f p)) -> Seq (S j) (PP p pf (pp_tr s ++ [p])) xs').
    { intros pf Hpf. unfold Seq. cbn [pp_x pp_pf pp_tr]. split; [|split; [|split; [|split]]].
      - rewrite (Hx 0%nat) by lia; auto.
      - intros i Hi. destruct (Nat.eq_dec i j) as [->|Hne].
        + rewrite Hxs, (Hx j) by lia. rewrite <- S2. auto.
        + rewrite (Hx i), (Hx (S i)) by lia. apply S1. lia.
      - auto.
      - unfold xs'. rewrite map_upd_snoc, S3. reflexivity.
      - intro Hn. split; [intros; discriminate|]. intros _. rewrite Hxs. auto. }
    destruct tol as [t|].
    - unfold get_val at 1. rewrite (Hc p (proj1 Hpp)). simpl.
      assert (Hr : exists b, rel_stop true t (eval f p) (pp_pf s) = Ok b).
      { destruct S4 as [S4 S5]; [discriminate|]. destruct (Nat.eq_dec j 0) as [->|Hj].
        - rewrite S4; simpl; eauto.
        - rewrite S5 by auto. simpl. destruct (Reqb_spec (eval f (xs j)) 0) as [[Hz ->]|[Hz ->]]; eauto.
          exfalso. apply (Hnz ltac:(discriminate) (xs j)); auto. destruct j; [lia|]. apply (S1 j); lia. }
      destruct Hr as [b Hr]. rewrite Hr. simpl. eexists; exists b; split; [reflexivity|].
      destruct S4 as [S4 S5]; [discriminate|].
      assert (Hb : b = true <-> rel_small t (fun i => eval f (xs' i)) (S j)).
      { eapply (rel_stop_small true t (fun i => eval f (xs' i)) j); eauto.
        - intro Hj. rewrite Hx by lia. auto.
        - simpl. rewrite Hxs. reflexivity. }
      assert (Hold : forall i, (1 <= i <= j)%nat -> ~ rel_small t (fun i => eval f (xs' i)) i).
      { intros i Hi Hs. apply (Hno t eq_refl i Hi). destruct i as [|[|i]]; auto. simpl in *. rewrite !Hx in Hs by lia. exact Hs. }
      split; intro Hbb.
      + exists xs'. split; [apply Hseq; auto|]. intros t0 Et i Hi Hs. inversion Et; subst t0.
        destruct (Nat.eq_dec i (S j)) as [->|Hne]; [apply Hb in Hs; congruence|]. apply (Hold i); auto; lia.
      + exists xs'. split; [apply Hseq; auto|]. exists t. repeat split; auto; [|apply Hb; auto].
        intros i Hi. apply Hold; lia.
    - eexists; exists false; split; [reflexivity|]. split; [|discriminate]. intros _.
      exists xs'. split; [apply Hseq; congruence|]. intros; discriminate. }
  destruct (for_loop_run (pp_body o tau tol) P Q niter 0%nat (PP x0 None [])) as [s' [k [Er [Hk [Hk0 Hf]]]]].
  - exact Hstep.
  - exists (fun _ => x0). split; [|intros; lia].
    split; [auto|split; [intros i Hi; lia|split; [auto|split; [auto|]]]]. intros _; split; auto; lia.
  - unfold ProximalPoint. rewrite Er. simpl.
    destruct Hf as [[Hn [xs [[S0 [S1 [S2 [S3 S4]]]] Hno]]]|[xs [[S0 [S1 [S2 [S3 S4]]]] [t [Et [Hno Hs]]]]]].
    + exists xs, k. rewrite S2, S3. split; [auto|split; [auto|split; [auto|split; [|auto]]]]. unfold stops_at. destruct tol as [t|]; [|lia].
      repeat split; [lia| |left; lia]. intros j Hj. apply (Hno t eq_refl); lia.
    + exists xs, k. rewrite S2, S3. split; [auto|split; [auto|split; [auto|split; [|auto]]]]. unfold stops_at. rewrite Et. repeat split; auto; lia.
Qed.
End PP.

(*! C40_iterates : ProximalPoint returns the k-th point of the sequence x_{j+1} = prox_{tau f}(x_j) started at x0, and
   its callback saw exactly x_1, ..., x_k in order; k is niter without tol, and with tol the first iteration whose
   relative objective change is below tol (or niter) *)
Lemma C40_iterates_l : forall (E : IPS) (o : Op E) (f : efun E) x0 tau niter tol,
  impl_prox o f -> impl_call o f -> 0 < tau ->
  (tol <> None -> forall x, edom f x -> eval f x <> 0) ->
  exists xs k, ProximalPoint o x0 tau niter tol = Ok (xs k, map xs (seq 1 k)) /\
    xs 0%nat = x0 /\ pp_seq f tau xs k /\ stops_at tol (fun j => eval f (xs j)) niter k.
Proof. intros E o f x0 tau niter tol H1 H2 H3 H4. destruct (pp_run o f x0 tau niter tol H1 H2 H3 H4) as [xs [k H]]. exists xs, k. intuition. Qed.

Lemma pp_result {E : IPS} (o : Op E) (f : efun E) x0 tau niter x tr :
  impl_prox o f -> 0 < tau -> ProximalPoint o x0 tau niter None = Ok (x, tr) ->
  exists xs, x = xs niter /\ tr = map xs (seq 1 niter) /\ xs 0%nat = x0 /\ pp_seq f tau xs niter.
Proof.
  intros Hp Ht H. unfold ProximalPoint in H.
  destruct (for_loop _ _ _ _) as [[s k]|e] eqn:El in H; simpl in H; [|discriminate]. inversion H; subst. clear H.
  assert (Hk : k = niter).
  { apply for_loop_count in El; auto. intros j s1 s2 b Hb. unfold pp_body in Hb. destruct (o_prox o (pp_x s1) tau); simpl in Hb; inversion Hb; auto. }
  apply (for_loop_inv _ (fun k s => exists xs, pp_x s = xs k /\ pp_tr s = map xs (seq 1 k) /\ xs 0%nat = x0 /\ pp_seq f tau xs k)) in El.
  - rewrite Hk in El. exact (proj1 El).
  - intros j s1 s2 b [xs [S1 [S2 [S3 S4]]]] Hb. unfold pp_body in Hb. destruct (Hp (pp_x s1) tau Ht) as [p [Ep Hpp]].
    rewrite Ep in Hb. simpl in Hb. inversion Hb; subst. exists (upd xs (S j) p). cbn [pp_x pp_tr].
    rewrite upd_eq, map_upd_snoc, S2, upd_ne by lia. split; [auto|split; [auto|split; [auto|]]].
    intros i Hi. destruct (Nat.eq_dec i j) as [->|Hne].
    + rewrite upd_eq, upd_lt by lia. rewrite <- S1. auto.
    + rewrite !upd_lt by lia. apply S4. lia.
  - exists (fun _ => x0). split; [auto|split; [auto|split; [auto|]]]. intros i Hi; lia.
Qed.

(*! C40_rate : for convex f and every number of iterations k >= 1, f(x_k) - f(y) <= |x0 - y|^2 / (2 tau k) for every y
   in the domain (in particular for minimisers), and the objective never increases along the callbacks *)
Lemma C40_rate_l : forall (E : IPS) (o : Op E) (f : efun E) x0 tau niter,
  impl_prox o f -> convex f -> 0 < tau -> (1 <= niter)%nat ->
  exists x tr, ProximalPoint o x0 tau niter None = Ok (x, tr) /\ List.length tr = niter /\ edom f x /\
    (forall y, edom f y -> eval f x - eval f y <= norm2 (x0 [-] y) / (2 * tau * INR niter)) /\
    (forall i a b, nth_error tr i = Some a -> nth_error tr (S i) = Some b -> eval f b <= eval f a).
Proof.
  intros E o f x0 tau niter Hp Hc Ht Hn.
  assert (Hok : exists x tr, ProximalPoint o x0 tau niter None = Ok (x, tr)).
  { unfold ProximalPoint. destruct (for_loop_total (pp_body o tau None) (fun _ _ => True) niter 0%nat (PP x0 None [])) as [s [k Ek]]; auto.
    - intros j s _ _. unfold pp_body. destruct (Hp (pp_x s) tau Ht) as [p [-> _]]. simpl. eauto.
    - rewrite Ek. simpl. eauto. }
  destruct Hok as [x [tr Hok]]. destruct (pp_result o f x0 tau niter x tr Hp Ht Hok) as [xs [Hx [Htr [H0 Hs]]]].
  exists x, tr. split; auto. split; [rewrite Htr, map_length, seq_length; auto|].
  split; [subst x; apply (pp_dom f tau xs niter); auto|]. split.
  - intros y Hy. pose proof (pp_rate f tau xs niter Hc Ht Hs y Hy) as H. rewrite H0, <- Hx in H.
    pose proof (norm2_nonneg (x [-] y)). assert (0 < INR niter) by (apply lt_0_INR; lia).
    apply le_div; [nra|lra].
  - intros i a b Ha Hb.
    rewrite Htr in Ha, Hb. apply nth_error_map_seq in Ha as [_ ->]. apply nth_error_map_seq in Hb as [Hl ->].
    apply (pp_mono f tau xs niter Ht Hs (S i)); lia.
Qed.

(*! C40_fixed : for convex f and niter >= 1, ProximalPoint returns its starting point iff that point is a minimiser,
   and then every callback gets it *)
Lemma C40_fixed_l : forall (E : IPS) (o : Op E) (f : efun E) x0 tau niter,
  impl_prox o f -> convex f -> 0 < tau -> (1 <= niter)%nat ->
  (is_min f x0 -> ProximalPoint o x0 tau niter None = Ok (x0, repeat x0 niter)) /\
  (forall tr, ProximalPoint o x0 tau niter None = Ok (x0, tr) -> is_min f x0).
Proof.
  intros E o f x0 tau niter Hp Hc Ht Hn. split.
  - intro Hm. destruct (C40_rate_l E o f x0 tau niter Hp Hc Ht Hn) as [x [tr [Hok _]]]. rewrite Hok.
    destruct (pp_result o f x0 tau niter x tr Hp Ht Hok) as [xs [Hx [Htr [H0 Hs]]]].
    assert (Hxs : forall j, (j <= niter)%nat -> xs j = x0).
    { induction j as [|j IH]; intro Hj; auto. specialize (Hs j ltac:(lia)). rewrite IH in Hs by lia.
      apply (prox_unique f tau x0); auto. apply min_prox_fix; auto. }
    rewrite Hx, Hxs by lia. do 2 f_equal. rewrite Htr.
    rewrite <- (map_ext_in (fun _ => x0)). { clear. generalize 1%nat. induction niter; intro; simpl; f_equal; auto. }
    intros j Hj. apply in_seq in Hj. symmetry. apply Hxs. lia.
  - intros tr Hok. destruct (pp_result o f x0 tau niter x0 tr Hp Ht Hok) as [xs [Hx [_ [H0 Hs]]]].
    destruct niter as [|n]; [lia|].
    assert (Hd : edom f x0) by (rewrite Hx; apply (pp_dom f tau xs (S n)); auto).
    assert (Hle : forall j, (1 <= j)%nat -> (j <= S n)%nat -> eval f (xs j) <= eval f (xs 1%nat)).
    { induction j as [|[|j] IH]; intros H1 H2; [lia|lra|]. eapply Rle_trans; [|apply IH; lia].
      apply (pp_mono f tau xs (S n)); auto; lia. }
    specialize (Hle (S n) ltac:(lia) ltac:(lia)). rewrite <- Hx in Hle.
    pose proof (Hs 0%nat ltac:(lia)) as Hp1. rewrite H0 in Hp1. destruct Hp1 as [Hd1 Hm1].
    pose proof (Hm1 x0 Hd) as Hq. rewrite vsub_diag, norm2_zero in Hq.
    assert (0 < / (2 * tau)) by (apply Rinv_0_lt_compat; lra). pose proof (norm2_nonneg (xs 1%nat [-] x0)).
    assert (He : xs 1%nat = x0) by (apply norm2_sub_eq0; nra).
    rewrite He in *. apply (prox_fix_min f tau x0); auto. split; auto.
Qed.

(*! C45_zero_objective_refuted : with a tolerance, reaching objective value 0 raises ZeroDivisionError instead of
   stopping: Euclidean(1) on the real line, x0 = 1, tau = 1: the minimiser 0 is reached at the first iteration and the
   second one divides 0.0 by 0.0 *)
Lemma C45_zero_objective_refuted_l : forall fuel tol niter, tol <= 1 ->
  ProximalPoint (E:=R_IPS) (obj (S fuel) (euclid_body 1)) 1 1 (S (S niter)) (Some tol) = Err ZeroDivisionError.
Proof.
  intros fuel tol niter Ht. unfold ProximalPoint.
  assert (H1 : norm (1 : R_IPS) = 1) by (unfold norm, norm2; simpl; rewrite Rmult_1_l; apply sqrt_1).
  assert (H0 : norm (0 : R_IPS) = 0) by apply (norm_zero (E:=R_IPS)).
  assert (P1 : o_prox (obj (E:=R_IPS) (S fuel) (euclid_body 1)) 1 1 = Ok 0).
  { simpl. rewrite check_tau_pos by lra. rewrite H1, Rmax_left by lra. rewrite pydiv_ok by lra. simpl. f_equal. field. }
  assert (P0 : o_prox (obj (E:=R_IPS) (S fuel) (euclid_body 1)) 0 1 = Ok 0).
  { simpl. rewrite check_tau_pos by lra. rewrite H0, Rmax_right by lra. rewrite pydiv_ok by lra. simpl. f_equal. ring. }
  assert (C0 : get_val (obj (E:=R_IPS) (S fuel) (euclid_body 1)) 0 = Ok 0).
  { unfold get_val; simpl. unfold d_call; simpl. rewrite H0. f_equal. ring. }
  set (o := obj (E:=R_IPS) (S fuel) (euclid_body 1)) in *.
  cbn [for_loop]. unfold pp_body at 1. cbn [pp_x pp_pf pp_tr]. rewrite P1. cbn [bind]. rewrite C0. cbn [bind rel_stop].
  destruct (Rltb_spec 1 tol) as [[? _]|[_ ->]]; [lra|]. cbn [bind fst snd].
  unfold pp_body at 1. cbn [pp_x pp_pf pp_tr]. rewrite P0. cbn [bind]. rewrite C0. cbn [bind rel_stop].
  destruct (Reqb_spec 0 0) as [[_ ->]|[? _]]; [reflexivity|lra].
Qed.
