(** * Proofs about ADMM, HQS and initial guesses (M_Split.v) *)
From Coq Require Import Psatz.
From Verif Require Import Base Space Spec ConvexFacts Smooth M_ProxOp SpecOps P_ProxOp M_Norms P_Norms M_Loop LoopFacts Trace SeqFacts M_PG M_Split SplitMath P_PG P_PG2 P_PG3 P_Split.
From Verif Require Export S_Split2.
Open Scope result_scope.
Open Scope R_scope.

(** *** ADMM is Douglas-Rachford *)
(*! C48_equivalence : for all operators whose prox at tau always returns (any deterministic maps pf, pg, convex or not), every
   starting point and number of iterations: gfirst=False: the z-vectors given to ADMM's callback are exactly the x-vectors of
   DouglasRachford(eta=1, gfirst=True) started at pf(z0), and x_(k+1)+u_k are its y-vectors; gfirst=True: the x-vectors of
   ADMM are the x-vectors of DouglasRachford(eta=1, gfirst=False) started at pg(x0) *)
Lemma C48_equivalence_l : forall (E : IPS) (proxf proxg : Op E) pf pg tau x0 z0 x z n,
  (forall v, o_prox proxf v tau = Ok (pf v)) -> (forall v, o_prox proxg v tau = Ok (pg v)) -> x0z0_init x0 z0 = Ok (x, z) ->
  (exists xa za tra xd yd trd, ADMM proxf proxg x0 tau (S n) z0 false = Ok (xa, za, tra) /\
     DouglasRachford proxf proxg (pf z) tau 1 (S n) true = Ok (xd, yd, trd) /\ za = xd /\ map snd tra = map fst trd) /\
  (exists xa za tra xd yd trd, ADMM proxf proxg x0 tau (S n) z0 true = Ok (xa, za, tra) /\
     DouglasRachford proxf proxg (pg x) tau 1 (S n) false = Ok (xd, yd, trd) /\ xa = xd /\ map fst tra = map fst trd).
Proof.
  intros E proxf proxg pf pg tau x0 z0 x z n Hpf Hpg Hi.
  assert (Hf : forall v, exists p, o_prox proxf v tau = Ok p /\ p = pf v) by eauto.
  assert (Hg : forall v, exists p, o_prox proxg v tau = Ok p /\ p = pg v) by eauto.
  split.
  - destruct (admm_run proxf proxg (fun _ v p => p = pf v) (fun _ v p => p = pg v) tau x0 z0 (S n) false x z Hf Hg Hi) as
      [xs [zs [us [Ea [X0 [Z0 [U0 Ha]]]]]]].
    destruct (dr_run proxf proxg (fun _ v p => p = pf v) (fun _ v p => p = pg v) tau 1 (pf z) n true Hf Hg) as [dx [ps [ys [Ed [Y0 Hd]]]]].
    eexists _, _, _, _, _, _. split; [exact Ea|]. split; [exact Ed|].
    assert (Hk : forall j, (j < S n)%nat -> ys j = xs (S j) [+] us j /\ zs (S j) = dx j).
    { induction j as [|j IH]; intro Hj.
      - destruct (Ha 0%nat Hj) as [[A1 A2] A3]. destruct (Hd 0%nat Hj) as [[D1 D2] D3].
        rewrite U0, Z0 in *. replace (z [-] vzero) with z in A1 by vring.
        assert (Hy : ys 0%nat = xs 1%nat [+] vzero) by (rewrite Y0, A1; vring). split; auto. rewrite A2, D1, Hy. auto.
      - destruct (IH ltac:(lia)) as [I1 I2]. destruct (Ha j ltac:(lia)) as [[A1 A2] A3]. destruct (Ha (S j) Hj) as [[B1 B2] B3].
        destruct (Hd j ltac:(lia)) as [[D1 D2] D3]. destruct (Hd (S j) Hj) as [[F1 F2] F3].
        assert (Hx : xs (S (S j)) = ps j). { rewrite B1, D2. f_equal. rewrite A3, I1, I2. vring. }
        assert (Hy : ys (S j) = xs (S (S j)) [+] us (S j)). { rewrite D3, <- Hx, I1, A3, <- I2. vring. }
        split; auto. rewrite B2, F1, Hy. auto. }
    split; [apply Hk; lia|].
    rewrite !map_map. cbn [fst snd]. change (seq 1 (S n)) with (seq (1 + 0) (S n)). rewrite <- seq_shift, map_map. apply map_ext_in. intros j Hj. apply in_seq in Hj.
    apply Hk; lia.
  - destruct (admm_run proxf proxg (fun _ v p => p = pf v) (fun _ v p => p = pg v) tau x0 z0 (S n) true x z Hf Hg Hi) as
      [xs [zs [us [Ea [X0 [Z0 [U0 Ha]]]]]]].
    destruct (dr_run proxf proxg (fun _ v p => p = pf v) (fun _ v p => p = pg v) tau 1 (pg x) n false Hf Hg) as [dx [ps [ys [Ed [Y0 Hd]]]]].
    eexists _, _, _, _, _, _. split; [exact Ea|]. split; [exact Ed|].
    assert (Hk : forall j, (j < S n)%nat -> ys j = zs (S j) [-] us j /\ xs (S j) = dx j).
    { induction j as [|j IH]; intro Hj.
      - destruct (Ha 0%nat Hj) as [[A1 A2] A3]. destruct (Hd 0%nat Hj) as [[D1 D2] D3].
        rewrite U0, X0 in *. replace (x [+] vzero) with x in A1 by vring.
        assert (Hy : ys 0%nat = zs 1%nat [-] vzero) by (rewrite Y0, A1; vring). split; auto. rewrite A2, D1, Hy. auto.
      - destruct (IH ltac:(lia)) as [I1 I2]. destruct (Ha j ltac:(lia)) as [[A1 A2] A3]. destruct (Ha (S j) Hj) as [[B1 B2] B3].
        destruct (Hd j ltac:(lia)) as [[D1 D2] D3]. destruct (Hd (S j) Hj) as [[F1 F2] F3].
        assert (Hx : zs (S (S j)) = ps j). { rewrite B1, D2. f_equal. rewrite A3, I1, I2. vring. }
        assert (Hy : ys (S j) = zs (S (S j)) [-] us (S j)). { rewrite D3, <- Hx, I1, A3, <- I2. vring. }
        split; auto. rewrite B2, F1, Hy. auto. }
    split; [apply Hk; lia|].
    rewrite !map_map. cbn [fst snd]. change (seq 1 (S n)) with (seq (1 + 0) (S n)). rewrite <- seq_shift, map_map. apply map_ext_in. intros j Hj. apply in_seq in Hj.
    apply Hk; lia.
Qed.

(** *** ADMM: Lyapunov function *)
Lemma kkt_admm {E : IPS} (f g : efun E) tau x u : 0 < tau -> kkt f g x u ->
  let us := vopp (tau [*] u) in is_prox f tau (x [-] us) x /\ is_prox g tau (x [+] us) x.
Proof.
  intros Ht [Hf Hg] us. split; apply subgrad_prox; auto.
  - replace (/ tau [*] (x [-] us [-] x)) with u by (unfold us; vfield; lra). auto.
  - replace (/ tau [*] (x [+] us [-] x)) with (vopp u) by (unfold us; vfield; lra). auto.
Qed.


(** gfirst=True is gfirst=False with the roles exchanged and u negated. *)
Lemma admm_doc_swap {E : IPS} (f g : efun E) tau xs zs us n : admm_doc_gfirst f g tau xs zs us n ->
  admm_doc g f tau zs xs (fun j => vopp (us j)) n.
Proof.
  intros [H0 H]. split; [rewrite H0; vring|]. intros j Hj. destruct (H j Hj) as [H1 [H2 H3]].
  replace (xs j [-] vopp (us j)) with (xs j [+] us j) by vring. replace (zs (S j) [+] vopp (us j)) with (zs (S j) [-] us j) by vring.
  split; auto. split; auto. rewrite H3. vring.
Qed.

Section AD.
Context {E : IPS}.
Variables (f g : efun E) (tau : R) (xs zs us : nat -> E) (n : nat).
Hypotheses (Hf : convex f) (Hg : convex g) (Ht : 0 < tau) (Hd : admm_doc f g tau xs zs us n).

Lemma admm_doc_dom j : (1 <= j <= n)%nat -> edom f (xs j) /\ edom g (zs j).
Proof. intro Hj. destruct j; [lia|]. destruct (proj2 Hd j ltac:(lia)) as [[A _] [[B _] _]]. auto. Qed.

Lemma admm_lyap x u : kkt f g x u -> let V := fun j => norm2 (zs j [-] x) + norm2 (us j [+] tau [*] u) in
  (forall j, (j < n)%nat -> V (S j) <= V j) /\
  (forall j, (1 <= j < n)%nat -> V (S j) + norm2 (zs (S j) [-] zs j) + norm2 (xs (S j) [-] zs (S j)) <= V j) /\
  (forall m, (1 <= m <= n)%nat -> V m + Rsum (map (fun j => norm2 (xs j [-] zs j) + norm2 (zs j [-] zs (j - 1)%nat)) (seq 2 (m - 1))) <= V 0%nat).
Proof.
  intros Hk V. destruct (kkt_admm f g tau x u Ht Hk) as [K1 K2].
  assert (Hs : forall j, (j < n)%nat -> V (S j) + norm2 ((zs (S j) [-] zs j) [+] (xs (S j) [-] zs (S j))) <= V j).
  { intros j Hj. destruct (proj2 Hd j Hj) as [A1 [A2 A3]].
    pose proof (admm_step f g tau (zs j) (us j) (xs (S j)) (zs (S j)) x _ Hf Hg Ht A1 A2 K1 K2) as H. cbn zeta in H.
    rewrite <- A3 in H. unfold V.
    replace (us (S j) [+] tau [*] u) with (us (S j) [-] vopp (tau [*] u)) by vring.
    replace (us j [+] tau [*] u) with (us j [-] vopp (tau [*] u)) by vring. exact H. }
  assert (Hs2 : forall j, (1 <= j < n)%nat -> V (S j) + norm2 (zs (S j) [-] zs j) + norm2 (xs (S j) [-] zs (S j)) <= V j).
  { intros j Hj. destruct j as [|j]; [lia|]. specialize (Hs (S j) ltac:(lia)).
    destruct (proj2 Hd j ltac:(lia)) as [A1 [A2 A3]]. destruct (proj2 Hd (S j) ltac:(lia)) as [B1 [B2 B3]].
    pose proof (admm_cross g tau (zs (S j)) (us (S j)) (xs (S (S j))) (zs (S (S j))) (xs (S j) [+] us j) Hg Ht A2) as Hc.
    specialize (Hc ltac:(rewrite A3; vring) B2). lra. }
  split; [|split; auto].
  - intros j Hj. specialize (Hs j Hj). pose proof (norm2_nonneg (zs (S j) [-] zs j [+] (xs (S j) [-] zs (S j)))). lra.
  - intros m Hm0. destruct m as [|m]; [lia|]. assert (Hm : (S m <= n)%nat -> V (S m) + Rsum (map (fun j => norm2 (xs j [-] zs j) + norm2 (zs j [-] zs (j - 1)%nat)) (seq 2 (S m - 1))) <= V 0%nat).
    { clear Hm0. induction m as [|m IH]; intro Hm.
      - simpl. specialize (Hs 0%nat ltac:(lia)). pose proof (norm2_nonneg (zs 1%nat [-] zs 0%nat [+] (xs 1%nat [-] zs 1%nat))). lra.
      - specialize (IH ltac:(lia)). replace (S (S m) - 1)%nat with (S m) by lia. replace (S m - 1)%nat with m in IH by lia.
        rewrite seq_S, map_app, Rsum_app. cbn [map Rsum]. replace (2 + m)%nat with (S (S m)) by lia. replace (S (S m) - 1)%nat with (S m) by lia.
        specialize (Hs2 (S m) ltac:(lia)). simpl Rsum. lra. }
    apply Hm. lia.
Qed.

Lemma admm_fix j : (j < n)%nat -> zs (S j) = zs j -> us (S j) = us j -> xs (S j) = zs (S j) /\ is_min (eadd f g) (xs (S j)).
Proof.
  intros Hj Hz Hu. destruct (proj2 Hd j Hj) as [A1 [A2 A3]]. rewrite Hu in A3.
  assert (Hx : xs (S j) = zs (S j)).
  { apply vsub_eq. apply (f_equal (fun v => v [-] us j)) in A3. replace (us j [-] us j) with (vzero : E) in A3 by vring. rewrite A3. vring. }
  split; auto. rewrite Hz in Hx. rewrite Hx, Hz in *.
  apply (kkt_min f g (zs j) (/ tau [*] vopp (us j))). apply prox_subgrad in A1; auto. apply prox_subgrad in A2; auto. split.
  - replace (vopp (us j)) with (zs j [-] us j [-] zs j) by vring. auto.
  - replace (vopp (/ tau [*] vopp (us j))) with (/ tau [*] (zs j [+] us j [-] zs j)) by vring. auto.
Qed.
End AD.

Lemma admm_run_doc {E : IPS} (proxf proxg : Op E) f g tau x0 z0 n (gfirst : bool) x z :
  impl_prox proxf f -> impl_prox proxg g -> 0 < tau -> x0z0_init x0 z0 = Ok (x, z) ->
  exists xs zs us, ADMM proxf proxg x0 tau n z0 gfirst = Ok (xs n, zs n, map (fun j => (xs j, zs j)) (seq 1 n)) /\
    xs 0%nat = x /\ zs 0%nat = z /\
    (if gfirst then admm_doc_gfirst f g tau xs zs us n else admm_doc f g tau xs zs us n).
Proof.
  intros Hf Hg Ht Hi. destruct (admm_run proxf proxg (is_prox f) (is_prox g) tau x0 z0 n gfirst x z) as [xs [zs [us [E1 [X0 [Z0 [U0 H]]]]]]]; auto.
  exists xs, zs, us. split; auto. split; auto. split; auto.
  destruct gfirst; split; auto; intros j Hj; destruct (H j Hj) as [[? ?] ?]; auto.
Qed.

(*! C47_lyapunov : gfirst=False, f, g convex, any tau > 0, any start: the run never raises and follows the documented recursion;
   x_k in dom f and z_k in dom g for k >= 1; for every solution (xs, u): V_k = |z_k - xs|^2 + |u_k + tau u|^2 never increases,
   decreases by |z_(k+1)-z_k|^2 + |x_(k+1)-z_(k+1)|^2 from the second iteration on, so the squared residuals sum to at most
   V_0; an iteration that leaves (z,u) unchanged has x = z minimising f + g *)
Lemma C47_lyapunov_l : forall (E : IPS) (proxf proxg : Op E) f g tau x0 z0 n x z,
  impl_prox proxf f -> impl_prox proxg g -> convex f -> convex g -> 0 < tau -> x0z0_init x0 z0 = Ok (x, z) ->
  exists xs zs us, ADMM proxf proxg x0 tau n z0 false = Ok (xs n, zs n, map (fun j => (xs j, zs j)) (seq 1 n)) /\
    zs 0%nat = z /\ admm_doc f g tau xs zs us n /\
    (forall j, (1 <= j <= n)%nat -> edom f (xs j) /\ edom g (zs j)) /\
    (forall j, (j < n)%nat -> zs (S j) = zs j -> us (S j) = us j -> xs (S j) = zs (S j) /\ is_min (eadd f g) (xs (S j))) /\
    forall xo u, kkt f g xo u -> let V := fun j => norm2 (zs j [-] xo) + norm2 (us j [+] tau [*] u) in
      (forall j, (j < n)%nat -> V (S j) <= V j) /\
      (forall j, (1 <= j < n)%nat -> V (S j) + norm2 (zs (S j) [-] zs j) + norm2 (xs (S j) [-] zs (S j)) <= V j) /\
      (forall m, (1 <= m <= n)%nat -> V m + Rsum (map (fun j => norm2 (xs j [-] zs j) + norm2 (zs j [-] zs (j - 1)%nat)) (seq 2 (m - 1))) <= V 0%nat).
Proof.
  intros E proxf proxg f g tau x0 z0 n x z Hpf Hpg Hf Hg Ht Hi.
  destruct (admm_run_doc proxf proxg f g tau x0 z0 n false x z Hpf Hpg Ht Hi) as [xs [zs [us [E1 [X0 [Z0 Hd]]]]]].
  exists xs, zs, us. split; auto. split; auto. split; auto. split; [apply (admm_doc_dom f g tau xs zs us n Hd)|]. split.
  - intros j Hj. apply (admm_fix f g tau xs zs us n Hf Hg Ht Hd j Hj).
  - intros xo u Hk. apply (admm_lyap f g tau xs zs us n Hf Hg Ht Hd xo u Hk).
Qed.
(*! C47_lyapunov_gfirst : the same for gfirst=True with V_k = |x_k - xs|^2 + |u_k + tau u|^2 *)
Lemma C47_lyapunov_gfirst_l : forall (E : IPS) (proxf proxg : Op E) f g tau x0 z0 n x z,
  impl_prox proxf f -> impl_prox proxg g -> convex f -> convex g -> 0 < tau -> x0z0_init x0 z0 = Ok (x, z) ->
  exists xs zs us, ADMM proxf proxg x0 tau n z0 true = Ok (xs n, zs n, map (fun j => (xs j, zs j)) (seq 1 n)) /\
    xs 0%nat = x /\ admm_doc_gfirst f g tau xs zs us n /\
    (forall j, (1 <= j <= n)%nat -> edom f (xs j) /\ edom g (zs j)) /\
    (forall j, (j < n)%nat -> xs (S j) = xs j -> us (S j) = us j -> xs (S j) = zs (S j) /\ is_min (eadd f g) (xs (S j))) /\
    forall xo u, kkt f g xo u -> let V := fun j => norm2 (xs j [-] xo) + norm2 (us j [+] tau [*] u) in
      (forall j, (j < n)%nat -> V (S j) <= V j) /\
      (forall j, (1 <= j < n)%nat -> V (S j) + norm2 (xs (S j) [-] xs j) + norm2 (xs (S j) [-] zs (S j)) <= V j) /\
      (forall m, (1 <= m <= n)%nat -> V m + Rsum (map (fun j => norm2 (xs j [-] zs j) + norm2 (xs j [-] xs (j - 1)%nat)) (seq 2 (m - 1))) <= V 0%nat).
Proof.
  intros E proxf proxg f g tau x0 z0 n x z Hpf Hpg Hf Hg Ht Hi.
  destruct (admm_run_doc proxf proxg f g tau x0 z0 n true x z Hpf Hpg Ht Hi) as [xs [zs [us [E1 [X0 [Z0 Hd]]]]]].
  exists xs, zs, us. split; auto. split; auto. split; auto. pose proof (admm_doc_swap f g tau xs zs us n Hd) as Hs.
  split; [intros j Hj; destruct (admm_doc_dom g f tau zs xs _ n Hs j Hj); auto|]. split.
  - intros j Hj Hx Hu. destruct (admm_fix g f tau zs xs _ n Hg Hf Ht Hs j Hj Hx ltac:(cbn beta; rewrite Hu; auto)) as [H1 [[M1 M2] M3]].
    split; auto. rewrite <- H1. split; [split; auto|]. intros y [Y1 Y2]. specialize (M3 y (conj Y2 Y1)). cbn [eval eadd] in *. lra.
  - intros xo u Hk V. destruct (admm_lyap g f tau zs xs _ n Hg Hf Ht Hs xo (vopp u) (kkt_swap _ _ _ _ Hk)) as [L1 [L2 L3]].
    assert (HV : forall j, norm2 (vopp (us j) [+] tau [*] vopp u) = norm2 (us j [+] tau [*] u)) by (intro; iring).
    split; [|split].
    + intros j Hj. specialize (L1 j Hj). rewrite !HV in L1. exact L1.
    + intros j Hj. specialize (L2 j Hj). rewrite !HV, (norm2_sub_sym (zs (S j))) in L2. exact L2.
    + intros m Hm. specialize (L3 m Hm). rewrite !HV in L3.
      replace (map (fun j => norm2 (xs j [-] zs j) + norm2 (xs j [-] xs (j - 1)%nat)) (seq 2 (m - 1)))
        with (map (fun j => norm2 (zs j [-] xs j) + norm2 (xs j [-] xs (j - 1)%nat)) (seq 2 (m - 1))); [exact L3|].
      apply map_ext. intro j. rewrite norm2_sub_sym. reflexivity.
Qed.

(** *** HQS *)

Lemma hqs_taus_scalar t n j : (j < n)%nat -> nth_error (hqs_taus [t] n) j = Some t.
Proof.
  simpl. revert j. induction n as [|n IH]; intros j Hj; [lia|]. destruct j; simpl; auto. apply IH; lia.
Qed.

(*! C50_hqs : f, g convex, one tau > 0, either order, any start: the run never raises, executes the documented alternation,
   x_k in dom f, z_k in dom g, the penalised objective P(x,z) = f(x)+g(z)+|x-z|^2/(2 tau) never increases along the callbacks
   and P(x_k,z_k) - P(w,v) <= D/(2 tau k) for all (w,v), D = |x0-w|^2 (gfirst=True) or |z0-v|^2 (gfirst=False) *)
Lemma C50_hqs_l : forall (E : IPS) (proxf proxg : Op E) f g tau x0 z0 n (gfirst : bool) x z,
  impl_prox proxf f -> impl_prox proxg g -> convex f -> convex g -> 0 < tau -> x0z0_init x0 z0 = Ok (x, z) ->
  exists xs zs, HQS proxf proxg x0 [tau] n z0 gfirst = Ok (xs n, zs n, map (fun j => (xs j, zs j)) (seq 1 n)) /\
    xs 0%nat = x /\ zs 0%nat = z /\
    (forall j, (j < n)%nat -> if gfirst then is_prox g tau (xs j) (zs (S j)) /\ is_prox f tau (zs (S j)) (xs (S j))
       else is_prox f tau (zs j) (xs (S j)) /\ is_prox g tau (xs (S j)) (zs (S j))) /\
    (forall j, (1 <= j <= n)%nat -> edom (penalised f g tau) (xs j, zs j)) /\
    (forall j, (1 <= j < n)%nat -> eval (penalised f g tau) (xs (S j), zs (S j)) <= eval (penalised f g tau) (xs j, zs j)) /\
    (forall k w v, (1 <= k <= n)%nat -> edom (penalised f g tau) (w, v) ->
       eval (penalised f g tau) (xs k, zs k) - eval (penalised f g tau) (w, v)
         <= (if gfirst then norm2 (x [-] w) else norm2 (z [-] v)) / (2 * tau * INR k)).
Proof.
  intros E proxf proxg f g tau x0 z0 n gfirst x z Hpf Hpg Hf Hg Ht Hi.
  destruct (hqs_run proxf proxg (is_prox f) (is_prox g) [tau] (fun _ => tau) x0 z0 n gfirst x z) as [xs [zs [E1 [X0 [Z0 H]]]]]; auto.
  { intros; apply hqs_taus_scalar; auto. }
  exists xs, zs. split; auto. split; auto. split; auto. split; [intros j Hj; specialize (H j Hj); destruct gfirst; auto|].
  assert (Hdom : forall j, (1 <= j <= n)%nat -> edom f (xs j) /\ edom g (zs j)).
  { intros j Hj. destruct j; [lia|]. specialize (H j ltac:(lia)). destruct gfirst; destruct H as [[A _] [B _]]; auto. }
  split; [exact Hdom|].
  assert (Hgen : forall (f g : efun E) (xs zs : nat -> E), convex f -> convex g ->
     (forall j, (j < n)%nat -> is_prox g tau (xs j) (zs (S j)) /\ is_prox f tau (zs (S j)) (xs (S j))) ->
     let P := fun x z => eval f x + eval g z + / (2 * tau) * norm2 (x [-] z) in
     (forall j, (1 <= j < n)%nat -> P (xs (S j)) (zs (S j)) <= P (xs j) (zs j)) /\
     (forall k w v, (1 <= k <= n)%nat -> edom f w -> edom g v -> P (xs k) (zs k) - P w v <= norm2 (xs 0%nat [-] w) / (2 * tau * INR k))).
  { clear f g xs zs Hpf Hpg Hf Hg E1 X0 Z0 H Hdom. intros f g xs zs Hf Hg H P.
    assert (Hdom : forall j, (1 <= j <= n)%nat -> edom f (xs j) /\ edom g (zs j)).
    { intros j Hj. destruct j; [lia|]. destruct (H j ltac:(lia)) as [[A _] [B _]]; auto. }
    assert (Hst : forall j w v, (j < n)%nat -> edom f w -> edom g v -> 2 * tau * (P (xs (S j)) (zs (S j)) - P w v) + norm2 (xs (S j) [-] w) <= norm2 (xs j [-] w)).
    { intros j w v Hj Hw Hv. destruct (H j Hj) as [A B]. apply (hqs_step f g tau (xs j) (zs (S j)) (xs (S j)) w v); auto. }
    assert (Hmono : forall j, (1 <= j < n)%nat -> P (xs (S j)) (zs (S j)) <= P (xs j) (zs j)).
    { intros j Hj. destruct (Hdom j ltac:(lia)) as [D1 D2]. specialize (Hst j (xs j) (zs j) ltac:(lia) D1 D2).
      rewrite vsub_diag, norm2_zero in Hst. pose proof (norm2_nonneg (xs (S j) [-] xs j)). nra. }
    split; auto. intros k w v Hk Hw Hv.
    assert (Hsum : forall m, (m < n)%nat -> 2 * tau * INR (S m) * (P (xs (S m)) (zs (S m)) - P w v) + norm2 (xs (S m) [-] w) <= norm2 (xs 0%nat [-] w)).
    { induction m as [|m IH]; intro Hm.
      - specialize (Hst 0%nat w v Hm Hw Hv). simpl (INR 1). lra.
      - specialize (IH ltac:(lia)). specialize (Hst (S m) w v Hm Hw Hv). specialize (Hmono (S m) ltac:(lia)).
        assert (Hle : 2 * tau * INR (S m) * P (xs (S (S m))) (zs (S (S m))) <= 2 * tau * INR (S m) * P (xs (S m)) (zs (S m))).
        { apply Rmult_le_compat_l; auto. pose proof (pos_INR (S m)). nra. }
        rewrite (S_INR (S m)). lra. }
    destruct k as [|k]; [lia|]. specialize (Hsum k ltac:(lia)). pose proof (norm2_nonneg (xs (S k) [-] w)).
    apply le_INR_div; [apply norm2_nonneg|auto|lra]. }
  destruct gfirst.
  - destruct (Hgen f g xs zs Hf Hg H) as [G1 G2]. split; [exact G1|]. intros k w v Hk [Hw Hv]. rewrite <- X0. apply (G2 k w v Hk Hw Hv).
  - destruct (Hgen g f zs xs Hg Hf H) as [G1 G2]. cbn zeta in G1, G2.
    assert (Hsy : forall a b, eval g b + eval f a + / (2 * tau) * norm2 (b [-] a) = eval f a + eval g b + / (2 * tau) * norm2 (a [-] b)).
    { intros a b. rewrite (norm2_sub_sym b a). ring. }
    split.
    + intros j Hj. specialize (G1 j Hj). rewrite !Hsy in G1. exact G1.
    + intros k w v Hk [Hw Hv]. specialize (G2 k v w Hk Hv Hw). rewrite !Hsy, Z0 in G2. exact G2.
Qed.
(*! C50_taus : with one tau per iteration (a list of at least niter positive entries, not of length one) iteration k uses tau[k] *)
Lemma C50_taus_l : forall (E : IPS) (proxf proxg : Op E) f g tau (taus : nat -> R) x0 z0 n (gfirst : bool) x z,
  impl_prox proxf f -> impl_prox proxg g -> List.length tau <> 1%nat ->
  (forall j, (j < n)%nat -> nth_error tau j = Some (taus j) /\ 0 < taus j) -> x0z0_init x0 z0 = Ok (x, z) ->
  exists xs zs, HQS proxf proxg x0 tau n z0 gfirst = Ok (xs n, zs n, map (fun j => (xs j, zs j)) (seq 1 n)) /\
    xs 0%nat = x /\ zs 0%nat = z /\
    (forall j, (j < n)%nat -> if gfirst then is_prox g (taus j) (xs j) (zs (S j)) /\ is_prox f (taus j) (zs (S j)) (xs (S j))
       else is_prox f (taus j) (zs j) (xs (S j)) /\ is_prox g (taus j) (xs (S j)) (zs (S j))).
Proof.
  intros E proxf proxg f g tau taus x0 z0 n gfirst x z Hpf Hpg Hl Hta Hi.
  destruct (hqs_run proxf proxg (is_prox f) (is_prox g) tau taus x0 z0 n gfirst x z) as [xs [zs [E1 [X0 [Z0 H]]]]]; auto.
  { intros j Hj. replace (hqs_taus tau n) with tau by (destruct tau as [|a [|b l]]; auto; simpl in Hl; lia). apply Hta; auto. }
  { intros j v Hj. apply Hpf. apply Hta; auto. }
  { intros j v Hj. apply Hpg. apply Hta; auto. }
  exists xs, zs. auto.
Qed.

Lemma shifted1_prox : impl_prox shifted1 (etot (E:=R_IPS) (fun x : R_IPS => 1 / 2 * ((x - 1) * (x - 1)))).
Proof.
  intros x tau Ht. exists ((x + tau) / (1 + tau)). split; auto. apply subgrad_prox; auto. split; [exact I|]. intros y _. cbn.
  replace (x + -1 * ((x + tau) / (1 + tau))) with (tau * ((x + tau) / (1 + tau) - 1)) by (field; lra).
  set (p := (x + tau) / (1 + tau)). replace (/ tau * (tau * (p - 1))) with (p - 1) by (field; lra).
  pose proof (Rle_0_sqr (y - p)). unfold Rsqr in *. nra.
Qed.
Lemma quad1_prox c : 0 < c -> impl_prox (quad1 c) (etot (E:=R_IPS) (fun x : R_IPS => c / 2 * (x * x))).
Proof.
  intros Hc x tau Ht. exists (x / (1 + tau * c)). split; auto. apply subgrad_prox; auto. split; [exact I|]. intros y _. cbn.
  assert (0 < 1 + tau * c) by nra.
  replace (x + -1 * (x / (1 + tau * c))) with (tau * (c * (x / (1 + tau * c)))) by (field; lra).
  set (p := x / (1 + tau * c)). replace (/ tau * (tau * (c * p))) with (c * p) by (field; lra).
  pose proof (Rle_0_sqr (y - p)). unfold Rsqr in *. nra.
Qed.
(*! C50_bias_refuted : HQS does not minimise f + g: f = (x-1)^2/2, g = x^2/2, tau = 1, x0 = 2/3: for every number of iterations
   it returns x = 2/3, z = 1/3, although f + g is minimised only at 1/2 *)
Lemma C50_bias_refuted_l :
  let f := etot (E:=R_IPS) (fun x : R_IPS => 1 / 2 * ((x - 1) * (x - 1))) in let g := etot (E:=R_IPS) (fun x : R_IPS => 1 / 2 * (x * x)) in
  impl_prox shifted1 f /\ impl_prox (quad1 1) g /\
  (forall n, exists tr, HQS shifted1 (quad1 1) (Some (2/3 : R_IPS)) [1] (S n) None true = Ok (2/3, 1/3, tr)) /\
  (forall x, is_min (eadd f g) x <-> x = 1/2).
Proof.
  intros f g. split; [apply shifted1_prox|]. split; [apply quad1_prox; lra|]. split.
  - intro n. unfold HQS. cbn [x0z0_init bind fst snd].
    assert (G : forall m i z tr, (i + m = S n)%nat -> exists tr', for_loop (hqs_body (E:=R_IPS) shifted1 (quad1 1) (hqs_taus [1] (S n)) true) (m) i (HQ (2/3 : R_IPS) z tr)
        = Ok (HQ (2/3 : R_IPS) (match m with O => z | _ => 1/3 end) tr', S n)).
    { induction m as [|m IH]; intros i z tr Hi; [exists tr; simpl; do 2 f_equal; lia|].
      cbn [for_loop]. unfold hqs_body at 1, getitem. rewrite hqs_taus_scalar by lia. cbn [bind h_x h_z h_tr o_prox quad1 shifted1 fst snd].
      replace (2 / 3 / (1 + 1 * 1)) with (1/3) by field. replace ((1 / 3 + 1) / (1 + 1)) with (2/3) by field.
      destruct (IH (S i) (1/3) (tr ++ [(2/3, 1/3)]) ltac:(lia)) as [tr' Ht]. exists tr'. etransitivity; [exact Ht|destruct m; reflexivity]. }
    destruct (G (S n) 0%nat (2/3) [] ltac:(lia)) as [tr Ht]. exists tr. etransitivity; [apply (f_equal (fun r => bind r _)); exact Ht|reflexivity].
  - intro x. split.
    + intros [_ H]. specialize (H (1/2) (conj I I)). cbn in H. assert (Hs : (x - 1/2) * (x - 1/2) <= 0) by nra.
      assert (x - 1/2 = 0); [|lra]. apply Rsqr_0_uniq. unfold Rsqr. pose proof (Rle_0_sqr (x - 1/2)). unfold Rsqr in *. lra.
    + intros ->. split; [split; exact I|]. intros y _. cbn. pose proof (Rle_0_sqr (y - 1/2)). unfold Rsqr in *. nra.
Qed.

(*!ex C47_example : f = (x-1)^2/2 and g = x^2/2 on the real line meet the hypotheses of the ADMM, HQS and Douglas-Rachford
   theorems, with solution 1/2 and multiplier -1/2 *)
Lemma C47_example_l :
  let f := etot (E:=R_IPS) (fun x : R_IPS => 1 / 2 * ((x - 1) * (x - 1))) in let g := etot (E:=R_IPS) (fun x : R_IPS => 1 / 2 * (x * x)) in
  impl_prox shifted1 f /\ impl_prox (quad1 1) g /\ convex f /\ convex g /\ kkt f g (1/2 : R_IPS) (-(1/2)) /\
  x0z0_init (E:=R_IPS) None (Some 3) = Ok (3, 3).
Proof.
  intros f g. split; [apply shifted1_prox|]. split; [apply quad1_prox; lra|]. split; [|split; [|split; [|reflexivity]]].
  - intros x y a _ _ Ha. split; [exact I|]. cbn.
    assert (0 <= a * (1 - a) * ((x - y) * (x - y))). { apply Rmult_le_pos; [apply Rmult_le_pos; lra|apply Rle_0_sqr]. } nra.
  - apply (quad1_smooth 1); lra.
  - split; (split; [exact I|]); intros y _; cbn; pose proof (Rle_0_sqr (y - 1/2)); unfold Rsqr in *; nra.
Qed.

(** *** Initial guesses *)
(*! C46_missing_guess : with neither x0 nor z0, HQS and ADMM (any order) and LinearizedADMM / ADMML2 raise ValueError; the
   latter two also when only x0 is missing *)
Lemma C46_missing_guess_l : forall (E F : IPS) (proxf proxg : Op E) (proxh : Op F) (A : linop E F) reginv taus tau mu n gfirst (z : option F),
  HQS proxf proxg None taus n None gfirst = Err ValueError /\ ADMM proxf proxg None tau n None gfirst = Err ValueError /\
  LinearizedADMM proxf proxh A None tau mu n z = Err ValueError /\ ADMML2 proxh A reginv None tau n z gfirst = Err ValueError.
Proof. intros. split; [|split; [|split]]; destruct z; reflexivity. Qed.
(*! C46_derived_guess : a missing z0 (or x0) is replaced by the other one: same run as passing that vector twice; for
   LinearizedADMM and ADMML2 a missing z0 is A x0 *)
Lemma C46_derived_guess_l : forall (E F : IPS) (proxf proxg : Op E) (proxh : Op F) (A : linop E F) reginv taus tau mu n gfirst (x : E),
  HQS proxf proxg None taus n (Some x) gfirst = HQS proxf proxg (Some x) taus n (Some x) gfirst /\
  HQS proxf proxg (Some x) taus n None gfirst = HQS proxf proxg (Some x) taus n (Some x) gfirst /\
  ADMM proxf proxg None tau n (Some x) gfirst = ADMM proxf proxg (Some x) tau n (Some x) gfirst /\
  ADMM proxf proxg (Some x) tau n None gfirst = ADMM proxf proxg (Some x) tau n (Some x) gfirst /\
  LinearizedADMM proxf proxh A (Some x) tau mu n None = LinearizedADMM proxf proxh A (Some x) tau mu n (Some (lapp A x)) /\
  ADMML2 proxh A reginv (Some x) tau n None gfirst = ADMML2 proxh A reginv (Some x) tau n (Some (lapp A x)) gfirst.
Proof. intros. repeat split. Qed.
(*! C46_unused_guess : the vector documented as "not required" is indeed irrelevant once an iteration is run: with gfirst=False
   x0 does not influence ADMM/HQS when z0 is given, with gfirst=True z0 does not influence them when x0 is given *)
Lemma C46_unused_guess_l : forall (E : IPS) (proxf proxg : Op E) taus tau n (v a b : E),
  HQS proxf proxg (Some a) taus (S n) (Some v) false = HQS proxf proxg (Some b) taus (S n) (Some v) false /\
  HQS proxf proxg (Some v) taus (S n) (Some a) true = HQS proxf proxg (Some v) taus (S n) (Some b) true /\
  ADMM proxf proxg (Some a) tau (S n) (Some v) false = ADMM proxf proxg (Some b) tau (S n) (Some v) false /\
  ADMM proxf proxg (Some v) tau (S n) (Some a) true = ADMM proxf proxg (Some v) tau (S n) (Some b) true.
Proof. intros. repeat split. Qed.
