(** * Proofs about HQS, ADMM and Douglas-Rachford (M_Split.v) *)
From Coq Require Import Psatz.
From Verif Require Import Base Space Spec ConvexFacts Smooth M_ProxOp SpecOps P_ProxOp M_Norms P_Norms M_Loop LoopFacts Trace SeqFacts M_PG M_Split SplitMath P_PG P_PG2 P_PG3.
Open Scope result_scope.
Open Scope R_scope.

(** ** Runs as sequences *)
Section Runs.
Context {E : IPS}.
Variables (proxf proxg : Op E) (Pf Pg : R -> E -> E -> Prop).

Lemma dr_run tau eta x0 n gfirst :
  (forall x, exists p, o_prox proxf x tau = Ok p /\ Pf tau x p) -> (forall x, exists p, o_prox proxg x tau = Ok p /\ Pg tau x p) ->
  exists xs ps ys, DouglasRachford proxf proxg x0 tau eta (S n) gfirst = Ok (xs n, ys (S n), map (fun j => (xs j, ys (S j))) (seq 0 (S n))) /\
    ys 0%nat = x0 /\ forall j, (j < S n)%nat ->
      (if gfirst then Pg tau (ys j) (xs j) /\ Pf tau (2 [*] xs j [-] ys j) (ps j)
       else Pf tau (ys j) (xs j) /\ Pg tau (2 [*] xs j [-] ys j) (ps j)) /\ ys (S j) = ys j [+] eta [*] (ps j [-] xs j).
Proof.
  intros Hf Hg.
  set (Rl := fun (j : nat) (s s' : dr_state E) => exists x p, d_x s' = Some x /\
     (if gfirst then Pg tau (d_y s) x /\ Pf tau (2 [*] x [-] d_y s) p else Pf tau (d_y s) x /\ Pg tau (2 [*] x [-] d_y s) p) /\
     d_y s' = d_y s [+] eta [*] (p [-] x) /\ d_tr s' = d_tr s ++ [(x, d_y s')]).
  destruct (loop_states (dr_body proxf proxg tau eta gfirst) (fun _ _ => True) Rl (S n) (DR None x0 [])) as [st [E1 [S0 [_ HR]]]]; auto.
  - intros j s _ _. unfold dr_body. destruct gfirst.
    + destruct (Hg (d_y s)) as [x [-> Hx]]. cbn [bind]. destruct (Hf (2 [*] x [-] d_y s)) as [p [-> Hp]]. cbn [bind fst snd].
      eexists. split; [reflexivity|]. split; auto. exists x, p. cbn [d_x d_y d_tr]. auto.
    + destruct (Hf (d_y s)) as [x [-> Hx]]. cbn [bind]. destruct (Hg (2 [*] x [-] d_y s)) as [p [-> Hp]]. cbn [bind fst snd].
      eexists. split; [reflexivity|]. split; auto. exists x, p. cbn [d_x d_y d_tr]. auto.
  - set (xs := fun j => match d_x (st (S j)) with Some x => x | None => vzero end).
    set (ys := fun j => d_y (st j)).
    assert (Hps : forall j, exists p, (j < S n)%nat -> d_x (st (S j)) = Some (xs j) /\
       (if gfirst then Pg tau (ys j) (xs j) /\ Pf tau (2 [*] xs j [-] ys j) p else Pf tau (ys j) (xs j) /\ Pg tau (2 [*] xs j [-] ys j) p) /\
       ys (S j) = ys j [+] eta [*] (p [-] xs j) /\ d_tr (st (S j)) = d_tr (st j) ++ [(xs j, ys (S j))]).
    { intro j. destruct (Nat.ltb_spec j (S n)) as [Hj|Hj].
      - destruct (HR j Hj) as [[x [p [H1 [H2 [H3 H4]]]]] _]. exists p. intros _. unfold xs, ys in *. rewrite H1 in *. auto.
      - exists vzero. intros; lia. }
    assert (Hpp : exists ps : nat -> E, forall j, (j < S n)%nat -> d_x (st (S j)) = Some (xs j) /\
       (if gfirst then Pg tau (ys j) (xs j) /\ Pf tau (2 [*] xs j [-] ys j) (ps j) else Pf tau (ys j) (xs j) /\ Pg tau (2 [*] xs j [-] ys j) (ps j)) /\
       ys (S j) = ys j [+] eta [*] (ps j [-] xs j) /\ d_tr (st (S j)) = d_tr (st j) ++ [(xs j, ys (S j))]).
    { clear - Hps. assert (forall m, exists ps : nat -> E, forall j, (j < S n)%nat -> (j < m)%nat -> d_x (st (S j)) = Some (xs j) /\
       (if gfirst then Pg tau (ys j) (xs j) /\ Pf tau (2 [*] xs j [-] ys j) (ps j) else Pf tau (ys j) (xs j) /\ Pg tau (2 [*] xs j [-] ys j) (ps j)) /\
       ys (S j) = ys j [+] eta [*] (ps j [-] xs j) /\ d_tr (st (S j)) = d_tr (st j) ++ [(xs j, ys (S j))]).
      { induction m as [|m [ps IH]]; [exists (fun _ => vzero); intros; lia|]. destruct (Hps m) as [p Hp].
        exists (fun j => if Nat.eqb j m then p else ps j). intros j Hj Hm. destruct (Nat.eqb_spec j m) as [->|]; [auto|apply IH; lia]. }
      destruct (H (S n)) as [ps Hq]. exists ps. auto. }
    destruct Hpp as [ps Hp]. exists xs, ps, ys. split.
    + unfold DouglasRachford. rewrite E1. cbn [bind fst]. destruct (Hp n ltac:(lia)) as [-> _].
      f_equal. f_equal.
      assert (Ht : forall m, (m <= S n)%nat -> d_tr (st m) = map (fun j => (xs j, ys (S j))) (seq 0 m)).
      { induction m as [|m IH]; intro Hm; [rewrite S0; auto|]. destruct (Hp m ltac:(lia)) as [_ [_ [_ ->]]]. rewrite IH, seq_S, map_app by lia. reflexivity. }
      apply Ht; lia.
    + split; [unfold ys; rewrite S0; auto|]. intros j Hj. destruct (Hp j Hj) as [_ [H1 [H2 _]]]. auto.
Qed.

Lemma admm_run tau x0 z0 n gfirst x z :
  (forall x, exists p, o_prox proxf x tau = Ok p /\ Pf tau x p) -> (forall x, exists p, o_prox proxg x tau = Ok p /\ Pg tau x p) ->
  x0z0_init x0 z0 = Ok (x, z) ->
  exists xs zs us, ADMM proxf proxg x0 tau n z0 gfirst = Ok (xs n, zs n, map (fun j => (xs j, zs j)) (seq 1 n)) /\
    xs 0%nat = x /\ zs 0%nat = z /\ us 0%nat = vzero /\ forall j, (j < n)%nat ->
      (if gfirst then Pg tau (xs j [+] us j) (zs (S j)) /\ Pf tau (zs (S j) [-] us j) (xs (S j))
       else Pf tau (zs j [-] us j) (xs (S j)) /\ Pg tau (xs (S j) [+] us j) (zs (S j))) /\ us (S j) = us j [+] xs (S j) [-] zs (S j).
Proof.
  intros Hf Hg Hi.
  set (Rl := fun (j : nat) (s s' : admm_state E) =>
     (if gfirst then Pg tau (a_x s [+] a_u s) (a_z s') /\ Pf tau (a_z s' [-] a_u s) (a_x s')
      else Pf tau (a_z s [-] a_u s) (a_x s') /\ Pg tau (a_x s' [+] a_u s) (a_z s')) /\
     a_u s' = a_u s [+] a_x s' [-] a_z s' /\ a_tr s' = a_tr s ++ [(a_x s', a_z s')]).
  destruct (loop_states (admm_body proxf proxg tau gfirst) (fun _ _ => True) Rl n (AD x z vzero [])) as [st [E1 [S0 [_ HR]]]]; auto.
  - intros j s _ _. unfold admm_body. destruct gfirst.
    + destruct (Hg (a_x s [+] a_u s)) as [p [-> Hx]]. cbn [bind]. destruct (Hf (p [-] a_u s)) as [q [-> Hp]]. cbn [bind fst snd].
      eexists. split; [reflexivity|]. split; auto. split; auto.
    + destruct (Hf (a_z s [-] a_u s)) as [p [-> Hx]]. cbn [bind]. destruct (Hg (p [+] a_u s)) as [q [-> Hp]]. cbn [bind fst snd].
      eexists. split; [reflexivity|]. split; auto. split; auto.
  - exists (fun j => a_x (st j)), (fun j => a_z (st j)), (fun j => a_u (st j)). split.
    + unfold ADMM. rewrite Hi. cbn [bind fst snd]. rewrite E1. cbn [bind fst]. f_equal. f_equal.
      apply (trace_states st a_tr (fun s => (a_x s, a_z s))); [rewrite S0; auto|]. intros j Hj. apply (HR j Hj).
    + rewrite S0. split; auto. split; auto. split; auto. intros j Hj. destruct (HR j Hj) as [[H1 [H2 _]] _]. auto.
Qed.

Lemma hqs_run tau (taus : nat -> R) x0 z0 n gfirst x z :
  (forall j, (j < n)%nat -> nth_error (hqs_taus tau n) j = Some (taus j)) ->
  (forall j x, (j < n)%nat -> exists p, o_prox proxf x (taus j) = Ok p /\ Pf (taus j) x p) ->
  (forall j x, (j < n)%nat -> exists p, o_prox proxg x (taus j) = Ok p /\ Pg (taus j) x p) ->
  x0z0_init x0 z0 = Ok (x, z) ->
  exists xs zs, HQS proxf proxg x0 tau n z0 gfirst = Ok (xs n, zs n, map (fun j => (xs j, zs j)) (seq 1 n)) /\
    xs 0%nat = x /\ zs 0%nat = z /\ forall j, (j < n)%nat ->
      (if gfirst then Pg (taus j) (xs j) (zs (S j)) /\ Pf (taus j) (zs (S j)) (xs (S j))
       else Pf (taus j) (zs j) (xs (S j)) /\ Pg (taus j) (xs (S j)) (zs (S j))).
Proof.
  intros Hta Hf Hg Hi.
  set (Rl := fun (j : nat) (s s' : hqs_state E) =>
     (if gfirst then Pg (taus j) (h_x s) (h_z s') /\ Pf (taus j) (h_z s') (h_x s')
      else Pf (taus j) (h_z s) (h_x s') /\ Pg (taus j) (h_x s') (h_z s')) /\ h_tr s' = h_tr s ++ [(h_x s', h_z s')]).
  destruct (loop_states (hqs_body proxf proxg (hqs_taus tau n) gfirst) (fun _ _ => True) Rl n (HQ x z [])) as [st [E1 [S0 [_ HR]]]]; auto.
  - intros j s Hj _. unfold hqs_body, getitem. rewrite (Hta j Hj). cbn [bind]. destruct gfirst.
    + destruct (Hg j (h_x s) Hj) as [p [-> Hx]]. cbn [bind]. destruct (Hf j p Hj) as [q [-> Hp]]. cbn [bind fst snd].
      eexists. split; [reflexivity|]. split; auto. split; auto.
    + destruct (Hf j (h_z s) Hj) as [p [-> Hx]]. cbn [bind]. destruct (Hg j p Hj) as [q [-> Hp]]. cbn [bind fst snd].
      eexists. split; [reflexivity|]. split; auto. split; auto.
  - exists (fun j => h_x (st j)), (fun j => h_z (st j)). split.
    + unfold HQS. rewrite Hi. cbn [bind fst snd]. rewrite E1. cbn [bind fst]. f_equal. f_equal.
      apply (trace_states st h_tr (fun s => (h_x s, h_z s))); [rewrite S0; auto|]. intros j Hj. apply (HR j Hj).
    + rewrite S0. split; auto. split; auto. intros j Hj. destruct (HR j Hj) as [[H1 _] _]. auto.
Qed.
End Runs.

(** ** Douglas-Rachford *)
Lemma dr_run_doc {E : IPS} (proxf proxg : Op E) f g tau eta x0 n gfirst : impl_prox proxf f -> impl_prox proxg g -> 0 < tau ->
  exists xs ps ys, DouglasRachford proxf proxg x0 tau eta (S n) gfirst = Ok (xs n, ys (S n), map (fun j => (xs j, ys (S j))) (seq 0 (S n))) /\
    ys 0%nat = x0 /\ (if gfirst then dr_doc f g tau eta xs ps ys (S n) else dr_doc g f tau eta xs ps ys (S n)).
Proof.
  intros Hf Hg Ht. destruct (dr_run proxf proxg (is_prox f) (is_prox g) tau eta x0 n gfirst) as [xs [ps [ys [E1 [H0 H1]]]]]; auto.
  exists xs, ps, ys. split; auto. split; auto. destruct gfirst; intros j Hj; destruct (H1 j Hj) as [[? ?] ?]; auto.
Qed.

(*! C49_certificate : f, g convex, 0 < eta < 2, tau > 0, niter >= 1, either order.  The run never raises, follows the documented
   recursion, and with p_k the inner prox result: for every solution (xs, u) (u subgradient of f, -u of g at xs),
   yopt = xs -+ tau u: |y_k - yopt| never increases, sum |p_k - x_k|^2 <= |x0-yopt|^2/(eta(2-eta)), |p_k - x_k| never increases *)
Lemma C49_certificate_l : forall (E : IPS) (proxf proxg : Op E) f g tau eta x0 n (gfirst : bool),
  impl_prox proxf f -> impl_prox proxg g -> convex f -> convex g -> 0 < tau -> 0 < eta < 2 ->
  exists xs ps ys, DouglasRachford proxf proxg x0 tau eta (S n) gfirst = Ok (xs n, ys (S n), map (fun j => (xs j, ys (S j))) (seq 0 (S n))) /\
    ys 0%nat = x0 /\ (if gfirst then dr_doc f g tau eta xs ps ys (S n) else dr_doc g f tau eta xs ps ys (S n)) /\
    (forall j, (S j < S n)%nat -> norm2 (ps (S j) [-] xs (S j)) <= norm2 (ps j [-] xs j)) /\
    forall x u, kkt f g x u -> let y := if gfirst then x [-] tau [*] u else x [+] tau [*] u in
      (forall j, (j < S n)%nat -> norm2 (ys (S j) [-] y) + eta * (2 - eta) * norm2 (ps j [-] xs j) <= norm2 (ys j [-] y)) /\
      Rsum (map (fun i => norm2 (ps i [-] xs i)) (seq 0 (S n))) <= norm2 (x0 [-] y) / (eta * (2 - eta)) /\
      norm2 (ps n [-] xs n) <= norm2 (x0 [-] y) / (eta * (2 - eta) * INR (S n)).
Proof.
  intros E proxf proxg f g tau eta x0 n gfirst Hpf Hpg Hf Hg Ht He.
  destruct (dr_run_doc proxf proxg f g tau eta x0 n gfirst Hpf Hpg Ht) as [xs [ps [ys [E1 [H0 Hd]]]]].
  exists xs, ps, ys. split; auto. split; auto. split; auto.
  assert (Hgen : forall f g, convex f -> convex g -> dr_doc f g tau eta xs ps ys (S n) ->
    (forall j, (S j < S n)%nat -> norm2 (ps (S j) [-] xs (S j)) <= norm2 (ps j [-] xs j)) /\
    forall x u, kkt f g x u -> let y := x [-] tau [*] u in
      (forall j, (j < S n)%nat -> norm2 (ys (S j) [-] y) + eta * (2 - eta) * norm2 (ps j [-] xs j) <= norm2 (ys j [-] y)) /\
      Rsum (map (fun i => norm2 (ps i [-] xs i)) (seq 0 (S n))) <= norm2 (x0 [-] y) / (eta * (2 - eta)) /\
      norm2 (ps n [-] xs n) <= norm2 (x0 [-] y) / (eta * (2 - eta) * INR (S n))).
  { clear f g Hpf Hpg Hf Hg Hd. intros f g Hf Hg Hd.
    assert (Hmono : forall j, (S j < S n)%nat -> norm2 (ps (S j) [-] xs (S j)) <= norm2 (ps j [-] xs j)).
    { intros j Hj. apply (dr_res_mono f g tau eta xs ps ys (S n)); auto; lra. }
    split; auto. intros x u Hk y. destruct (kkt_dr_fix f g tau x u Ht Hk) as [K1 K2]. fold y in K1, K2.
    split; [apply (dr_fejer f g tau eta xs ps ys (S n) Hf Hg Ht (proj1 He) Hd y x K1 K2)|].
    pose proof (dr_sum f g tau eta xs ps ys (S n) Hf Hg Ht (proj1 He) Hd y x K1 K2 (S n) (Nat.le_refl _)) as Hs. rewrite H0 in Hs.
    pose proof (norm2_nonneg (ys (S n) [-] y)). assert (0 < eta * (2 - eta)) by nra.
    split; [apply le_div; auto; lra|]. apply le_div; [apply Rmult_lt_0_compat; auto; apply lt_0_INR; lia|].
    assert (Hl : forall m, (m <= S n)%nat -> INR m * norm2 (ps n [-] xs n) <= Rsum (map (fun i => norm2 (ps i [-] xs i)) (seq 0 m))).
    { assert (Hle : forall d j, (j + d = n)%nat -> norm2 (ps n [-] xs n) <= norm2 (ps j [-] xs j)).
      { induction d as [|d IH]; intros j Hj; [replace j with n by lia; lra|]. eapply Rle_trans; [apply (IH (S j)); lia|]. apply Hmono; lia. }
      induction m as [|m IH]; intro Hm; [simpl; lra|]. rewrite seq_S, map_app, Rsum_app, S_INR. simpl Rsum.
      specialize (IH ltac:(lia)). specialize (Hle (n - m)%nat m ltac:(lia)). lra. }
    specialize (Hl (S n) (Nat.le_refl _)).
    assert (eta * (2 - eta) * (INR (S n) * norm2 (ps n [-] xs n)) <= eta * (2 - eta) * Rsum (map (fun i => norm2 (ps i [-] xs i)) (seq 0 (S n)))) by (apply Rmult_le_compat_l; lra).
    lra. }
  destruct gfirst.
  - destruct (Hgen f g Hf Hg Hd) as [G1 G2]. split; auto.
  - destruct (Hgen g f Hg Hf Hd) as [G1 G2]. split; auto. intros x u Hk y. specialize (G2 x (vopp u) (kkt_swap _ _ _ _ Hk)).
    replace (x [-] tau [*] vopp u) with y in G2 by (unfold y; vring). exact G2.
Qed.

(*! C49_gap : for 0 < eta <= 2 and every z in both domains (no solution assumed): the sum over the run of
   f(p_k)+g(x_k) - f(z)-g(z) is at most |x0-z|^2/(2 tau eta) (x_k the first, p_k the second prox; order by gfirst) *)
Lemma C49_gap_l : forall (E : IPS) (proxf proxg : Op E) f g tau eta x0 n (gfirst : bool),
  impl_prox proxf f -> impl_prox proxg g -> convex f -> convex g -> 0 < tau -> 0 < eta <= 2 ->
  exists xs ps ys, DouglasRachford proxf proxg x0 tau eta (S n) gfirst = Ok (xs n, ys (S n), map (fun j => (xs j, ys (S j))) (seq 0 (S n))) /\
    ys 0%nat = x0 /\ (forall j, (j < S n)%nat -> ys (S j) = ys j [+] eta [*] (ps j [-] xs j)) /\
    forall z, edom f z -> edom g z ->
      Rsum (map (fun i => (if gfirst then eval f (ps i) + eval g (xs i) else eval f (xs i) + eval g (ps i)) - (eval f z + eval g z)) (seq 0 (S n)))
      <= norm2 (x0 [-] z) / (2 * tau * eta).
Proof.
  intros E proxf proxg f g tau eta x0 n gfirst Hpf Hpg Hf Hg Ht He.
  destruct (dr_run_doc proxf proxg f g tau eta x0 n gfirst Hpf Hpg Ht) as [xs [ps [ys [E1 [H0 Hd]]]]].
  exists xs, ps, ys. split; auto. split; auto. split; [destruct gfirst; intros j Hj; apply (Hd j Hj)|].
  intros z Hzf Hzg. destruct gfirst.
  - pose proof (dr_gap_sum f g tau eta xs ps ys (S n) Hf Hg Ht (proj1 He) Hd z (proj2 He) Hzf Hzg (S n) (Nat.le_refl _)) as H.
    rewrite H0 in H. pose proof (norm2_nonneg (ys (S n) [-] z)). apply le_div; [nra|lra].
  - pose proof (dr_gap_sum g f tau eta xs ps ys (S n) Hg Hf Ht (proj1 He) Hd z (proj2 He) Hzg Hzf (S n) (Nat.le_refl _)) as H.
    rewrite H0 in H. pose proof (norm2_nonneg (ys (S n) [-] z)). apply le_div; [nra|].
    replace (map (fun i => eval f (xs i) + eval g (ps i) - (eval f z + eval g z)) (seq 0 (S n)))
      with (map (fun i => eval g (ps i) + eval f (xs i) - (eval g z + eval f z)) (seq 0 (S n))) by (apply map_ext; intro; ring).
    lra.
Qed.

(*! C49_fixed_points : if an iteration leaves y unchanged then that iteration's x minimises f + g; conversely started at
   y0 = xs - tau u (gfirst) for a solution (xs, u), every callback receives (xs, y0) *)
Lemma C49_fixed_points_l : forall (E : IPS) (proxf proxg : Op E) f g tau eta x0 n (gfirst : bool),
  impl_prox proxf f -> impl_prox proxg g -> convex f -> convex g -> 0 < tau -> 0 < eta ->
  exists x y tr, DouglasRachford proxf proxg x0 tau eta (S n) gfirst = Ok (x, y, tr) /\
    (forall i a b yi, nth_error (x0 :: map snd tr) i = Some yi -> nth_error tr i = Some (a, b) -> b = yi -> is_min (eadd f g) a) /\
    (forall xs u, kkt f g xs u -> x0 = (if gfirst then xs [-] tau [*] u else xs [+] tau [*] u) -> tr = repeat (xs, x0) (S n)).
Proof.
  intros E proxf proxg f g tau eta x0 n gfirst Hpf Hpg Hf Hg Ht He.
  destruct (dr_run_doc proxf proxg f g tau eta x0 n gfirst Hpf Hpg Ht) as [xs [ps [ys [E1 [H0 Hd]]]]].
  eexists _, _, _. split; [exact E1|].
  assert (Hsc : forall v : E, eta [*] v = vzero -> v = vzero). { intros v Hv. replace v with (/ eta [*] (eta [*] v)) by (vfield; lra). rewrite Hv. vring. }
  assert (Hgen : forall f g, convex f -> convex g -> dr_doc f g tau eta xs ps ys (S n) ->
     (forall j, (j < S n)%nat -> ys (S j) = ys j -> is_min (eadd f g) (xs j)) /\
     (forall x u, kkt f g x u -> x0 = x [-] tau [*] u -> forall j, (j < S n)%nat -> xs j = x /\ ys (S j) = x0)).
  { clear f g Hpf Hpg Hf Hg Hd. intros f g Hf Hg Hd. split.
    - intros j Hj Hy. destruct (Hd j Hj) as [A1 [A2 A3]]. rewrite Hy in A3.
      assert (Hp : ps j = xs j). { apply vsub_eq, Hsc. apply (f_equal (fun v => v [-] ys j)) in A3. replace (ys j [-] ys j) with (vzero:E) in A3 by vring. rewrite A3. vring. }
      rewrite Hp in A2. apply (kkt_min f g (xs j) _ (dr_fix_kkt f g tau (ys j) (xs j) Hf Hg Ht A1 A2)).
    - intros x u Hk Hx. destruct (kkt_dr_fix f g tau x u Ht Hk) as [K1 K2]. rewrite <- Hx in K1, K2.
      assert (Hy : forall j, (j <= S n)%nat -> ys j = x0).
      { induction j as [|j IH]; intro Hj; auto. destruct (Hd j ltac:(lia)) as [A1 [A2 A3]]. rewrite IH in * by lia.
        pose proof (prox_unique g tau x0 (xs j) x Hg Ht A1 K1) as Ex. rewrite Ex in *.
        pose proof (prox_unique f tau _ (ps j) x Hf Ht A2 K2) as Ep. rewrite A3, Ep. vring. }
      intros j Hj. split; [|apply Hy; lia]. destruct (Hd j Hj) as [A1 _]. rewrite Hy in A1 by lia. apply (prox_unique g tau x0); auto. }
  assert (Hc : x0 :: map snd (map (fun j => (xs j, ys (S j))) (seq 0 (S n))) = map ys (seq 0 (S (S n)))).
  { rewrite map_map. cbn [snd]. rewrite <- H0. rewrite <- (map_map S ys), seq_shift. reflexivity. }
  assert (Hrep : forall x : E, (forall j, (j < S n)%nat -> xs j = x /\ ys (S j) = x0) -> map (fun j => (xs j, ys (S j))) (seq 0 (S n)) = repeat (x, x0) (S n)).
  { intros x Hx. assert (Hr : forall m i, (i + m <= S n)%nat -> map (fun j => (xs j, ys (S j))) (seq i m) = repeat (x, x0) m).
    { induction m as [|m IH]; intros i Hi; [reflexivity|]. cbn [seq map repeat]. destruct (Hx i ltac:(lia)) as [-> ->]. f_equal. apply IH; lia. }
    apply Hr; lia. }
  rewrite Hc. split.
  - intros i a b yi Hi Hab Hb. apply nth_error_map_seq in Hi as [_ Hi]. apply nth_error_map_seq in Hab as [Hj Hab].
    injection Hab as -> Hbb. cbn [Nat.add] in *. destruct gfirst.
    + apply (proj1 (Hgen f g Hf Hg Hd) i); auto. congruence.
    + assert (is_min (eadd g f) (xs i)) as [[M1 M2] M3]. { apply (proj1 (Hgen g f Hg Hf Hd) i); auto. congruence. }
      split; [split; auto|]. intros y [Y1 Y2]. specialize (M3 y (conj Y2 Y1)). cbn [eval eadd] in *. lra.
  - intros x u Hk Hx. apply Hrep. destruct gfirst.
    + apply (proj2 (Hgen f g Hf Hg Hd) x u Hk Hx).
    + apply (proj2 (Hgen g f Hg Hf Hd) x (vopp u) (kkt_swap _ _ _ _ Hk)). rewrite Hx. vring.
Qed.

(*! C49_no_iterations_refuted : niter = 0 raises UnboundLocalError instead of returning the initial guess *)
Lemma C49_no_iterations_refuted_l : forall (E : IPS) (proxf proxg : Op E) x0 tau eta gfirst,
  DouglasRachford proxf proxg x0 tau eta 0 gfirst = Err UnboundLocalError.
Proof. reflexivity. Qed.
