(** * The iterates of the convex solvers converge to a solution (M_PG.v, M_Split.v) *)
From Coq Require Import String Psatz.
From Verif Require Import Base Space Spec Cplx ConvexFacts Smooth VSum M_ProxOp SpecOps P_ProxOp M_Norms P_Norms M_Loop LoopFacts SeqFacts M_PG M_Split SplitMath P_PG P_PG2 P_PG3 P_Split2 S_Seq Compact Fejer IterMath.
From Verif Require Export S_Iter.
Open Scope result_scope.
Open Scope R_scope.

(*! C75_arrays : the arrays the library works on have the property used below (every bounded sequence has a convergent
   subsequence): the real numbers, real arrays of n entries, complex arrays of n entries, products and stacked arrays *)
Lemma C75_arrays_l : bw R_IPS /\ (forall n, bw (Vec n)) /\ (forall n, bw (CArr n)) /\ (forall E F, bw E -> bw F -> bw (Prod_IPS E F)) /\ (forall E m, bw E -> bw (Pow E m)).
Proof.
  split; [exact bw_R|]. split; [intro n; apply bw_pow, bw_R|]. split; [intro n; apply bw_pow, bw_prod; apply bw_R|]. split; [exact bw_prod|intros E m; apply bw_pow].
Qed.

Lemma for_loop_ext {S} (b1 b2 : nat -> S -> result (S * bool)) n : forall i s, (forall j s, (i <= j < i + n)%nat -> b1 j s = b2 j s) -> for_loop b1 n i s = for_loop b2 n i s.
Proof.
  induction n as [|n IH]; intros i s H; [reflexivity|]. cbn [for_loop]. rewrite H by lia. destruct (b2 i s) as [[s' [|]]|]; cbn [bind fst snd]; auto. apply IH. intros. apply H. lia.
Qed.

(*! C75_proximal_point : f convex with a minimiser, any tau > 0 and x0, in finite dimension: the vectors returned by
   ProximalPoint with niter = 0, 1, 2, ... (tol not given) converge to a minimiser of f; the callback of a run receives
   exactly the earlier ones *)
Lemma C75_proximal_point_l : forall (E : IPS) (o : Op E) f x0 tau, bw E -> impl_prox o f -> convex f -> 0 < tau -> (exists m, is_min f m) ->
  exists xs l, (forall n, ProximalPoint o x0 tau n None = Ok (xs n, map xs (seq 1 n))) /\ is_min f l /\ vcv xs l.
Proof.
  intros E o f x0 tau HB Ho Hf Ht Hm.
  destruct (loop_seq (pp_body o tau None) (fun _ _ => True) (fun j s s' => is_prox f tau (pp_x s) (pp_x s') /\ pp_tr s' = pp_tr s ++ [pp_x s']) (PP x0 None [])) as (st & S0 & Hrun & _ & HR); [exact I| |].
  { intros j s _. unfold pp_body. destruct (Ho (pp_x s) tau Ht) as (p & -> & Hp). cbn [bind]. eexists. split; [reflexivity|]. cbn [pp_x pp_tr]. auto. }
  destruct (pp_cv HB f tau (fun k => pp_x (st k))) as (l & Hl & Hc); auto; [intro x; destruct (Ho x tau Ht) as (p & _ & Hp); eauto|intro j; apply HR|].
  exists (fun k => pp_x (st k)), l. split; [|auto]. intro n. unfold ProximalPoint. rewrite Hrun. cbn [bind fst snd]. do 2 f_equal.
  rewrite (trace_seq st pp_tr (fun k => pp_x (st (S k)))); [|rewrite S0; reflexivity|intro j; apply HR]. rewrite <- seq_shift, map_map. reflexivity.
Qed.


(*! C75_proximal_gradient : f convex with L-Lipschitz gradient, g convex, eps > 0, 0 < eta < 2 - tau L/2 (tau < 2/L for the
   default eta = 1), fixed step, no acceleration, f + eps g has a minimiser, finite dimension: the vectors returned by
   ProximalGradient with niter = 1, 2, ... converge to a minimiser of f + eps g *)
Lemma C75_proximal_gradient_l : forall (E : IPS) (proxf proxg : Op E) f df L g eps x0 tau beta eta niterback accel, bw E ->
  smooth_op proxf f df L -> impl_prox proxg g -> convex g -> 0 < eps -> 0 < tau -> 0 < eta < 2 - tau * L / 2 -> unaccelerated accel eta ->
  (exists m, is_min (eadd (etot f) (escal eps g)) m) ->
  exists xs l, xs 0%nat = x0 /\ (forall n, ProximalGradient proxf proxg x0 [eps] (Some tau) false beta eta (S n) niterback accel None = Ok (xs (S n), map xs (seq 1 (S n)))) /\
    is_min (eadd (etot f) (escal eps g)) l /\ vcv xs l.
Proof.
  intros E proxf proxg f df L g eps x0 tau beta eta niterback accel HB [_ [Hgr [Hcv [HL Hsm]]]] Hp Hg He Ht Hn Ha Hm.
  assert (Het : 0 < eps * tau) by (apply Rmult_lt_0_compat; assumption).
  set (body := fun (j : nat) (s : pg_state E) =>
     xt <- pg_prox_step proxf proxg false beta eta niterback eps (pg_x s) (pg_y s) (pg_tau s) ;;
     let x := fst xt in
     let t' := if accel_is accel "fista" then (1 + sqrt (1 + 4 * (pg_t s * pg_t s))) / 2 else pg_t s in
     let omega := if accel_is accel "vandenberghe" then INR j / (INR j + 3) else if accel_is accel "fista" then (pg_t s - 1) / t' else 0 in
     let y := x [+] omega [*] (x [-] pg_x s) in
     Ok (PG x y t' (snd xt) (pg_pfg s) (pg_tr s ++ [x]), false)).
  destruct (loop_seq body (fun _ s => pg_tau s = tau /\ (eta = 1 -> pg_y s = pg_x s))
     (fun _ s s' => (exists p, is_prox g (eps * tau) (pg_x s [-] tau [*] df (pg_x s)) p /\ pg_x s' = pg_x s [+] eta [*] (p [-] pg_x s)) /\ pg_tr s' = pg_tr s ++ [pg_x s'])
     (PG x0 x0 1 tau None [])) as (st & S0 & Hrun & _ & HR); [auto| |].
  { intros j s [Hta Hy]. destruct (Hp (pg_x s [-] tau [*] df (pg_x s)) (eps * tau) Het) as (p & Ep & Hpp). unfold body, pg_prox_step, get_grad.
    destruct (Reqb_spec eta 1) as [[H1 ->]|[H1 ->]].
    - rewrite (Hy H1), Hta, Hgr. cbn [bind]. rewrite Ep. cbn [bind fst snd]. eexists. split; [reflexivity|]. cbn [pg_x pg_tr pg_tau pg_y]. split; [split; [|reflexivity]|split; [reflexivity|]].
      + exists p. split; [exact Hpp|]. rewrite H1. vring.
      + intros _. assert (Hno : accel = None \/ accel = Some "None"%string) by (destruct Ha as [Ha|[Ha|[Ha _]]]; tauto). destruct Hno as [->| ->]; cbn [accel_is]; [vring|]. cbn. vring.
    - rewrite Hta, Hgr. cbn [bind]. rewrite Ep. cbn [bind fst snd]. eexists. split; [reflexivity|]. cbn [pg_x pg_tr pg_tau pg_y]. split; [split; [|reflexivity]|split; [reflexivity|tauto]].
      exists p. split; [exact Hpp|]. reflexivity. }
  assert (Hps : exists ps : nat -> E, forall j, is_prox g (eps * tau) (pg_x (st j) [-] tau [*] df (pg_x (st j))) (ps j) /\ pg_x (st (S j)) = pg_x (st j) [+] eta [*] (ps j [-] pg_x (st j))).
  { exists (fun j => match o_prox proxg (pg_x (st j) [-] tau [*] df (pg_x (st j))) (eps * tau) with Ok p => p | Err _ => vzero end). intro j.
    destruct (HR j) as ((p & A & B) & _). destruct (Hp (pg_x (st j) [-] tau [*] df (pg_x (st j))) (eps * tau) Het) as (q & -> & Hq).
    rewrite (prox_unique g (eps * tau) _ q p Hg Het Hq A). auto. }
  destruct Hps as [ps Hps].
  destruct (pg_cv HB f df L g eps tau eta (fun k => pg_x (st k)) ps) as (l & Hl & Hc); auto; [intro x; destruct (Hp x (eps * tau) Het) as (p & _ & Hq); eauto|].
  exists (fun k => pg_x (st k)), l. split; [rewrite S0; reflexivity|]. split; [|auto]. intro n. unfold ProximalGradient. cbn [pg_epsg bind].
  assert (Hk : accel_known accel = true) by (destruct Ha as [->|[->|[_ [->| ->]]]]; reflexivity). rewrite Hk.
  rewrite (for_loop_ext _ body); [|intros j s Hj; unfold pg_body, getitem; rewrite nth_error_repeat by lia; reflexivity].
  rewrite Hrun. cbn [bind fst snd]. do 2 f_equal.
  rewrite (trace_seq st pg_tr (fun k => pg_x (st (S k)))); [|rewrite S0; reflexivity|intro j; apply HR]. rewrite <- seq_shift, map_map. reflexivity.
Qed.

(*! C75_douglas_rachford : f, g convex, 0 < eta < 2, tau > 0, any start and either order, finite dimension, and some point is a
   solution with a multiplier: the x returned by DouglasRachfordSplitting with niter = 1, 2, ... converges to a minimiser l
   of f + g and the auxiliary vector y converges to l - tau u (gfirst) or l + tau u for a subgradient u of f at l with -u
   one of g *)
Lemma C75_douglas_rachford_l : forall (E : IPS) (proxf proxg : Op E) f g x0 tau eta (gfirst : bool), bw E ->
  impl_prox proxf f -> impl_prox proxg g -> convex f -> convex g -> 0 < tau -> 0 < eta < 2 -> (exists x u, kkt f g x u) ->
  exists xs ys l u, (forall n, exists tr, DouglasRachford proxf proxg x0 tau eta (S n) gfirst = Ok (xs n, ys n, tr)) /\
    kkt f g l u /\ is_min (eadd f g) l /\ vcv xs l /\ vcv ys (if gfirst then l [-] tau [*] u else l [+] tau [*] u).
Proof.
  intros E proxf proxg f g x0 tau eta gfirst HB Hpf Hpg Hf Hg Ht He Hk.
  assert (Ef : forall x, exists p, is_prox f tau x p) by (intro x; destruct (Hpf x tau Ht) as (p & _ & Hq); eauto).
  assert (Eg : forall x, exists p, is_prox g tau x p) by (intro x; destruct (Hpg x tau Ht) as (p & _ & Hq); eauto).
  set (first := if gfirst then proxg else proxf). set (second := if gfirst then proxf else proxg). set (f1 := if gfirst then g else f). set (f2 := if gfirst then f else g).
  set (val := fun o v => match o_prox o v tau with Ok p => p | Err _ => (vzero : E) end).
  assert (H1 : forall v, o_prox first v tau = Ok (val first v) /\ is_prox f1 tau v (val first v)).
  { intro v. unfold first, f1, val. destruct gfirst; [destruct (Hpg v tau Ht) as (p & -> & Hq)|destruct (Hpf v tau Ht) as (p & -> & Hq)]; auto. }
  assert (H2 : forall v, o_prox second v tau = Ok (val second v) /\ is_prox f2 tau v (val second v)).
  { intro v. unfold second, f2, val. destruct gfirst; [destruct (Hpf v tau Ht) as (p & -> & Hq)|destruct (Hpg v tau Ht) as (p & -> & Hq)]; auto. }
  set (X := fun y => val first y). set (P := fun y => val second (2 [*] X y [-] y)).
  destruct (loop_seq (dr_body proxf proxg tau eta gfirst) (fun _ _ => True) (fun _ s s' => d_x s' = Some (X (d_y s)) /\ d_y s' = d_y s [+] eta [*] (P (d_y s) [-] X (d_y s))) (DR None x0 [])) as (st & S0 & Hrun & _ & HR); [exact I| |].
  { intros j s _. unfold dr_body. unfold X, P. pose proof (H1 (d_y s)) as [A _]. pose proof (H2 (2 [*] X (d_y s) [-] d_y s)) as [B _]. unfold X in B. unfold first, second in *. destruct gfirst; rewrite A; cbn [bind]; rewrite B; cbn [bind fst snd];
      (eexists; split; [reflexivity|]; cbn [d_x d_y]; auto). }
  destruct (dr_cv HB f2 f1 tau eta (fun k => X (d_y (st k))) (fun k => P (d_y (st k))) (fun k => d_y (st k))) as (l & u & Kl & Lx & Ly); auto.
  { unfold f2. destruct gfirst; auto. }  { unfold f1. destruct gfirst; auto. } { unfold f2. destruct gfirst; auto. } { unfold f1. destruct gfirst; auto. }
  { intro j. split; [apply H1|]. split; [apply H2|]. apply HR. }
  { unfold f1, f2. destruct gfirst; [exact Hk|]. destruct Hk as (x & u & Hk). exists x, (vopp u). apply kkt_swap. exact Hk. }
  exists (fun k => X (d_y (st k))), (fun k => d_y (st (S k))), l, (if gfirst then u else vopp u).
  assert (Kl' : kkt f g l (if gfirst then u else vopp u)). { unfold f1, f2 in Kl. destruct gfirst; [exact Kl|]. apply kkt_swap. exact Kl. }
  split; [|split; [exact Kl'|split; [apply (kkt_min f g l _ Kl')|split; [exact Lx|]]]].
  - intro n. exists (d_tr (st (S n))). unfold DouglasRachford. rewrite Hrun. cbn [bind fst snd]. destruct (HR n) as [-> _]. reflexivity.
  - apply (vcv_shift (fun k => d_y (st k))). destruct gfirst; [exact Ly|]. replace (l [+] tau [*] vopp u) with (l [-] tau [*] u) by vring. exact Ly.
Qed.

(*! C75_admm : f, g convex, tau > 0, any start and either order, finite dimension, and some point is a solution with a
   multiplier: the two vectors returned by ADMM with niter = 0, 1, 2, ... both converge to one and the same minimiser of
   f + g *)
Lemma C75_admm_l : forall (E : IPS) (proxf proxg : Op E) f g x0 z0 x z tau (gfirst : bool), bw E ->
  impl_prox proxf f -> impl_prox proxg g -> convex f -> convex g -> 0 < tau -> x0z0_init x0 z0 = Ok (x, z) -> (exists x u, kkt f g x u) ->
  exists xs zs l, (forall n, exists tr, ADMM proxf proxg x0 tau n z0 gfirst = Ok (xs n, zs n, tr)) /\ is_min (eadd f g) l /\ vcv xs l /\ vcv zs l.
Proof.
  intros E proxf proxg f g x0 z0 x z tau gfirst HB Hpf Hpg Hf Hg Ht Hi Hk.
  assert (Ef : forall x, exists p, is_prox f tau x p) by (intro v; destruct (Hpf v tau Ht) as (p & _ & Hq); eauto).
  assert (Eg : forall x, exists p, is_prox g tau x p) by (intro v; destruct (Hpg v tau Ht) as (p & _ & Hq); eauto).
  destruct (loop_seq (admm_body proxf proxg tau gfirst) (fun _ _ => True) (fun _ s s' => a_u s' = a_u s [+] a_x s' [-] a_z s' /\
     if gfirst then is_prox g tau (a_x s [+] a_u s) (a_z s') /\ is_prox f tau (a_z s' [-] a_u s) (a_x s')
     else is_prox f tau (a_z s [-] a_u s) (a_x s') /\ is_prox g tau (a_x s' [+] a_u s) (a_z s')) (AD x z vzero [])) as (st & S0 & Hrun & _ & HR); [exact I| |].
  { intros j s _. unfold admm_body. destruct gfirst.
    - destruct (Hpg (a_x s [+] a_u s) tau Ht) as (p & -> & Hp). cbn [bind]. destruct (Hpf (p [-] a_u s) tau Ht) as (q & -> & Hq). cbn [bind fst snd]. eexists. split; [reflexivity|]. cbn [a_x a_z a_u]. auto.
    - destruct (Hpf (a_z s [-] a_u s) tau Ht) as (p & -> & Hp). cbn [bind]. destruct (Hpg (p [+] a_u s) tau Ht) as (q & -> & Hq). cbn [bind fst snd]. eexists. split; [reflexivity|]. cbn [a_x a_z a_u]. auto. }
  assert (Hret : forall n, exists tr, ADMM proxf proxg x0 tau n z0 gfirst = Ok (a_x (st n), a_z (st n), tr)).
  { intro n. exists (a_tr (st n)). unfold ADMM. rewrite Hi. cbn [bind fst snd]. rewrite Hrun. reflexivity. }
  exists (fun k => a_x (st k)), (fun k => a_z (st k)). destruct gfirst.
  - destruct (admm_cv HB g f tau (fun k => a_z (st k)) (fun k => a_x (st k)) (fun k => vopp (a_u (st k)))) as (l & u & Kl & Lz & Lx & _); auto.
    { intro j. destruct (HR j) as (H3 & H1 & H2). cbn beta. split; [|split].
      - replace (a_x (st j) [-] vopp (a_u (st j))) with (a_x (st j) [+] a_u (st j)) by vring. exact H1.
      - replace (a_z (st (S j)) [+] vopp (a_u (st j))) with (a_z (st (S j)) [-] a_u (st j)) by vring. exact H2.
      - rewrite H3. vring. }
    { destruct Hk as (a & b & Hk). exists a, (vopp b). apply kkt_swap. exact Hk. }
    exists l. split; [exact Hret|]. split; [apply (kkt_min f g l (vopp u)); apply kkt_swap; exact Kl|auto].
  - destruct (admm_cv HB f g tau (fun k => a_x (st k)) (fun k => a_z (st k)) (fun k => a_u (st k))) as (l & u & Kl & Lx & Lz & _); auto.
    { intro j. destruct (HR j) as (H3 & H1 & H2). auto. }
    exists l. split; [exact Hret|]. split; [apply (kkt_min f g l u); exact Kl|auto].
Qed.

(*! C75_hqs : f, g convex, one fixed tau > 0, any start and either order, finite dimension, and the penalised problem min over
   (w, v) of f(w) + g(v) + |w-v|^2/(2 tau) has a solution: the pair returned by HQS with niter = 0, 1, 2, ... converges to a
   solution of that problem *)
Lemma C75_hqs_l : forall (E : IPS) (proxf proxg : Op E) f g x0 z0 x z tau (gfirst : bool), bw E ->
  impl_prox proxf f -> impl_prox proxg g -> convex f -> convex g -> 0 < tau -> x0z0_init x0 z0 = Ok (x, z) ->
  let J := mkEfun (E := Prod_IPS E E) (fun p => edom f (fst p) /\ edom g (snd p)) (fun p => eval f (fst p) + eval g (snd p) + / (2 * tau) * norm2 (fst p [-] snd p)) in
  (exists p, is_min J p) ->
  exists xs zs xl zl, (forall n, exists tr, HQS proxf proxg x0 [tau] n z0 gfirst = Ok (xs n, zs n, tr)) /\ is_min J (xl, zl) /\ vcv xs xl /\ vcv zs zl.
Proof.
  intros E proxf proxg f g x0 z0 x z tau gfirst HB Hpf Hpg Hf Hg Ht Hi J Hm.
  assert (HJ : forall a b, is_min J (a, b) <-> hqs_min f g tau a b).
  { intros a b. unfold is_min, hqs_min, J. cbn [edom eval fst snd]. split.
    - intros [[H1 H2] H3]. split; [auto|]. split; [auto|]. intros w v Hw Hv. apply (H3 (w, v)). auto.
    - intros (H1 & H2 & H3). split; [auto|]. intros [w v] [Hw Hv]. apply H3; auto. }
  assert (Hsw : forall a b, hqs_min f g tau a b <-> hqs_min g f tau b a).
  { intros a b. unfold hqs_min. split; intros (H1 & H2 & H3); (split; [auto|]); (split; [auto|]); intros w v Hw Hv; specialize (H3 v w Hv Hw); rewrite (norm2_sub_sym b a) || rewrite (norm2_sub_sym a b); rewrite (norm2_sub_sym w v); lra. }
  assert (Ef : forall x, exists p, is_prox f tau x p) by (intro v; destruct (Hpf v tau Ht) as (p & _ & Hq); eauto).
  assert (Eg : forall x, exists p, is_prox g tau x p) by (intro v; destruct (Hpg v tau Ht) as (p & _ & Hq); eauto).
  set (body := fun (j : nat) (s : hqs_state E) => xz <- (if gfirst then z <- o_prox proxg (h_x s) tau ;; x <- o_prox proxf z tau ;; Ok (x, z)
         else x <- o_prox proxf (h_z s) tau ;; z <- o_prox proxg x tau ;; Ok (x, z)) ;;
         Ok (HQ (fst xz) (snd xz) (h_tr s ++ [xz]), false)).
  destruct (loop_seq body (fun _ _ => True) (fun _ s s' => if gfirst then is_prox g tau (h_x s) (h_z s') /\ is_prox f tau (h_z s') (h_x s')
     else is_prox f tau (h_z s) (h_x s') /\ is_prox g tau (h_x s') (h_z s')) (HQ x z [])) as (st & S0 & Hrun & _ & HR); [exact I| |].
  { intros j s _. unfold body. destruct gfirst.
    - destruct (Hpg (h_x s) tau Ht) as (p & -> & Hp). cbn [bind]. destruct (Hpf p tau Ht) as (q & -> & Hq). cbn [bind fst snd]. eexists. split; [reflexivity|]. cbn [h_x h_z]. auto.
    - destruct (Hpf (h_z s) tau Ht) as (p & -> & Hp). cbn [bind]. destruct (Hpg p tau Ht) as (q & -> & Hq). cbn [bind fst snd]. eexists. split; [reflexivity|]. cbn [h_x h_z]. auto. }
  assert (Hret : forall n, exists tr, HQS proxf proxg x0 [tau] n z0 gfirst = Ok (h_x (st n), h_z (st n), tr)).
  { intro n. exists (h_tr (st n)). unfold HQS. rewrite Hi. cbn [bind fst snd].
    rewrite (for_loop_ext _ body); [|intros j s Hj; unfold hqs_body, getitem; rewrite hqs_taus_scalar by lia; reflexivity]. rewrite Hrun. reflexivity. }
  exists (fun k => h_x (st k)), (fun k => h_z (st k)). destruct Hm as [[mx mz] Hm]. apply HJ in Hm. destruct gfirst.
  - destruct (hqs_cv HB f g tau (fun k => h_x (st k)) (fun k => h_z (st k))) as (a & b & Hab & La & Lb); auto; [eauto|].
    exists a, b. split; [exact Hret|]. split; [apply HJ; exact Hab|auto].
  - destruct (hqs_cv HB g f tau (fun k => h_z (st k)) (fun k => h_x (st k))) as (b & a & Hab & Lb & La); auto; [exists mz, mx; apply Hsw; exact Hm|].
    exists a, b. split; [exact Hret|]. split; [apply HJ, Hsw; exact Hab|auto].
Qed.
