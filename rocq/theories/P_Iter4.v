(** * Convergence of the proximal gradient iterates with backtracking and with acceleration (M_PG.v) *)
From Coq Require Import String Psatz Classical ConstructiveEpsilon.
From Verif Require Import Base Space Spec Cplx ConvexFacts Smooth VSum M_ProxOp SpecOps P_ProxOp M_Norms P_Norms M_Loop LoopFacts LoopFacts2 SeqFacts M_PG M_Split SplitMath P_PG P_PG2 P_PG3 S_Seq Compact Fejer IterMath P_Iter HahnBanach ExistMath P_Exist.
Open Scope result_scope.
Open Scope R_scope.

Section V.
Context {E : IPS} (HB : bw E).

(** proximal gradient steps whose length varies between two positive bounds and that pass the sufficient decrease test *)
Lemma pg_cv_bt (fv : E -> R) df L g e ts m0 t0 xs : convex (etot fv) -> 0 < L -> L_smooth fv df L -> convex g -> 0 < e -> 0 < m0 ->
  (forall j : nat, m0 <= ts j <= t0) -> (forall x, exists p, is_prox g (e * 1) x p) ->
  (forall j, is_prox g (e * ts j) (xs j [-] ts j [*] df (xs j)) (xs (S j)) /\
     fv (xs (S j)) <= fv (xs j) + << df (xs j), xs (S j) [-] xs j >> + / (2 * ts j) * norm2 (xs (S j) [-] xs j)) ->
  (exists m, is_min (eadd (etot fv) (escal e g)) m) -> exists l, is_min (eadd (etot fv) (escal e g)) l /\ vcv xs l.
Proof.
  intros Hc HL Hs Hg He Hm0 Hts Hex Hr [m Hm]. pose proof (L_smooth_convex fv df L Hc Hs) as [Hsc _].
  assert (Htp : forall j, 0 < ts j) by (intro j; specialize (Hts j); lra).
  set (F := fun x => fv x + e * eval g x).
  assert (Hdx : forall j, edom g (xs (S j))) by (intro j; apply (Hr j)).
  assert (Hin : forall j z, edom g z -> 2 * ts j * (F (xs (S j)) - F z) + norm2 (xs (S j) [-] z) <= norm2 (xs j [-] z)).
  { intros j z Hz. destruct (Hr j) as [A B]. apply (pg_ineq fv df g (ts j) e (xs j) (xs (S j))); auto. }
  assert (HFm : forall s j, is_min (eadd (etot fv) (escal e g)) s -> F s <= F (xs (S j))).
  { intros s j [_ Hsm]. apply (Hsm (xs (S j))). split; [exact I|apply Hdx]. }
  assert (Hfej : forall s k, is_min (eadd (etot fv) (escal e g)) s -> norm2 (xs (S k) [-] s) <= norm2 (xs k [-] s)).
  { intros s k Hsm. specialize (Hin k s (proj2 (proj1 Hsm))). specialize (HFm s k Hsm). specialize (Htp k).
    assert (0 <= 2 * ts k * (F (xs (S k)) - F s)) by (apply Rmult_le_pos; lra). lra. }
  assert (Ht0 : 0 < t0) by (specialize (Hts 0%nat); lra).
  assert (Hv : Un_cv (fun k => norm2 (xs (S k) [-] xs (S (S k)))) 0).
  { apply (drop_vanish (fun k => F (xs (S k)) - F m) _ (/ (2 * t0))); [apply Rinv_0_lt_compat; lra|intro k; specialize (HFm m k Hm); lra|intro; apply norm2_nonneg|].
    intro k. specialize (Hin (S k) (xs (S k)) (Hdx k)). replace (xs (S k) [-] xs (S k)) with (vzero : E) in Hin by vring. rewrite norm2_zero in Hin.
    rewrite norm2_sub_sym in Hin. pose proof (norm2_nonneg (xs (S k) [-] xs (S (S k)))) as Hn.
    assert (Hd : 0 <= F (xs (S k)) - F (xs (S (S k)))). { destruct (Rle_dec 0 (F (xs (S k)) - F (xs (S (S k))))) as [?|Hd]; auto. exfalso. apply Rnot_le_lt in Hd. specialize (Htp (S k)).
      assert (0 < 2 * ts (S k) * (F (xs (S (S k))) - F (xs (S k)))) by (apply Rmult_lt_0_compat; lra). lra. }
    apply (Rmult_le_reg_l (2 * t0)); [lra|]. replace (2 * t0 * (F (xs (S (S k))) - F m + / (2 * t0) * norm2 (xs (S k) [-] xs (S (S k))))) with (2 * t0 * (F (xs (S (S k))) - F m) + norm2 (xs (S k) [-] xs (S (S k)))) by (field; lra).
    assert (2 * ts (S k) * (F (xs (S k)) - F (xs (S (S k)))) <= 2 * t0 * (F (xs (S k)) - F (xs (S (S k))))) by (apply Rmult_le_compat_r; [exact Hd|specialize (Hts (S k)); lra]). lra. }
  assert (Hfix : forall x, is_prox g (e * 1) (x [-] 1 [*] df x) x <-> is_min (eadd (etot fv) (escal e g)) x) by (intro x; apply (pg_fix_min fv df L); auto; lra).
  destruct (fejer_cv (fun k => xs (S k)) (is_min (eadd (etot fv) (escal e g)))) as (l & Hl & Hcv); [exact HB|exists m; exact Hm|intros s k Hsm; apply Hfej; exact Hsm| |].
  2:{ exists l. split; [exact Hl|]. intros eps Heps. destruct (Hcv eps Heps) as [N HN]. exists (S N). intros [|k] Hk; [lia|]. apply HN. lia. }
  intros l phi Hp Hl. apply Hfix.
  assert (Hl' : vcv (fun k => xs (S (S (phi k)))) l).
  { apply (vcv_close (fun k => xs (S (phi k)))); [exact Hl|]. apply (Un_cv_ext (fun k => norm2 (xs (S (phi k)) [-] xs (S (S (phi k)))))); [intro k; apply norm2_sub_sym|].
    apply (Un_cv_sub (fun k => norm2 (xs (S k) [-] xs (S (S k)))) 0 phi Hp Hv). }
  assert (Hq : vcv (fun k => / ts (S (phi k)) [*] (xs (S (phi k)) [-] xs (S (S (phi k))))) vzero).
  { apply vcv_iff2. apply (Un_cv_squeeze _ (fun k => / m0 * / m0 * norm2 (xs (S (phi k)) [-] xs (S (S (phi k)))))).
    - intro k. split; [apply norm2_nonneg|]. replace (/ ts (S (phi k)) [*] (xs (S (phi k)) [-] xs (S (S (phi k)))) [-] vzero) with (/ ts (S (phi k)) [*] (xs (S (phi k)) [-] xs (S (S (phi k))))) by vring.
      rewrite norm2_scal. apply Rmult_le_compat_r; [apply norm2_nonneg|]. specialize (Hts (S (phi k))). specialize (Htp (S (phi k))).
      assert (0 < / ts (S (phi k))) by (apply Rinv_0_lt_compat; lra). assert (/ ts (S (phi k)) <= / m0) by (apply Rinv_le_contravar; lra). apply Rmult_le_compat; lra.
    - replace 0 with (/ m0 * / m0 * 0) by ring. apply (CV_mult (fun _ => / m0 * / m0)); [apply Un_cv_const|apply (Un_cv_sub (fun k => norm2 (xs (S k) [-] xs (S (S k)))) 0 phi Hp Hv)]. }
  assert (P1 : is_prox g (e * 1) (l [+] (vzero [-] df l)) l).
  { apply (prox_limit g (e * 1) (fun k => xs (S (S (phi k))) [+] (/ ts (S (phi k)) [*] (xs (S (phi k)) [-] xs (S (S (phi k)))) [-] df (xs (S (phi k))))) (fun k => xs (S (S (phi k))))); auto; [lra| |].
    - intro k. destruct (Hr (S (phi k))) as [R1 _]. specialize (Htp (S (phi k))). apply prox_subgrad in R1; [|auto|apply Rmult_lt_0_compat; lra]. apply subgrad_prox; [lra|].
      match goal with |- is_subgrad _ _ ?v => match type of R1 with is_subgrad _ _ ?u => replace v with u; [exact R1|] end end. vfield. split; lra.
    - apply vcv_add; [exact Hl'|]. apply vcv_minus; [exact Hq|]. apply (vcv_map df L (fun k => xs (S (phi k)))); [exact HL|apply Hs|exact Hl]. }
  replace (l [-] 1 [*] df l) with (l [+] (vzero [-] df l)) by vring. exact P1.
Qed.

(** a bounded sequence along which a closed function tends to its minimum approaches the set of minimisers *)
Lemma approach_min (F : efun E) (xs : nat -> E) m M : closed F -> is_min F m -> (forall k, edom F (xs k) /\ norm (xs k) <= M) -> Un_cv (fun k => eval F (xs k)) (eval F m) ->
  forall eps, 0 < eps -> exists N, forall n, (N <= n)%nat -> exists z, is_min F z /\ norm (xs n [-] z) < eps.
Proof.
  intros Hcl Hm Hb Hv eps He.
  set (S := fun n r => exists z, is_min F z /\ r = norm (xs n [-] z)).
  assert (Sne : forall n, exists r, S n r) by (intro n; exists (norm (xs n [-] m)), m; auto).
  assert (Sb : forall n, exists b, forall r, S n r -> b <= r) by (intro n; exists 0; intros r (z & _ & ->); apply norm_nonneg).
  set (d := fun n => proj1_sig (ginf (S n) (Sne n) (Sb n))).
  assert (Dl : forall n z, is_min F z -> d n <= norm (xs n [-] z)). { intros n z Hz. unfold d. destruct (ginf _ _ _) as [b [A B]]; simpl. apply A. exists z. auto. }
  assert (Dg : forall n b, (forall z, is_min F z -> b <= norm (xs n [-] z)) -> b <= d n). { intros n b H. unfold d. destruct (ginf _ _ _) as [b' [A B]]; simpl. apply B. intros r (z & Hz & ->). auto. }
  destruct (classic (exists N, forall n, (N <= n)%nat -> d n < eps)) as [[N HN]|Hno].
  { exists N. intros n Hn. specialize (HN n Hn). apply NNPP. intro Hz. apply (Rlt_irrefl eps). eapply Rle_lt_trans; [|exact HN]. apply Dg. intros z Hzm.
    destruct (Rle_dec eps (norm (xs n [-] z))) as [?|H]; auto. exfalso. apply Hz. exists z. split; [exact Hzm|]. apply Rnot_le_lt; exact H. }
  exfalso. assert (Hs : forall N, { n | (N <= n)%nat /\ eps <= d n }).
  { intro N. apply constructive_indefinite_ground_description_nat.
    - intro n. destruct (le_dec N n); [|right; tauto]. destruct (Rle_dec eps (d n)); [left; tauto|right; tauto].
    - apply NNPP. intro H. apply Hno. exists N. intros n Hn. destruct (Rlt_dec (d n) eps) as [?|Hd]; auto. exfalso. apply H. exists n. split; [exact Hn|]. apply Rnot_lt_le; exact Hd. }
  set (phi := fun k => proj1_sig (Hs k)). assert (Hphi : forall k, (k <= phi k)%nat /\ eps <= d (phi k)) by (intro k; unfold phi; destruct (Hs k); auto).
  destruct (HB (fun k => xs (phi k)) M) as (l & psi & Hi & Hl); [intro k; apply Hb|].
  assert (Hbig : forall k, (k <= phi (psi k))%nat) by (intro k; destruct (Hphi (psi k)); pose proof (strict_inc_ge psi Hi k); lia).
  assert (Hlm : is_min F l).
  { assert (Hval : forall dl, 0 < dl -> edom F l /\ eval F l <= eval F m + dl).
    { intros dl Hdl. apply Hcl. intros ep Hep. destruct (Hl ep Hep) as [N1 H1]. destruct (Hv dl Hdl) as [N2 H2]. exists (xs (phi (psi (N1 + N2)%nat))). split; [apply H1; lia|]. split; [apply Hb|].
      specialize (H2 (phi (psi (N1 + N2)%nat)) ltac:(pose proof (Hbig (N1 + N2)%nat); lia)). unfold R_dist in H2. apply Rabs_def2 in H2. lra. }
    split; [apply (Hval 1); lra|]. intros y Hy. apply (Rle_trans _ (eval F m)); [|apply Hm; exact Hy].
    apply Rnot_lt_le. intro Hlt. destruct (Hval ((eval F l - eval F m) / 2)) as [_ H]; lra. }
  destruct (Hl eps He) as [N HN]. specialize (HN N (Nat.le_refl _)). destruct (Hphi (psi N)) as [_ H]. specialize (Dl (phi (psi N)) l Hlm). lra.
Qed.
End V.

(*! C75_backtracking : f convex with L-Lipschitz gradient, g convex, eps > 0, backtracking (backtracking=True or no tau given) with enough trials to get below
   1/L, no acceleration, eta = 1, f + eps g has a minimiser, finite dimension: the vectors returned by ProximalGradient with
   niter = 1, 2, ... converge to a minimiser of f + eps g *)
Lemma C75_backtracking_l : forall (E : IPS) (proxf proxg : Op E) f df L g eps x0 tau beta niterback accel, bw E ->
  smooth_op proxf f df L -> impl_prox proxg g -> convex g -> 0 < eps -> accel = None \/ accel = Some "None"%string ->
  let tau0 := match tau with Some t => t | None => 1 end in
  0 < tau0 -> 0 < beta <= 1 -> (exists i, (i < niterback)%nat /\ tau0 * beta ^ i <= / L) -> (exists m, is_min (eadd (etot f) (escal eps g)) m) ->
  exists xs l, xs 0%nat = x0 /\ (forall n bt, bt = true \/ tau = None -> ProximalGradient proxf proxg x0 [eps] tau bt beta 1 (S n) niterback accel None = Ok (xs (S n), map xs (seq 1 (S n)))) /\
    is_min (eadd (etot f) (escal eps g)) l /\ vcv xs l.
Proof.
  intros E proxf proxg f df L g eps x0 tau beta niterback accel HB Hop Hp Hg He Ha tau0 Ht Hb Hi Hm.
  pose proof Hop as [_ [Hgr [Hcv [HL Hsm]]]].
  set (m0 := Rmin tau0 (beta / L)). assert (Hm0 : 0 < m0) by (apply Rmin_glb_lt; [exact Ht|apply Rdiv_lt_0_compat; lra]).
  set (body := fun (j : nat) (s : pg_state E) =>
     xt <- pg_prox_step proxf proxg true beta 1 niterback eps (pg_x s) (pg_y s) (pg_tau s) ;;
     let x := fst xt in
     let t' := if accel_is accel "fista" then (1 + sqrt (1 + 4 * (pg_t s * pg_t s))) / 2 else pg_t s in
     let omega := if accel_is accel "vandenberghe" then INR j / (INR j + 3) else if accel_is accel "fista" then (pg_t s - 1) / t' else 0 in
     let y := x [+] omega [*] (x [-] pg_x s) in
     Ok (PG x y t' (snd xt) (pg_pfg s) (pg_tr s ++ [x]), false)).
  destruct (loop_seq body (fun _ s => m0 <= pg_tau s <= tau0 /\ pg_y s = pg_x s)
     (fun _ s s' => trial df g eps (pg_tau s') (pg_x s) (pg_x s') /\ test_ok f df (pg_tau s') (pg_x s) (pg_x s') /\ pg_tr s' = pg_tr s ++ [pg_x s'])
     (PG x0 x0 1 tau0 None [])) as (st & S0 & Hrun & HI & HR); [cbn [pg_tau pg_y pg_x]; split; [split; [apply Rmin_l|lra]|reflexivity]| |].
  { intros j s [[Hlo Hhi] Hy].
    destruct (C44_terminates_early_l E proxf proxg f df L g eps beta niterback (pg_x s) (pg_tau s)) as (z & t & Eb & H1 & H2 & H3 & H4); auto; [lra| |].
    { destruct Hi as (i & Hi1 & Hi2). exists i. split; [exact Hi1|]. eapply Rle_trans; [|exact Hi2]. apply Rmult_le_compat_r; [left; apply pow_lt; lra|exact Hhi]. }
    unfold body, pg_prox_step. rewrite Hy, Eb. cbn [bind]. destruct (Reqb_spec 1 1) as [[_ ->]|[H _]]; [|lra]. cbn [bind fst snd].
    eexists. split; [reflexivity|]. cbn [pg_x pg_tr pg_tau pg_y]. split; [auto|]. split.
    - split; [|lra]. destruct H4 as [->|H4]; [exact Hlo|]. eapply Rle_trans; [apply Rmin_r|]. lra.
    - destruct Ha as [->| ->]; cbn; vring. }
  destruct (pg_cv_bt HB f df L g eps (fun k => pg_tau (st (S k))) m0 tau0 (fun k => pg_x (st k))) as (l & Hl & Hc); auto.
  { intro j. apply (HI (S j)). }
  { intro x. destruct (Hp x (eps * 1) ltac:(lra)) as (p & _ & Hq). eauto. }
  { intro j. destruct (HR j) as (A & B & _). split; [exact A|exact B]. }
  exists (fun k => pg_x (st k)), l. split; [rewrite S0; reflexivity|]. split; [|auto]. intros n bt Hbt. unfold ProximalGradient. cbn [pg_epsg bind].
  assert (Hk : accel_known accel = true) by (destruct Ha as [->| ->]; reflexivity). rewrite Hk.
  replace (match tau with None => true | Some _ => bt end) with true by (destruct Hbt as [->| ->]; [destruct tau|]; reflexivity).
  replace (match tau with None => 1 | Some t => t end) with tau0 by (destruct tau; reflexivity).
  rewrite (for_loop_ext _ body); [|intros j s Hj; unfold pg_body, getitem; rewrite nth_error_repeat by lia; reflexivity].
  rewrite Hrun. cbn [bind fst snd]. do 2 f_equal.
  rewrite (trace_seq st pg_tr (fun k => pg_x (st (S k)))); [|rewrite S0; reflexivity|intro j; apply HR]. rewrite <- seq_shift, map_map. reflexivity.
Qed.

Lemma pg_min_exists {E : IPS} (proxf proxg : Op E) f df L g eps : bw E -> complete E -> described E -> smooth_op proxf f df L -> impl_prox proxg g -> convex g -> closed g -> 0 < eps ->
  level_bounded (eadd (etot f) (escal eps g)) -> closed (eadd (etot f) (escal eps g)) /\ exists m, is_min (eadd (etot f) (escal eps g)) m.
Proof.
  intros HB HE HU (_ & _ & Cf & HL & Hsm) Ig Cg Lg He Hl.
  assert (S : forall x, is_subgrad (etot f) x (df x)). { intro x. split; [exact I|]. intros y _. exact (proj1 (L_smooth_convex f df L Cf Hsm) x y). }
  assert (Hcl : closed (eadd (etot f) (escal eps g))) by (apply closed_add; [exact (closed_sub f df S)|apply closed_scal; assumption|exact (minor_sub _ vzero _ (S vzero))|apply minor_scal; [lra|eapply minor_impl; eassumption]]).
  split; [exact Hcl|]. apply convex_min; auto.
  + apply convex_add; [exact Cf|apply convex_scal; [lra|exact Cg]].
  + apply minor_add; [exact (minor_sub _ vzero _ (S vzero))|apply minor_scal; [lra|eapply minor_impl; eassumption]].
  + destruct (Ig vzero 1 Rlt_0_1) as (p & _ & Hp & _). exists p. split; [exact I|exact Hp].
Qed.

(*! C85_backtracking : the same without assuming a minimiser: g closed and the sets {f + eps g <= c} bounded *)
Lemma C85_backtracking_l : forall (E : IPS) (proxf proxg : Op E) f df L g eps x0 tau beta niterback accel, bw E -> complete E -> described E ->
  smooth_op proxf f df L -> impl_prox proxg g -> convex g -> closed g -> 0 < eps -> accel = None \/ accel = Some "None"%string ->
  let tau0 := match tau with Some t => t | None => 1 end in
  0 < tau0 -> 0 < beta <= 1 -> (exists i, (i < niterback)%nat /\ tau0 * beta ^ i <= / L) -> level_bounded (eadd (etot f) (escal eps g)) ->
  exists xs l, xs 0%nat = x0 /\ (forall n bt, bt = true \/ tau = None -> ProximalGradient proxf proxg x0 [eps] tau bt beta 1 (S n) niterback accel None = Ok (xs (S n), map xs (seq 1 (S n)))) /\
    is_min (eadd (etot f) (escal eps g)) l /\ vcv xs l.
Proof.
  intros E proxf proxg f df L g eps x0 tau beta niterback accel HB HE HU Hop Ig Cg Lg He Ha tau0 Ht Hb Hi Hl.
  eapply C75_backtracking_l; eauto. eapply pg_min_exists; eassumption.
Qed.

Lemma rate_cv (a : nat -> R) c v : 0 <= c -> (forall n, 0 <= a n - v <= c / (INR (S n) + 1) ^ 2) -> Un_cv a v.
Proof.
  intros Hc H eps He. destruct (archimed (c / eps)) as [Ha _].
  exists (Z.to_nat (up (c / eps))). intros n Hn. unfold R_dist. specialize (H n). rewrite Rabs_pos_eq by lra. eapply Rle_lt_trans; [apply H|].
  assert (Hn' : c / eps < INR (S n)).
  { eapply Rlt_le_trans; [apply Rgt_lt; exact Ha|]. rewrite INR_IZR_INZ. apply IZR_le. lia. }
  set (q := INR (S n) + 1). assert (Hq1 : 1 <= q) by (unfold q; pose proof (pos_INR (S n)); lra).
  assert (Hcq : c < eps * q). { apply (Rmult_lt_compat_l eps) in Hn'; [|lra]. replace (eps * (c / eps)) with c in Hn' by (field; lra). unfold q. lra. }
  apply (Rmult_lt_reg_r (q ^ 2)); [apply pow_lt; lra|]. replace (c / q ^ 2 * q ^ 2) with c by (field; lra). eapply Rlt_le_trans; [exact Hcq|]. simpl. rewrite Rmult_1_r.
  apply Rmult_le_compat_l; [lra|]. rewrite <- (Rmult_1_l q) at 1. apply Rmult_le_compat_r; lra.
Qed.

(*! C75_accelerated : f convex with L-Lipschitz gradient, g convex and closed, eps > 0, the sets {f + eps g <= c} bounded, eta = 1, acceleration 'fista' or
   'vandenberghe', a fixed step 0 < tau <= 1/L or backtracking with enough trials, finite dimension: the vectors returned by ProximalGradient with
   niter = 1, 2, ... approach the set of minimisers of f + eps g (which is not empty), and converge to the minimiser when there is
   only one *)
Lemma C75_accelerated_l : forall (E : IPS) (proxf proxg : Op E) f df L g eps x0 tau bt beta niterback accel, bw E -> complete E -> described E ->
  smooth_op proxf f df L -> impl_prox proxg g -> convex g -> closed g -> 0 < eps -> accel = Some "vandenberghe"%string \/ accel = Some "fista"%string ->
  let F := eadd (etot f) (escal eps g) in
  level_bounded F ->
  (exists t, tau = Some t /\ bt = false /\ 0 < t <= / L) \/
  (let tau0 := match tau with Some t => t | None => 1 end in bt = true /\ 0 < tau0 /\ 0 < beta <= 1 /\ (exists i, (i < niterback)%nat /\ tau0 * beta ^ i <= / L)) ->
  exists xs, (forall n, exists tr, ProximalGradient proxf proxg x0 [eps] tau bt beta 1 (S n) niterback accel None = Ok (xs n, tr)) /\
    (exists m, is_min F m) /\
    (forall d, 0 < d -> exists N, forall n, (N <= n)%nat -> exists z, is_min F z /\ norm (xs n [-] z) < d) /\
    (forall z, is_min F z -> (forall z', is_min F z' -> z' = z) -> vcv xs z).
Proof.
  intros E proxf proxg f df L g eps x0 tau bt beta niterback accel HB HE HU Hop Ig Cg Lg He Ha F Hl Hst.
  destruct (pg_min_exists proxf proxg f df L g eps HB HE HU Hop Ig Cg Lg He Hl) as [Hcl [m Hm]]. fold F in Hcl, Hm.
  pose proof Hop as (_ & _ & _ & HL & _).
  assert (Hrate : exists c, 0 < c /\ forall n, exists x tr, ProximalGradient proxf proxg x0 [eps] tau bt beta 1 (S n) niterback accel None = Ok (x, tr) /\ edom F x /\
    forall z, is_min F z -> eval F x - eval F z <= 2 * norm2 (x0 [-] z) / (c * (INR (S n) + 1) ^ 2)).
  { destruct Hst as [(t & -> & -> & Ht)|(-> & Ht & Hb & Hi)].
    - exists t. split; [lra|]. intro n.
      destruct (C42_accelerated_rate_l E proxf proxg f df L g (fun _ => 0) eps x0 t beta (S n) niterback accel None) as (x & tr & k & Er & _ & _ & Hk & Hd & Hr); auto; [lia|tauto|].
      rewrite (Hk eq_refl) in Hr. exists x, tr. auto.
    - exists (Rmin (match tau with Some t => t | None => 1 end) (beta / L)). split; [apply Rmin_glb_lt; [exact Ht|apply Rdiv_lt_0_compat; lra]|]. intro n.
      destruct (C42_accelerated_backtracking_l E proxf proxg f df L g (fun _ => 0) eps x0 tau beta (S n) niterback accel None) as (x & tr & k & Er & _ & _ & Hk & Hd & Hr); auto; [lia|tauto|].
      rewrite (Hk eq_refl) in Hr. exists x, tr. auto. }
  destruct Hrate as (c & Hc & Hrun).
  set (xs := fun n => match ProximalGradient proxf proxg x0 [eps] tau bt beta 1 (S n) niterback accel None with Ok (x, _) => x | Err _ => vzero end).
  assert (Hxs : forall n, edom F (xs n) /\ forall z, is_min F z -> eval F (xs n) - eval F z <= 2 * norm2 (x0 [-] z) / (c * (INR (S n) + 1) ^ 2)).
  { intro n. unfold xs. destruct (Hrun n) as (x & tr & -> & Hx). exact Hx. }
  assert (Hq : forall n, 1 <= (INR (S n) + 1) ^ 2). { intro n. rewrite <- (pow1 2). apply pow_incr. pose proof (pos_INR (S n)). lra. }
  assert (Hcv : Un_cv (fun k => eval F (xs k)) (eval F m)).
  { apply (rate_cv _ (2 * norm2 (x0 [-] m) / c)).
    - apply Rmult_le_pos; [pose proof (norm2_nonneg (x0 [-] m)); lra|left; apply Rinv_0_lt_compat; lra].
    - intro n. destruct (Hxs n) as [Hd Hr]. split; [destruct Hm as [_ Hm]; specialize (Hm _ Hd); lra|].
      specialize (Hr m Hm). replace (2 * norm2 (x0 [-] m) / c / (INR (S n) + 1) ^ 2) with (2 * norm2 (x0 [-] m) / (c * (INR (S n) + 1) ^ 2)); [exact Hr|].
      pose proof (pos_INR (S n)). field. split; lra. }
  destruct (Hl (eval F m + 2 * norm2 (x0 [-] m) / c)) as [M HM].
  assert (Hb : forall k, edom F (xs k) /\ norm (xs k) <= M).
  { intro k. destruct (Hxs k) as [Hd Hr]. split; [exact Hd|]. apply HM; [exact Hd|]. specialize (Hr m Hm). specialize (Hq k).
    assert (2 * norm2 (x0 [-] m) / (c * (INR (S k) + 1) ^ 2) <= 2 * norm2 (x0 [-] m) / c); [|lra].
    apply Rmult_le_compat_l; [pose proof (norm2_nonneg (x0 [-] m)); lra|]. apply Rinv_le_contravar; [exact Hc|]. rewrite <- (Rmult_1_r c) at 1. apply Rmult_le_compat_l; lra. }
  assert (Happ := approach_min HB F xs m M Hcl Hm Hb Hcv).
  exists xs. split; [|split; [exists m; exact Hm|split; [exact Happ|]]].
  - intro n. unfold xs. destruct (Hrun n) as (x & tr & -> & _). exists tr. reflexivity.
  - intros z Hz Hu d Hd. destruct (Happ d Hd) as [N HN]. exists N. intros k Hk. destruct (HN k Hk) as (z' & Hz' & Hn). rewrite (Hu z' Hz') in Hn. exact Hn.
Qed.

Lemma quad_zero_min c : 0 < c -> is_min (eadd (etot (E:=R_IPS) (fun x : R => c / 2 * (x * x))) (escal 1 (etot (E:=R_IPS) (fun _ => 0)))) (0 : R) /\
  forall z, is_min (eadd (etot (E:=R_IPS) (fun x : R => c / 2 * (x * x))) (escal 1 (etot (E:=R_IPS) (fun _ => 0)))) z -> z = (0 : R).
Proof.
  intro Hc. split.
  - split; [exact (Logic.conj I I)|]. intros y _. cbn [eval eadd etot escal]. pose proof (Rle_0_sqr y) as H. unfold Rsqr in H. assert (0 <= c / 2 * (y * y)) by (apply Rmult_le_pos; lra). lra.
  - intros z [_ Hz]. specialize (Hz (0 : R) (Logic.conj I I)). cbn [eval eadd etot escal] in Hz. destruct (Req_dec z 0) as [?|Hn]; auto. exfalso.
    assert (0 < z * z) by (apply Rsqr_pos_lt; exact Hn). assert (0 < c / 2 * (z * z)) by (apply Rmult_lt_0_compat; lra). lra.
Qed.
(*!ex C75_backtracking_example : f = 2 x^2 (L = 4), g = 0, started at 1 without a step (backtracking from 1 with factor 1/2, 10 trials): the vectors returned for
   niter = 1, 2, ... converge to 0; the same with acceleration 'fista' and 'vandenberghe' and backtracking *)
Lemma C75_backtracking_example_l :
  (exists xs, (forall n, exists tr, ProximalGradient (quad1 4) zero1 (1 : R_IPS) [1] None false (1/2) 1 (S n) 10 None None = Ok (xs n, tr)) /\ vcv xs (0 : R_IPS)) /\
  (forall a, a = "fista"%string \/ a = "vandenberghe"%string -> exists xs, (forall n, exists tr, ProximalGradient (quad1 4) zero1 (1 : R_IPS) [1] None true (1/2) 1 (S n) 10 (Some a) None = Ok (xs n, tr)) /\ vcv xs (0 : R_IPS)).
Proof.
  destruct (quad_zero_min 4 ltac:(lra)) as [Hm Hu].
  assert (Cz : convex (etot (E:=R_IPS) (fun _ => 0))) by (intros x y t _ _ _; split; [exact I|cbn; lra]).
  assert (Hi : exists i, (i < 10)%nat /\ 1 * (1/2) ^ i <= / 4) by (exists 2%nat; split; [lia|simpl; lra]). split.
  - destruct (C75_backtracking_l R_IPS (quad1 4) zero1 _ _ 4 _ 1 (1:R) None (1/2) 10 None bw_R (quad1_smooth 4 ltac:(lra)) zero1_prox) as (xs & l & _ & Hr & Hl & Hc); auto; try lra; [eauto|].
    apply Hu in Hl. subst l. exists (fun n => xs (S n)). split; [intro n; eexists; apply Hr; auto|]. intros d Hd. destruct (Hc d Hd) as [N HN]. exists N. intros k Hk. apply HN. lia.
  - intros a Ha. destruct C85_arrays_l as ((CR & DR) & _).
    destruct (C75_accelerated_l R_IPS (quad1 4) zero1 _ _ 4 _ 1 (1:R) None true (1/2) 10 (Some a) bw_R CR DR (quad1_smooth 4 ltac:(lra)) zero1_prox) as (xs & Hr & _ & _ & Hc); auto; try lra.
    + intros l c H. destruct (H 1 Rlt_0_1) as (x & _ & _ & Hx). split; [exact I|exact Hx].
    + destruct Ha as [->| ->]; auto.
    + intro c. exists (Rabs c + 1). intros x _ Hx. cbn [eval eadd etot escal] in Hx.
      assert (Hn : norm (E:=R_IPS) x = Rabs x) by (unfold norm, norm2; cbn; apply sqrt_Rsqr_abs). rewrite Hn.
      destruct (Rle_dec (Rabs x) (Rabs c + 1)) as [?|Hx2]; auto. exfalso. apply Rnot_le_lt in Hx2. pose proof (Rabs_pos c). pose proof (Rle_abs c).
      assert (Hs : Rabs x * Rabs x = x * x) by (rewrite <- Rabs_mult; apply Rabs_pos_eq, Rle_0_sqr).
      assert (Rabs x * 1 <= Rabs x * Rabs x) by (apply Rmult_le_compat_l; lra). lra.
    + right. repeat split; auto; lra.
    + exists xs. split; [exact Hr|]. apply Hc; [exact Hm|exact Hu].
Qed.
