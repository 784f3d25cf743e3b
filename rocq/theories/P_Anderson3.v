(** * Anderson acceleration: theorems *)
From Coq Require Import Psatz String.
From Verif Require Import Base Space Spec ConvexFacts Smooth VSum MatFacts M_ProxOp SpecOps M_Loop LoopFacts LoopFacts2 Trace M_PG P_PG P_PG2 P_PG3 M_Anderson P_Anderson P_Anderson2.
From Verif Require Export S_Anderson3.
Open Scope result_scope.
Open Scope R_scope.

(*! C56_weights : for any non-empty list of residuals that are not all zero and epsr > 0, the coefficients exist (no shape error, no division by zero), sum to one and make the
   combined residual as short as possible among all coefficients summing to one; the size of epsr is irrelevant *)
Lemma C56_weights_l : forall (E : IPS) pinv (Rs : list E) epsr, pinv_ok (length Rs) pinv -> 0 < epsr -> (exists r, In r Rs /\ r <> vzero) ->
  exists alpha, an_alpha pinv epsr (length Rs) Rs = Ok alpha /\ best_weights Rs alpha /\
    forall epsr' alpha', 0 < epsr' -> an_alpha pinv epsr' (length Rs) Rs = Ok alpha' -> norm (wsum alpha' Rs) = norm (wsum alpha Rs).
Proof.
  intros E pinv Rs epsr HP He Hne. assert (Hl : (1 <= length Rs)%nat) by (destruct Hne as [r [Hr _]]; destruct Rs; [contradiction|cbn; lia]).
  destruct (alpha_best pinv (length Rs) epsr Rs HP ltac:(lia) He Hne) as [alpha [E1 B1]]. exists alpha. split; auto. split; auto.
  intros epsr' alpha' He' E2. destruct (alpha_best pinv (length Rs) epsr' Rs HP ltac:(lia) He' Hne) as [alpha2 [E3 B2]]. rewrite E2 in E3. injection E3 as <-.
  unfold wsum. destruct B1 as (L1 & S1 & M1), B2 as (L2 & S2 & M2). apply Rle_antisym; auto.
Qed.

(*! C56_recursion : every run follows the recursion below for some number k of iterations: window of the nhistory most recent residuals, coefficients summing to one that minimise the combined
   residual, candidate and safeguard as documented; either all niter iterations are completed and the callbacks received x_1 .. x_niter, or iteration k divides zero by zero (nan) because all residuals in its window are zero *)
Lemma C56_recursion_l : forall (E : IPS) pinv (proxf proxg : Op E) f df g x0 epsg eps tau niter nhistory epsr safeguard,
  impl_call proxf (etot f) -> (forall x, o_grad proxf x = Ok (Some (df x))) -> impl_prox proxg g -> pinv_ok nhistory pinv ->
  eps_arg epsg niter eps -> (forall j, (j < niter)%nat -> 0 < eps j) -> 0 < tau -> 0 < epsr -> (1 <= nhistory)%nat -> (1 <= niter)%nat ->
  exists xs ys Rh Gh vs k, (k <= niter)%nat /\ anderson f df g eps tau nhistory safeguard x0 xs ys Rh Gh vs k /\
    ((k = niter /\ AndersonProximalGradient pinv proxf proxg x0 epsg tau niter nhistory epsr safeguard None = Ok (xs niter, map xs (seq 1 niter))) \/
     ((k < niter)%nat /\ AndersonProximalGradient pinv proxf proxg x0 epsg tau niter nhistory epsr safeguard None = Err ZeroDivisionError /\
      forall r, In r (firstn nhistory ((xs k [-] tau [*] df (xs k) [-] ys k) :: Rh k)) -> r = vzero)).
Proof.
  intros E pinv proxf proxg f df g x0 epsg eps tau niter nh epsr sg Hc Hg Hp HP He Hep Ht Hr Hh Hn.
  destruct (eps_arg_ok _ _ _ He) as [l [El Hl]].
  destruct (an_core pinv proxf proxg f df g l eps tau epsr nh sg Hc Hg Hp HP Ht Hr Hh niter x0 Hn ltac:(intros; split; auto)) as (s0 & xs & ys & Rh & Gh & vs & k & E0 & Hk & HA & (s & E1 & E2 & E3) & HB).
  exists xs, ys, Rh, Gh, vs, k. split; auto. split; auto. unfold AndersonProximalGradient. rewrite El. cbn [bind]. rewrite E0. cbn [bind]. destruct HB as [->|(H1 & H2 & H3)].
  - left. split; auto. rewrite E1. cbn [bind fst]. rewrite E2, E3. reflexivity.
  - right. split; auto. rewrite H2. split; auto.
Qed.

Section Facts.
Context {E : IPS}.
Variables (f : E -> R) (df : E -> E) (g : efun E) (eps : nat -> R) (tau : R) (nh : nat) (sg : bool) (x0 : E) (xs ys : nat -> E) (Rh Gh : nat -> list E) (vs : nat -> R) (n : nat).
Hypothesis HA : anderson f df g eps tau nh sg x0 xs ys Rh Gh vs n.
Lemma an_xy j : (j <= n)%nat -> is_prox g (eps (j - 1)%nat * tau) (ys j) (xs j).
Proof.
  destruct HA as (_ & H0 & _ & _ & _ & HS). destruct j as [|j]; intro Hj; [exact H0|]. destruct (HS j Hj) as (_ & _ & _ & alpha & cx & _ & Hp & Ha & Hb & _). replace (S j - 1)%nat with j by lia.
  destruct sg.
  - destruct (Rle_lt_dec (f cx) (vs j - tau * norm2 (df (xs j)) / 2)) as [Hc|Hc].
    + destruct (Ha ltac:(auto)) as [-> ->]. exact Hp.
    + destruct (Hb eq_refl Hc) as [H ->]. exact H.
  - destruct (Ha ltac:(discriminate)) as [-> ->]. exact Hp.
Qed.
End Facts.

(*! C56_breakdown : for convex f and g the division of zero by zero happens only after a minimiser of f + eps g has been reached: if the call breaks down then some completed iteration (or the
   initial proximal step) produced a minimiser; so a run none of whose iterates is a minimiser always completes *)
Lemma C56_breakdown_l : forall (E : IPS) pinv (proxf proxg : Op E) f df L g x0 e tau niter nhistory epsr safeguard err,
  smooth_op proxf f df L -> impl_prox proxg g -> convex g -> pinv_ok nhistory pinv -> 0 < e -> 0 < tau -> 0 < epsr -> (1 <= nhistory)%nat -> (1 <= niter)%nat ->
  AndersonProximalGradient pinv proxf proxg x0 [e] tau niter nhistory epsr safeguard None = Err err ->
  err = ZeroDivisionError /\ exists x, is_min (eadd (etot f) (escal e g)) x /\
    (is_prox g (e * tau) (x0 [-] tau [*] df x0) x \/ exists k tr, (1 <= k < niter)%nat /\ AndersonProximalGradient pinv proxf proxg x0 [e] tau k nhistory epsr safeguard None = Ok (x, tr)).
Proof.
  intros E pinv proxf proxg f df L g x0 e tau niter nh epsr sg err [Hc [Hg [Hcv [HL Hsm]]]] Hp Hgc HP He Ht Hr Hh Hn Herr.
  assert (Hea : forall n, (1 <= n)%nat -> eps_arg [e] n (fun _ => e)) by (intros n Hn'; left; exists e; repeat split; auto; lia).
  destruct (eps_arg_ok _ _ _ (Hea niter Hn)) as [l [El Hl]].
  destruct (an_core pinv proxf proxg f df g l (fun _ => e) tau epsr nh sg Hc Hg Hp HP Ht Hr Hh niter x0 Hn ltac:(intros; split; auto)) as (s0 & xs & ys & Rh & Gh & vs & k & E0 & Hk & HA & (s & E1 & E2 & E3) & HB).
  unfold AndersonProximalGradient in Herr. rewrite El in Herr. cbn [bind] in Herr. rewrite E0 in Herr. cbn [bind] in Herr. destruct HB as [->|(H1 & H2 & H3)]; [rewrite E1 in Herr; discriminate|].
  rewrite H2 in Herr. injection Herr as <-. split; auto. exists (xs k).
  assert (Hmin : is_min (eadd (etot f) (escal e g)) (xs k)).
  { apply (pg_fix_min f df L g (xs k) e tau Hcv HL Hsm Hgc He Ht). pose proof (an_xy f df g (fun _ => e) tau nh sg x0 xs ys Rh Gh vs k HA k ltac:(lia)) as Hx.
    assert (Hz : xs k [-] tau [*] df (xs k) [-] ys k = vzero) by (apply H3; destruct nh; [lia|left; reflexivity]).
    replace (xs k [-] tau [*] df (xs k)) with (ys k); auto. transitivity (ys k [+] (xs k [-] tau [*] df (xs k) [-] ys k)); [rewrite Hz; vring|vring]. }
  split; [exact Hmin|]. destruct (Nat.eq_dec k 0) as [->|Hk0].
  - left. destruct HA as (Hy & Hx & _). rewrite <- Hy. exact Hx.
  - right. exists k, (map xs (seq 1 k)). split; [lia|]. unfold AndersonProximalGradient.
    assert (Hlk : pg_epsg [e] k = Ok (repeat e k)) by (destruct k; [lia|reflexivity]). rewrite Hlk. cbn [bind].
    assert (Hll : l = repeat e niter) by (simpl in El; destruct niter; [lia|injection El as <-; reflexivity]).
    assert (Ei : an_init proxf proxg (repeat e k) tau x0 = Ok s0) by (rewrite <- E0, Hll; unfold an_init; destruct k, niter; try lia; reflexivity).
    rewrite Ei. cbn [bind].
    assert (Hext : forall b1 b2 m i s, (forall j, (i <= j < i + m)%nat -> forall s, b1 j s = b2 j s) -> for_loop (S:=an_state E) b1 m i s = for_loop b2 m i s).
    { clear. intros b1 b2 m. induction m as [|m IH]; intros i s H; [reflexivity|]. cbn [for_loop]. rewrite (H i ltac:(lia)). destruct (b2 i s) as [p|]; auto. cbn [bind]. destruct (snd p); auto. apply IH. intros; apply H; lia. }
    rewrite (Hext _ (an_body pinv proxf proxg l tau epsr nh sg None)); [rewrite E1; cbn [bind fst]; rewrite E2, E3; reflexivity|].
    intros j Hj t. unfold an_body. assert (Hgi : getitem (repeat e k) j = getitem l j).
    { unfold getitem. rewrite (Hl j ltac:(lia)). rewrite (nth_error_nth' _ e) by (rewrite repeat_length; lia). rewrite nth_repeat. reflexivity. }
    rewrite Hgi. reflexivity.
Qed.

(** windows of the form [a; ...; a; b] *)
Lemma nthv_rep {E : IPS} (a b : E) m i : nthv (repeat a m ++ [b]) i = if Nat.ltb i m then a else if Nat.eqb i m then b else vzero.
Proof.
  unfold nthv. destruct (Nat.ltb_spec i m) as [H|H].
  - rewrite app_nth1 by (rewrite repeat_length; auto). rewrite (nth_indep _ vzero a) by (rewrite repeat_length; auto). apply nth_repeat.
  - rewrite app_nth2 by (rewrite repeat_length; auto). rewrite repeat_length. destruct (Nat.eqb_spec i m) as [->|Hn]; [rewrite Nat.sub_diag; reflexivity|]. destruct (i - m)%nat eqn:Ei; [lia|]. simpl. destruct n; reflexivity.
Qed.
Lemma wsum_rep {E : IPS} (a b : E) m alpha : wsum alpha (repeat a m ++ [b]) = RS m (nthr alpha) [*] a [+] nthr alpha m [*] b.
Proof.
  unfold wsum. rewrite app_length, repeat_length. simpl (length [b]). replace (m + 1)%nat with (S m) by lia. cbn [VS]. rewrite nthv_rep, Nat.ltb_irrefl, Nat.eqb_refl. f_equal. rewrite <- VS_wconst. apply VS_ext. intros i Hi. rewrite nthv_rep.
  rewrite (proj2 (Nat.ltb_lt i m) Hi). reflexivity.
Qed.
Lemma best_rep {E : IPS} (b : E) m alpha : (1 <= m)%nat -> b <> vzero -> best_weights (repeat vzero m ++ [b]) alpha -> RS m (nthr alpha) = 1 /\ nthr alpha m = 0.
Proof.
  intros Hm Hb (HL & HS & HM). assert (Hlen : length (repeat (vzero : E) m ++ [b]) = S m) by (rewrite app_length, repeat_length; simpl; lia). rewrite Hlen in *.
  rewrite Rsum_RS, HL in HS. cbn [RS] in HS.
  set (beta := 1 :: repeat 0 m). assert (Hbl : length beta = S m) by (unfold beta; cbn [length]; rewrite repeat_length; auto).
  assert (Hb1 : Rsum beta = 1). { unfold beta. cbn [Rsum]. replace (Rsum (repeat 0 m)) with 0; [ring|]. clear. induction m as [|m IH]; cbn; [reflexivity|rewrite <- IH; ring]. }
  specialize (HM beta Hbl Hb1).
  pose proof (wsum_rep (vzero : E) b m alpha) as W1. pose proof (wsum_rep (vzero : E) b m beta) as W2. unfold wsum in W1, W2. rewrite Hlen in W1, W2. rewrite W1, W2 in HM.
  assert (Hbm : nthr beta m = 0). { unfold nthr, beta. destruct m; [lia|]. cbn [nth]. apply nth_repeat. }
  rewrite Hbm in HM. replace (RS m (nthr beta) [*] (vzero : E) [+] 0 [*] b) with (vzero : E) in HM by vring. replace (RS m (nthr alpha) [*] (vzero : E) [+] nthr alpha m [*] b) with (nthr alpha m [*] b) in HM by vring.
  rewrite norm_zero in HM. pose proof (norm_nonneg (nthr alpha m [*] b)). assert (Hz : nthr alpha m [*] b = vzero) by (apply norm_eq0; lra).
  assert (Ha : nthr alpha m = 0). { destruct (Req_dec (nthr alpha m) 0); auto. exfalso. apply Hb. transitivity (/ nthr alpha m [*] (nthr alpha m [*] b)); [vfield; auto|rewrite Hz; vring]. }
  split; auto. lra.
Qed.

Section AtSol.
Context {E : IPS}.
Variables (f : E -> R) (df : E -> E) (g : efun E) (e tau : R) (nh : nat) (sg : bool) (x0 : E) (xs ys : nat -> E) (Rh Gh : nat -> list E) (vs : nat -> R) (n : nat).
Hypothesis HA : anderson f df g (fun _ => e) tau nh sg x0 xs ys Rh Gh vs n.
Hypothesis Hgc : convex g.
Hypothesis He : 0 < e. Hypothesis Ht : 0 < tau. Hypothesis Hh : (1 <= nh)%nat.
Let y0 := x0 [-] tau [*] df x0.
Hypothesis Hfix : is_prox g (e * tau) y0 x0.
Hypothesis Hy0 : y0 <> vzero.
Lemma Hu p : is_prox g (e * tau) y0 p -> p = x0.
Proof. intro H. apply (prox_unique g (e * tau) y0); auto. apply Rmult_lt_0_compat; auto. Qed.
Lemma at_sol j : (j <= n)%nat -> (j < nh)%nat -> xs j = x0 /\ ys j = y0 /\ Rh j = repeat vzero j ++ [y0] /\ Gh j = repeat y0 j ++ [y0 [-] x0].
Proof.
  destruct HA as (A0 & A1 & A2 & A3 & A4 & HS). fold y0 in A0. induction j as [|j IH]; intros Hj Hn.
  - split; [apply Hu; rewrite <- A0; exact A1|]. split; [exact A0|]. simpl. rewrite A2, A3, A0. auto.
  - destruct (IH ltac:(lia) ltac:(lia)) as (X & Y & RR & GG). destruct (HS j ltac:(lia)) as (B1 & B2 & B3 & alpha & cx & C1 & C2 & C3 & C4 & _). cbv zeta in B1, B2, C4. rewrite X in B1, B2, C3, C4. rewrite Y in B1. fold y0 in B1, B2, C4.
    rewrite vsub_diag in B1. rewrite RR in B1. rewrite GG in B2. rewrite firstn_all2 in B1 by (cbn [length]; rewrite app_length, repeat_length; simpl; lia). rewrite firstn_all2 in B2 by (cbn [length]; rewrite app_length, repeat_length; simpl; lia).
    change (vzero :: repeat vzero j ++ [y0]) with (repeat (vzero : E) (S j) ++ [y0]) in B1. change (y0 :: repeat y0 j ++ [y0 [-] x0]) with (repeat y0 (S j) ++ [y0 [-] x0]) in B2.
    rewrite B1 in C1. destruct (best_rep y0 (S j) alpha ltac:(lia) Hy0 C1) as [S1 S2]. rewrite B2, wsum_rep, S1, S2 in C2, C3.
    assert (Hw : 1 [*] y0 [+] 0 [*] (y0 [-] x0) = y0) by vring. rewrite Hw in C2, C3.
    assert (HX : xs (S j) = x0 /\ ys (S j) = y0).
    { destruct sg.
      - destruct (Rle_lt_dec (f cx) (vs j - tau * norm2 (df x0) / 2)) as [Hc|Hc].
        + destruct (C3 ltac:(auto)) as [-> ->]. split; auto. apply Hu; auto.
        + destruct (C4 eq_refl Hc) as [H ->]. split; auto. apply Hu; auto.
      - destruct (C3 ltac:(discriminate)) as [-> ->]. split; auto. apply Hu; auto. }
    destruct HX as [-> ->]. auto.
Qed.
End AtSol.

(*! C56_at_solution : started at a minimiser x0 of f + eps g (with x0 - tau grad f(x0) not the zero vector), the first nhistory - 1 iterations all return x0 *)
Lemma C56_at_solution_l : forall (E : IPS) pinv (proxf proxg : Op E) f df L g x0 e tau niter nhistory epsr safeguard,
  smooth_op proxf f df L -> impl_prox proxg g -> convex g -> pinv_ok nhistory pinv -> 0 < e -> 0 < tau -> 0 < epsr -> (1 <= niter < nhistory)%nat ->
  is_min (eadd (etot f) (escal e g)) x0 -> x0 [-] tau [*] df x0 <> vzero ->
  AndersonProximalGradient pinv proxf proxg x0 [e] tau niter nhistory epsr safeguard None = Ok (x0, repeat x0 niter).
Proof.
  intros E pinv proxf proxg f df L g x0 e tau niter nh epsr sg [Hc [Hg [Hcv [HL Hsm]]]] Hp Hgc HP He Ht Hr Hn Hm Hy0.
  destruct (C56_recursion_l E pinv proxf proxg f df g x0 [e] (fun _ => e) tau niter nh epsr sg) as (xs & ys & Rh & Gh & vs & k & Hk & HA & HB); auto; try lia.
  { left. exists e. repeat split; auto; lia. }
  apply (pg_fix_min f df L g x0 e tau Hcv HL Hsm Hgc He Ht) in Hm.
  pose proof (at_sol f df g e tau nh sg x0 xs ys Rh Gh vs k HA Hgc He Ht ltac:(lia) Hm Hy0) as HS.
  destruct HB as [[-> E1]|(H1 & H2 & H3)].
  - rewrite E1. destruct (HS niter ltac:(lia) ltac:(lia)) as [-> _]. f_equal. f_equal.
    assert (G : forall m i, (i + m <= S niter)%nat -> map xs (seq i m) = repeat x0 m).
    { induction m as [|m IH]; intros i Hi; [reflexivity|]. cbn [seq map repeat]. destruct (HS i ltac:(lia) ltac:(lia)) as [-> _]. f_equal. apply IH. lia. }
    apply G. lia.
  - exfalso. destruct (HS k ltac:(lia) ltac:(lia)) as (X & Y & RR & _). apply Hy0. apply H3. rewrite RR. rewrite firstn_all2 by (cbn [length]; rewrite app_length, repeat_length; simpl; lia). right. apply in_or_app. right. left. reflexivity.
Qed.
(*! C56_nan_refuted : started at a minimiser the iterates do not stay there: as soon as niter >= nhistory (or at once if x0 - tau grad f(x0) = 0) the coefficients are 0/0 and the result is nan, for every smooth convex f,
   convex g, step, epsr and safeguard setting *)
Lemma C56_nan_refuted_l : forall (E : IPS) pinv (proxf proxg : Op E) f df L g x0 e tau niter nhistory epsr safeguard,
  smooth_op proxf f df L -> impl_prox proxg g -> convex g -> pinv_ok nhistory pinv -> 0 < e -> 0 < tau -> 0 < epsr -> (1 <= nhistory)%nat -> (1 <= niter)%nat ->
  is_min (eadd (etot f) (escal e g)) x0 -> (nhistory <= niter)%nat \/ x0 [-] tau [*] df x0 = vzero ->
  AndersonProximalGradient pinv proxf proxg x0 [e] tau niter nhistory epsr safeguard None = Err ZeroDivisionError.
Proof.
  intros E pinv proxf proxg f df L g x0 e tau niter nh epsr sg [Hc [Hg [Hcv [HL Hsm]]]] Hp Hgc HP He Ht Hr Hh Hn Hm Hor.
  destruct (C56_recursion_l E pinv proxf proxg f df g x0 [e] (fun _ => e) tau niter nh epsr sg) as (xs & ys & Rh & Gh & vs & k & Hk & HA & HB); auto; try lia.
  { left. exists e. repeat split; auto; lia. }
  apply (pg_fix_min f df L g x0 e tau Hcv HL Hsm Hgc He Ht) in Hm.
  destruct HB as [[-> E1]|(H1 & H2 & H3)]; [exfalso|exact H2].
  destruct (Classical_Prop.classic (x0 [-] tau [*] df x0 = vzero)) as [Hy0|Hy0].
  - destruct HA as (A0 & A1 & A2 & A3 & A4 & HS). destruct (HS 0%nat ltac:(lia)) as (B1 & _ & [r [Hr1 Hr2]] & _). rewrite A0 in A1.
    assert (X : xs 0%nat = x0). { apply (prox_unique g (e * tau) (x0 [-] tau [*] df x0)); auto. apply Rmult_lt_0_compat; auto. }
    rewrite A2, A0, X, Hy0, vsub_diag in B1. apply Hr2. assert (Hin : In r [vzero; vzero]) by (rewrite <- (firstn_skipn nh [vzero; vzero]), <- B1; apply in_or_app; auto). simpl in Hin. intuition.
  - destruct Hor as [Hor|]; [|contradiction]. pose proof (at_sol f df g e tau nh sg x0 xs ys Rh Gh vs niter HA Hgc He Ht ltac:(lia) Hm Hy0 (nh - 1) ltac:(lia) ltac:(lia)) as (X & Y & RR & _).
    destruct HA as (_ & _ & _ & _ & _ & HS). destruct (HS (nh - 1)%nat ltac:(lia)) as (B1 & _ & [r [Hr1 Hr2]] & _). rewrite X, Y, RR, vsub_diag in B1. apply Hr2.
    change (vzero :: repeat vzero (nh - 1) ++ [x0 [-] tau [*] df x0]) with (repeat (vzero : E) (S (nh - 1)) ++ [x0 [-] tau [*] df x0]) in B1. replace (S (nh - 1)) with nh in B1, Hr1 by lia.
    rewrite firstn_app, repeat_length, Nat.sub_diag, firstn_all2, app_nil_r in B1 by (rewrite repeat_length; lia). rewrite B1 in Hr1. apply repeat_spec in Hr1. exact Hr1.
Qed.

(*! C56_nhistory1 : with nhistory = 1 the method is plain proximal gradient, one step ahead: whenever niter iterations complete they return what ProximalGradient returns after niter + 1 iterations *)
Lemma C56_nhistory1_l : forall (E : IPS) pinv (proxf proxg : Op E) f df L g x0 e tau niter epsr safeguard x tr beta niterback,
  smooth_op proxf f df L -> impl_prox proxg g -> convex g -> pinv_ok 1 pinv -> 0 < e -> 0 < tau -> 0 < epsr -> (1 <= niter)%nat ->
  AndersonProximalGradient pinv proxf proxg x0 [e] tau niter 1 epsr safeguard None = Ok (x, tr) ->
  exists x1, ProximalGradient proxf proxg x0 [e] (Some tau) false beta 1 (S niter) niterback None None = Ok (x, x1 :: tr).
Proof.
  intros E pinv proxf proxg f df L g x0 e tau niter epsr sg x tr beta nb [Hc [Hg [Hcv [HL Hsm]]]] Hp Hgc HP He Ht Hr Hn Hrun.
  destruct (C56_recursion_l E pinv proxf proxg f df g x0 [e] (fun _ => e) tau niter 1 epsr sg) as (xs & ys & Rh & Gh & vs & k & Hk & HA & HB); auto; try lia.
  { left. exists e. repeat split; auto; lia. }
  destruct HB as [[-> E1]|(H1 & H2 & H3)]; [|congruence]. rewrite E1 in Hrun. injection Hrun as <- <-.
  destruct (pg_fixed proxf proxg f df g (fun _ => 0) Hc Hg Hp [e] (fun _ => e) x0 tau beta (S niter) nb None None) as [us [ws [k [Er [U0 [Hd [Hs _]]]]]]]; auto.
  { left. exists e. repeat split; auto; lia. } { congruence. }
  simpl in Hs. subst k. assert (Het : 0 < e * tau) by (apply Rmult_lt_0_compat; auto).
  assert (Hst : forall j, (j < S niter)%nat -> is_prox g (e * tau) (us j [-] tau [*] df (us j)) (us (S j))).
  { intros j Hj. pose proof (pg_doc_step df g e (fun _ => tau) (omega_seq None) us ws 1 (S niter) eq_refl Hd j Hj) as H. rewrite (pg_plain df g e (fun _ => tau) (omega_seq None) us ws (S niter)) in H; auto; lia. }
  assert (Heq : forall j, (j <= niter)%nat -> us (S j) = xs j).
  { destruct HA as (A0 & A1 & A2 & A3 & A4 & HS). induction j as [|j IH]; intro Hj.
    - apply (prox_unique g (e * tau) (x0 [-] tau [*] df x0)); auto; [rewrite <- U0; apply Hst; lia|rewrite <- A0; exact A1].
    - destruct (HS j ltac:(lia)) as (B1 & B2 & B3 & alpha & cx & C1 & C2 & C3 & C4 & _). cbv zeta in *. cbn [firstn] in B1, B2. rewrite B1 in C1. destruct C1 as (L1 & S1 & _). destruct alpha as [|a [|]]; try (cbn in L1; discriminate). cbn in S1.
      assert (Hw : wsum [a] (Gh (S j)) = xs j [-] tau [*] df (xs j)) by (rewrite B2; unfold wsum; cbn; replace a with 1 by lra; vring). rewrite Hw in *.
      assert (HX : is_prox g (e * tau) (xs j [-] tau [*] df (xs j)) (xs (S j))).
      { destruct sg; [destruct (Rle_lt_dec (f cx) (vs j - tau * norm2 (df (xs j)) / 2)) as [Hle|Hlt]|].
        - destruct (C3 ltac:(auto)) as [-> _]. exact C2.
        - apply C4; auto.
        - destruct (C3 ltac:(discriminate)) as [-> _]. exact C2. }
      apply (prox_unique g (e * tau) (xs j [-] tau [*] df (xs j))); auto. rewrite <- IH by lia. apply Hst. lia. }
  exists (us 1%nat). rewrite Er, Heq by lia. f_equal. f_equal. cbn [seq map]. f_equal. rewrite <- (seq_shift niter 1), map_map. apply map_ext_in. intros j Hj. apply in_seq in Hj. apply Heq. lia.
Qed.

(*! C56_errors : nhistory = 0 always fails with ValueError (shapes do not match), and niter = 0 with a scalar epsg fails with IndexError *)
Lemma C56_errors_l : forall (E : IPS) pinv (proxf proxg : Op E) f df g x0 e tau niter epsr safeguard tol,
  impl_call proxf (etot f) -> (forall x, o_grad proxf x = Ok (Some (df x))) -> impl_prox proxg g -> pinv_ok 1 pinv -> 0 < e -> 0 < tau ->
  AndersonProximalGradient pinv proxf proxg x0 [e] tau 0 0 epsr safeguard tol = Err IndexError /\
  AndersonProximalGradient pinv proxf proxg x0 [e] tau (S niter) 0 epsr safeguard tol = Err ValueError.
Proof.
  intros E pinv proxf proxg f df g x0 e tau niter epsr sg tol Hc Hg Hp HP He Ht. split; [reflexivity|].
  unfold AndersonProximalGradient. cbn [pg_epsg repeat bind]. unfold an_init, get_grad. rewrite Hg. cbn [bind getitem nth_error].
  destruct (Hp (x0 [-] tau [*] df x0) (e * tau) ltac:(apply Rmult_lt_0_compat; auto)) as [x [-> _]]. cbn [bind]. unfold get_val. rewrite (Hc x I). cbn [bind for_loop]. unfold an_body, get_grad. cbn [an_x an_y an_R an_G]. rewrite Hg. cbn [bind Nat.leb removelast Nat.min].
  match goal with |- context [an_alpha pinv epsr 0 [?r]] => destruct (HP 1%nat (an_matrix epsr [r]) ltac:(lia) (square_matrix epsr [r]) (sym_matrix epsr [r])) as [[H1 H2] _] end.
  unfold an_alpha, mat_vec. cbn [repeat length]. destruct (pinv _) as [|row [|]]; try (cbn in H1; discriminate). specialize (H2 0%nat ltac:(lia)). cbn in H2. cbn [forallb]. rewrite H2. reflexivity.
Qed.

(*! C56_trace : with a tolerance the run stops where the relative-change rule on f + epsg[i] g says, every iteration calls the callback once and the last callback received the returned vector *)
Lemma C56_trace_l : forall (E : IPS) pinv (proxf proxg : Op E) x0 epsg tau niter nhistory epsr safeguard tol x tr, (1 <= niter)%nat ->
  AndersonProximalGradient pinv proxf proxg x0 epsg tau niter nhistory epsr safeguard tol = Ok (x, tr) ->
  exists x1, trace_ok tol (fun i y v => exists fv gv e, get_val proxf y = Ok fv /\ get_val proxg y = Ok gv /\
     (epsg = [e] \/ (List.length epsg <> 1%nat /\ nth_error epsg i = Some e)) /\ v = fv + e * gv) niter x1 x tr.
Proof.
  intros E pinv proxf proxg x0 epsg tau niter nh epsr sg tol x tr Hn H. unfold AndersonProximalGradient in H.
  destruct (pg_epsg epsg niter) as [l|] eqn:El; [|discriminate]. cbn [bind] in H. destruct (an_init proxf proxg l tau x0) as [s0|] eqn:E0; [|discriminate]. cbn [bind] in H.
  destruct (for_loop _ _ _ _) as [[s k]|] eqn:Ef; [|discriminate]. cbn [bind fst] in H. injection H as <- <-. exists (an_x s0).
  assert (Hs0 : an_tr s0 = [] /\ an_pfg s0 = None).
  { unfold an_init in E0. destruct (get_grad proxf x0); [|discriminate]. cbn [bind] in E0. destruct (getitem l 0); [|discriminate]. cbn [bind] in E0. destruct (o_prox _ _ _); [|discriminate]. cbn [bind] in E0. destruct (get_val _ _); [|discriminate]. cbn [bind] in E0. injection E0 as <-. auto. }
  refine (proj1 (trace_run _ an_x an_tr an_pfg _ tol niter s0 s k _ (proj1 Hs0) (proj2 Hs0) Ef)).
  intros i st st' b Hi Hb. unfold an_body in Hb. destruct (get_grad proxf (an_x st)) as [d|]; [|discriminate]. cbn [bind] in Hb. destruct (an_alpha _ _ _ _) as [al|]; [|discriminate]. cbn [bind] in Hb. destruct (comb _ _) as [yt|]; [|discriminate]. cbn [bind] in Hb.
  unfold getitem in Hb. destruct (nth_error l i) as [e|] eqn:Ee; [|discriminate]. cbn [bind] in Hb. destruct (o_prox proxg yt (e * tau)) as [xt|]; [|discriminate]. cbn [bind] in Hb.
  match type of Hb with bind ?u _ = _ => destruct u as [[[x' y'] pf']|]; [|discriminate] end. cbn [bind] in Hb.
  assert (Hle : epsg = [e] \/ (List.length epsg <> 1%nat /\ nth_error epsg i = Some e)).
  { destruct epsg as [|a [|b' l']]; simpl in El.
    - injection El as <-. right. auto.
    - left. destruct niter; [discriminate|]. injection El as <-. change (a :: repeat a niter) with (repeat a (S niter)) in Ee. apply nth_error_In in Ee. apply repeat_spec in Ee. congruence.
    - injection El as <-. right. split; [simpl; lia|auto]. }
  destruct tol as [tl|].
  - destruct (get_val proxf x') as [fv|] eqn:E1; [|discriminate]. cbn [bind] in Hb. destruct (get_val proxg x') as [gv|] eqn:E2; [|discriminate]. cbn [bind] in Hb.
    destruct (rel_stop false tl (fv + e * gv) (an_pfg st)) as [b'|] eqn:Er; [|discriminate]. cbn [bind] in Hb. injection Hb as <- <-.
    split; auto. exists (fv + e * gv), false. split; [|split]; auto. exists fv, gv, e. auto.
  - injection Hb as <- <-. auto.
Qed.

(** ** Concrete runs on the real line *)
Lemma wsum2 a b u v : wsum (E:=R_IPS) [a; b] [u; v] = a * u + b * v.
Proof. unfold wsum, nthv, nthr. cbn. ring. Qed.
Lemma norm_R (v : R_IPS) : norm v = Rabs v. Proof. unfold norm, norm2; simpl. apply sqrt_Rsqr_abs. Qed.
Lemma best2 (u v : R) alpha : u <> v -> best_weights (E:=R_IPS) [u; v] alpha -> alpha = [v / (v - u); - u / (v - u)].
Proof.
  intros Hn (HL & HS & HM). destruct alpha as [|a [|b [|]]]; try (cbn in HL; discriminate). assert (Hd : v - u <> 0) by lra.
  specialize (HM [v / (v - u); - u / (v - u)] eq_refl ltac:(cbn; field; auto)). change (norm (wsum (E:=R_IPS) [a; b] [u; v]) <= norm (wsum (E:=R_IPS) [v / (v - u); - u / (v - u)] [u; v])) in HM. rewrite !wsum2, !norm_R in HM.
  replace (v / (v - u) * u + - u / (v - u) * v) with 0 in HM by (field; auto). rewrite Rabs_R0 in HM. cbn in HS.
  assert (Hz : a * u + b * v = 0). { pose proof (Rabs_pos (a * u + b * v)). destruct (Req_dec (a * u + b * v) 0) as [|Hq]; auto. apply Rabs_pos_lt in Hq. lra. }
  assert (Ha : a = v / (v - u)). { apply Rmult_eq_reg_r with (v - u); auto. replace (v / (v - u) * (v - u)) with v by (field; auto). replace b with (1 - a) in Hz by lra. lra. }
  assert (Hb : b = - u / (v - u)). { apply Rmult_eq_reg_r with (v - u); auto. replace (- u / (v - u) * (v - u)) with (- u) by (field; auto). replace a with (1 - b) in Hz by lra. lra. }
  rewrite <- Ha, <- Hb. reflexivity.
Qed.

(*! C56_history_refuted : the histories do not hold g^0 and r^0 as documented (they start swapped), which spoils the first accelerated steps: for f(x) = (x-1)^2/2, g = 0, tau = 1/4, x0 = 5 one iteration returns 49/19,
   while the documented combination of (g^1, g^0) with residuals (r^1, r^0) is the exact minimiser 1 *)
Lemma C56_history_refuted_l : let f := fun x => (x - 1) * (x - 1) / 2 in let df := fun x => x - 1 in
  forall pinv nhistory epsr, (2 <= nhistory)%nat -> pinv_ok nhistory pinv -> 0 < epsr ->
  AndersonProximalGradient pinv (op1 f df) zero1 (5 : R_IPS) [1] (1 / 4) 1 nhistory epsr false None = Ok (49 / 19, [49 / 19]) /\
  let g0 := 5 - 1 / 4 * df 5 in let r0 := g0 - 5 in let g1 := g0 - 1 / 4 * df g0 in let r1 := g1 - g0 in
  forall alpha, best_weights (E:=R_IPS) [r1; r0] alpha -> wsum (E:=R_IPS) alpha [g1; g0] = 1.
Proof.
  intros f df pinv nh epsr Hh HP Hr. split.
  - destruct (C56_recursion_l R_IPS pinv (op1 f df) zero1 f df (etot (E:=R_IPS) (fun _ => 0)) 5 [1] (fun _ => 1) (1 / 4) 1 nh epsr false) as (xs & ys & Rh & Gh & vs & k & Hk & HA & HB); auto; try lia; try lra.
    { intros x _. reflexivity. } { apply zero1_prox. } { left. exists 1. repeat split; auto. } { intros; lra. }
    destruct HA as (A0 & A1 & A2 & A3 & A4 & HS). apply zero1_prox_inv in A1; [|lra].
    assert (Y0 : ys 0%nat = 4) by (rewrite A0; unfold df; cbn; lra). rewrite Y0 in *.
    destruct HB as [[-> E1]|(H1 & _ & H3)].
    + rewrite E1. destruct (HS 0%nat ltac:(lia)) as (B1 & B2 & _ & alpha & cx & C1 & C2 & C3 & _ & _). cbv zeta in *. rewrite A1, A2, A3, Y0 in *. destruct nh as [|[|nh]]; try lia. cbn [firstn] in B1, B2. rewrite firstn_nil in B1, B2. rewrite B1 in C1. rewrite B2 in C2, C3.
      match type of C1 with best_weights (?u :: _) _ => assert (Q1 : u = - (3 / 4)) by (unfold df; cbn; lra) end. rewrite Q1 in C1. apply best2 in C1; [|lra]. rewrite C1 in C2, C3.
      match type of C2 with is_prox _ _ ?w _ => assert (Q2 : w = 49 / 19) by (rewrite wsum2; unfold df; cbn; field) end. rewrite Q2 in C2, C3.
      apply zero1_prox_inv in C2; [|lra]. destruct (C3 ltac:(discriminate)) as [X1 _]. cbn [seq map]. rewrite X1, C2. reflexivity.
    + exfalso. assert (k = 0%nat) by lia. subst k. rewrite A1, Y0, A2 in H3. assert (H4 : 4 = 0) by (apply (H3 4); destruct nh as [|[|nh]]; try lia; cbn [firstn]; right; left; reflexivity). lra.
  - cbv zeta. intros alpha Ha. apply best2 in Ha; [|unfold df; lra]. subst alpha. rewrite wsum2. unfold df. match goal with |- ?a = ?b => change (@eq R a b) end. field.
Qed.

Lemma sg_smooth : smooth_convex (E:=R_IPS) sg_f sg_df 1.
Proof.
  split; intros x y; unfold sg_f, sg_df, norm2; cbn; set (u := sg_u x); set (v := sg_u y); replace (y + -1 * x) with (v - u) by (unfold u, v, sg_u; ring); destruct (Rle_dec u 1) as [Hu|Hu], (Rle_dec v 1) as [Hv|Hv]; try (apply Rnot_le_lt in Hu); try (apply Rnot_le_lt in Hv); pose proof (Rle_0_sqr (u - v)) as Q; pose proof (Rle_0_sqr (v - 1)) as Q1; pose proof (Rle_0_sqr (u - 1)) as Q2; unfold Rsqr in *.
  all: try (pose proof (Rmult_le_pos (1 - u) (v - 1) ltac:(lra) ltac:(lra)) as Q3); try (pose proof (Rmult_le_pos (u - 1) (1 - v) ltac:(lra) ltac:(lra)) as Q4); lra || nra.
Qed.
Lemma sg_hi u x : sg_u x = u -> 1 < u -> sg_f x = 1 / 2 + (u - 1) + (u - 1) * (u - 1) / 20 /\ sg_df x = 1 + (u - 1) / 10.
Proof. intros <- H. unfold sg_f, sg_df. destruct (Rle_dec (sg_u x) 1); [lra|auto]. Qed.
Lemma sg_lo u x : sg_u x = u -> u <= 1 -> sg_f x = u * u / 2 /\ sg_df x = u.
Proof. intros <- H. unfold sg_f, sg_df. destruct (Rle_dec (sg_u x) 1); [auto|lra]. Qed.

(*! C56_safeguard_refuted : safeguard=True does not prevent an increase of f: after a rejected candidate the next one is compared with the value of the rejected one; for the smooth convex sg_f (L = 1), g = 0, tau = 1/2,
   nhistory = 2, x0 = 1/10 two safeguarded iterations return -199/10 with f = 81/2 although f(x0) = 31/2 *)
Lemma C56_safeguard_refuted_l : smooth_convex (E:=R_IPS) sg_f sg_df 1 /\ sg_f (1 / 10) = 31 / 2 /\ sg_f (- 199 / 10) = 81 / 2 /\
  forall pinv epsr, pinv_ok 2 pinv -> 0 < epsr ->
  exists x1, AndersonProximalGradient pinv (op1 sg_f sg_df) zero1 (1 / 10 : R_IPS) [1] (1 / 2) 2 2 epsr true None = Ok (- 199 / 10, [x1; - 199 / 10]).
Proof.
  split; [apply sg_smooth|]. split; [destruct (sg_hi 11 (1 / 10)) as [-> _]; unfold sg_u; lra|]. split; [destruct (sg_lo (- 9) (- 199 / 10)) as [-> _]; unfold sg_u; lra|].
  intros pinv epsr HP Hr.
  destruct (C56_recursion_l R_IPS pinv (op1 sg_f sg_df) zero1 sg_f sg_df (etot (E:=R_IPS) (fun _ => 0)) (1 / 10) [1] (fun _ => 1) (1 / 2) 2 2 epsr true) as (xs & ys & Rh & Gh & vs & k & Hk & HA & HB); auto; try lia; try lra.
  { intros x _. reflexivity. } { apply zero1_prox. } { left. exists 1. repeat split; auto. } { intros; lra. }
  destruct HA as (A0 & A1 & A2 & A3 & A4 & HS). apply zero1_prox_inv in A1; [|lra].
  destruct (sg_hi 11 (1 / 10)) as [F0 D0]; [unfold sg_u; lra|lra|]. destruct (sg_hi 10 (- 9 / 10)) as [F1 D1]; [unfold sg_u; lra|lra|]. destruct (sg_hi (905 / 100) (- 185 / 100)) as [F2 D2]; [unfold sg_u; lra|lra|].
  destruct (sg_hi (252 / 10) (143 / 10)) as [F3 _]; [unfold sg_u; lra|lra|]. destruct (sg_lo (- 9) (- 199 / 10)) as [F4 _]; [unfold sg_u; lra|lra|].
  assert (Y0 : ys 0%nat = - 9 / 10) by (rewrite A0, D0; cbn; lra). rewrite Y0 in *.
  assert (K0 : (1 <= k)%nat).
  { destruct (Nat.eq_dec k 0) as [->|]; [|lia]. exfalso. destruct HB as [[H _]|(_ & _ & H3)]; [lia|]. rewrite A2 in H3. assert (H4 : - 9 / 10 = 0) by (apply H3; cbn [firstn]; right; left; reflexivity). lra. }
  destruct (HS 0%nat K0) as (B1 & B2 & _ & alpha & cx & C1 & C2 & C3 & C4 & C5). cbv zeta in *. rewrite A1 in *. rewrite A2, Y0 in B1. rewrite A3 in B2. rewrite D1 in *. rewrite A4, F1 in *. cbn [firstn] in B1, B2.
  assert (P1 : (- 9 / 10 : R_IPS) [-] (1 / 2) [*] (1 + (10 - 1) / 10 : R_IPS) = - 185 / 100) by (cbn; lra). rewrite P1 in *. assert (P2 : (- 185 / 100 : R_IPS) [-] (- 9 / 10) = - 95 / 100) by (cbn; lra). rewrite P2 in *. assert (P3 : (- 9 / 10 : R_IPS) [-] (1 / 10) = - 1) by (cbn; lra). rewrite P3 in *.
  rewrite B1 in C1. apply best2 in C1; [|lra]. rewrite C1, B2 in C2. match type of C2 with is_prox _ _ ?w _ => assert (P4 : w = 143 / 10) by (rewrite wsum2; match goal with |- ?a = ?b => change (@eq R a b) end; field) end. rewrite P4 in C2. apply zero1_prox_inv in C2; [|lra].
  assert (N1 : norm2 (1 + (10 - 1) / 10 : R_IPS) = 361 / 100) by (unfold norm2; cbn; field). rewrite N1, C2, F3 in *.
  destruct (C4 eq_refl ltac:(lra)) as [X1 Y1]. apply zero1_prox_inv in X1; [|lra].
  assert (K1 : k = 2%nat).
  { destruct (Nat.eq_dec k 1) as [->|]; [|lia]. exfalso. destruct HB as [[H _]|(_ & _ & H3)]; [lia|]. rewrite B1 in H3. assert (H4 : - 95 / 100 = 0) by (apply H3; cbn [firstn]; right; left; reflexivity). lra. }
  subst k. destruct (HS 1%nat ltac:(lia)) as (B1' & B2' & _ & alpha' & cx' & C1' & C2' & C3' & C4' & _). cbv zeta in *. rewrite X1, Y1, B1 in B1'. rewrite X1, B2 in B2'. rewrite X1 in *. rewrite C5 in *. rewrite D2 in *. cbn [firstn] in B1', B2'.
  assert (P1' : (- 185 / 100 : R_IPS) [-] (1 / 2) [*] (1 + (905 / 100 - 1) / 10 : R_IPS) = - 27525 / 10000) by (cbn; lra). rewrite P1' in *. assert (P2' : (- 27525 / 10000 : R_IPS) [-] (- 185 / 100) = - 9025 / 10000) by (cbn; lra). rewrite P2' in *.
  rewrite B1' in C1'. apply best2 in C1'; [|lra]. rewrite C1', B2' in C2'. match type of C2' with is_prox _ _ ?w _ => assert (P4' : w = - 199 / 10) by (rewrite wsum2; match goal with |- ?a = ?b => change (@eq R a b) end; field) end. rewrite P4' in C2'. apply zero1_prox_inv in C2'; [|lra].
  assert (N2 : norm2 (1 + (905 / 100 - 1) / 10 : R_IPS) = 3258025 / 1000000) by (unfold norm2; cbn; field). rewrite N2, C2', F4 in *.
  destruct (C3' ltac:(intros; lra)) as [X2 _]. destruct HB as [[_ E1]|(H1 & _)]; [|lia]. rewrite E1. exists (xs 1%nat). cbn [seq map]. rewrite X2. reflexivity.
Qed.

(** an exact pseudo-inverse for symmetric matrices of size at most two *)
Definition pinv2 (M : list (list R)) : list (list R) :=
  match M with
  | [[a]] => [[if Req_EM_T a 0 then 0 else / a]]
  | [[a; b]; [_; d]] =>
      let det := a * d - b * b in
      if Req_EM_T det 0 then
        if Req_EM_T (a + d) 0 then [[0; 0]; [0; 0]] else let t := (a + d) * (a + d) in [[a / t; b / t]; [b / t; d / t]]
      else [[d / det; - b / det]; [- b / det; a / det]]
  | _ => []
  end.
Lemma pinv2_ok : pinv_ok 2 pinv2.
Proof.
  intros k M Hk [HM Hr] Hsym. destruct k as [|[|[|k]]]; [| | |lia].
  - destruct M; [|discriminate]. split; [split; [reflexivity|intros; lia]|]. split; [intros; lia|]. split; [intros; lia|]. split; intros; lia.
  - destruct M as [|r [|]]; try discriminate. pose proof (Hr 0%nat ltac:(lia)) as H0. cbn in H0. destruct r as [|a [|]]; try discriminate. cbn [pinv2].
    split; [split; [reflexivity|intros [|i] Hi; [reflexivity|lia]]|]. destruct (Req_EM_T a 0) as [->|Ha]; (split; [|split; [|split]]); intros [|i] [|j] Hi Hj; try lia; unfold mmul, mget; cbn; try ring; field; auto.
  - destruct M as [|r0 [|r1 [|]]]; try discriminate. pose proof (Hr 0%nat ltac:(lia)) as H0. pose proof (Hr 1%nat ltac:(lia)) as H1. cbn in H0, H1. destruct r0 as [|a [|b [|]]]; try discriminate. destruct r1 as [|c [|d [|]]]; try discriminate.
    pose proof (Hsym 0%nat 1%nat ltac:(lia) ltac:(lia)) as Hbc. unfold mget in Hbc. cbn in Hbc. subst c. cbn [pinv2].
    assert (Hsq : forall p q r s, square 2 [[p; q]; [r; s]]) by (intros; split; [reflexivity|intros [|[|i]] Hi; try lia; reflexivity]).
    destruct (Req_EM_T (a * d - b * b) 0) as [Hd|Hd]; [destruct (Req_EM_T (a + d) 0) as [Ht|Ht]|].
    + assert (Had : d = - a) by lra. subst d. pose proof (Rle_0_sqr a) as Q1. pose proof (Rle_0_sqr b) as Q2. assert (Ha : Rsqr a = 0) by (unfold Rsqr in *; lra). assert (Hb : Rsqr b = 0) by (unfold Rsqr in *; lra). apply Rsqr_0_uniq in Ha, Hb. subst a b.
      split; [apply Hsq|]. (split; [|split; [|split]]); intros [|[|i]] [|[|j]] Hi Hj; try lia; unfold mmul, mget; cbn; ring.
    + split; [apply Hsq|]. assert (Hbb : b * b = a * d) by lra. assert (E0 : forall t, (a * (a / t) + b * (b / t)) = a * ((a + d) / t)) by (intro t; unfold Rdiv; replace (b * (b * / t)) with (b * b * / t) by ring; rewrite Hbb; ring).
      assert (E1 : forall t, (b * (b / t) + d * (d / t)) = d * ((a + d) / t)) by (intro t; unfold Rdiv; replace (b * (b * / t)) with (b * b * / t) by ring; rewrite Hbb; ring).
      assert (Hu : (a + d) / ((a + d) * (a + d)) = / (a + d)) by (field; auto).
      (split; [|split; [|split]]); intros [|[|i]] [|[|j]] Hi Hj; try lia; unfold mmul, mget; cbn.
      all: try (field; auto; fail).
      all: field_simplify_eq; auto; try (replace (b ^ 2) with (a * d) by (simpl; lra)); try ring.
      all: try (replace (b ^ 3) with (b * (a * d)) by (simpl; rewrite Rmult_1_r, Hbb; ring)); try ring.
      all: try (replace (b ^ 4) with (a * d * (a * d)) by (rewrite <- Hbb; ring)); ring.
    + split; [apply Hsq|]. (split; [|split; [|split]]); intros [|[|i]] [|[|j]] Hi Hj; try lia; unfold mmul, mget; cbn; field; auto.
Qed.

(*!ex C56_example : the hypotheses are met by f(x) = x^2/2, g = 0 and the exact pseudo-inverse of symmetric 2x2 matrices, with nhistory 2; started at the minimiser 0, every run is nan *)
Lemma C56_example_l : pinv_ok 2 pinv2 /\ smooth_op (quad1 1) (fun x : R_IPS => 1 / 2 * (x * x)) (fun x : R_IPS => 1 * x) 1 /\ impl_prox zero1 (etot (E:=R_IPS) (fun _ => 0)) /\
  is_min (eadd (etot (E:=R_IPS) (fun x : R_IPS => 1 / 2 * (x * x))) (escal 1 (etot (E:=R_IPS) (fun _ => 0)))) 0 /\
  AndersonProximalGradient pinv2 (quad1 1) zero1 (0 : R_IPS) [1] (1 / 2) 5 2 1 false None = Err ZeroDivisionError.
Proof.
  assert (Hm : is_min (eadd (etot (E:=R_IPS) (fun x : R_IPS => 1 / 2 * (x * x))) (escal 1 (etot (E:=R_IPS) (fun _ => 0)))) 0).
  { split; [split; exact I|]. intros y _. cbn. pose proof (Rle_0_sqr y). unfold Rsqr in *. lra. }
  split; [apply pinv2_ok|]. split; [apply quad1_smooth; lra|]. split; [apply zero1_prox|]. split; [exact Hm|].
  apply (C56_nan_refuted_l R_IPS pinv2 (quad1 1) zero1 (fun x : R_IPS => 1 / 2 * (x * x)) (fun x : R_IPS => 1 * x) 1 (etot (E:=R_IPS) (fun _ => 0))); auto; try lia; try lra.
  - apply quad1_smooth; lra.
  - apply zero1_prox.
  - intros a b t _ _ _. split; [exact I|]. cbn. lra.
  - apply pinv2_ok.
Qed.
