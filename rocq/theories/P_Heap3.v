(** * C79: HQS, ProximalPoint, PPXA, Sum and the inherited gradient with operators that write into their argument *)
From Verif Require Import Base Space Spec SpecOps VSum MatFacts M_ProxOp M_Norms M_Loop M_PG M_Split M_Multi M_Dyk M_L2 M_Inter M_Heap LoopFacts P_L2 P_Heap P_Heap2.
From Verif Require Export S_Heap.
Open Scope result_scope.
Open Scope R_scope.

Lemma hqs_tr_ne {E : IPS} (f g : Op E) taus gfirst niter s t k : (0 < niter)%nat -> for_loop (hqs_body f g taus gfirst) niter 0 s = Ok (t, k) -> h_tr t <> [].
Proof.
  intros Hn L. destruct niter as [|n]; [lia|].
  destruct (for_loop_inv (hqs_body f g taus gfirst) (fun j u => j = 0%nat \/ h_tr u <> []) (S n) 0 s t k) as [[HH|HH] [_ HK]]; auto.
  - intros j u u' b _ HB. right. unfold hqs_body in HB. destruct (getitem _ j); cbn [bind] in HB; [|discriminate]. destruct gfirst.
    + destruct (o_prox g _ _); cbn [bind] in HB; [|discriminate]. destruct (o_prox f _ _); cbn [bind] in HB; [|discriminate]. inversion HB. cbn. destruct (h_tr u); discriminate.
    + destruct (o_prox f _ _); cbn [bind] in HB; [|discriminate]. destruct (o_prox g _ _); cbn [bind] in HB; [|discriminate]. inversion HB. cbn. destruct (h_tr u); discriminate.
  - specialize (HK ltac:(lia)). lia.
Qed.
(*! C79_hqs_shift : HQS(gfirst=True) with f = L2(q=q) and no data: x is right but the returned z is the result of proxg minus tau*alpha*q *)
Lemma hqs_shift : forall (E F : IPS) (ext : L2Ext E F) cfg (st : L2St ext) o q (f g : Op E) (Hg : hprox E) (h : heap E) x0 z0 vx0 vz0 tau niter,
  l2_d cfg = NoB o -> l2_q cfg = Some q -> (forall x t, o_prox f x t = snd (l2_prox ext cfg st x t)) -> reads_only Hg (o_prox g) ->
  holds_opt h x0 vx0 -> holds_opt h z0 vz0 -> 0 < tau -> (0 < niter)%nat ->
  same (fun p q' => let '(h', x, z, tr) := p in let '(vx, vz, vtr) := q' in holds h' x vx /\ holds h' z (vz [-] (tau * l2_alpha cfg) [*] q))
       (hHQS (l2_hprox ext cfg st) Hg h x0 [tau] niter z0 true) (HQS f g vx0 [tau] niter vz0 true).
Proof.
  intros E F ext cfg st o q f g Hg h x0 z0 vx0 vz0 tau niter Hd Hq Hf HG Hx Hz Ht Hn. unfold hHQS, HQS.
  eapply same_bind; [apply init_sim; eauto|]. intros [[h0 x] z] [vx vz] (K0 & Hx' & Hz'). cbn [fst snd] in *.
  set (Q := fun (s : hhqs E) (t : hqs_state E) => holds (hh_h s) (hh_x s) (h_x t) /\ (h_tr t = [] \/ holds (hh_h s) (hh_z s) (h_z t [-] (tau * l2_alpha cfg) [*] q))).
  assert (L : same (fun p q => Q (fst p) (fst q) /\ snd p = snd q) (for_loop (hhqs_body (l2_hprox ext cfg st) Hg (hqs_taus [tau] niter) true) niter 0 (HHQ h0 x z []))
      (for_loop (hqs_body f g (hqs_taus [tau] niter) true) niter 0 (HQ vx vz []))).
  { apply same_loop_b; [|split; auto]. intros i s t Hi [Q1 _]. unfold hhqs_body, hqs_body. rewrite one_tau by lia. cbn [bind].
    pose proof (call_reads Hg _ (hh_h s) (hh_x s) (h_x t) tau HG Q1) as HC. destruct (Hg (hh_h s) (hh_x s) tau) as [[h1 z1]|e], (o_prox g (h_x t) tau) as [vz1|e']; cbn in HC; try contradiction; [|subst; reflexivity].
    destruct HC as (A1 & _ & _). cbn [bind fst snd]. destruct (l2_writes E F ext cfg st o q h1 z1 vz1 tau Hd Hq Ht A1) as [-> EV]. rewrite Hf, EV. cbn. split; [|reflexivity]. split; cbn.
    - rewrite <- (wr_len h1 z1 (vz1 [-] (tau * l2_alpha cfg) [*] q)). apply holds_alloc.
    - right. apply keeps_app. eapply wr_same; exact A1. }
  destruct (for_loop (hhqs_body _ _ _ _) _ _ _) as [[s k]|e] eqn:L1, (for_loop (hqs_body _ _ _ _) _ _ _) as [[t k']|e'] eqn:L2; cbn in L; try contradiction; [|subst; reflexivity].
  destruct L as [[Q1 [Q2|Q2]] _]; cbn; [|auto]. exfalso. exact (hqs_tr_ne f g _ _ _ _ _ _ Hn L2 Q2).
Qed.
(*! C79_hqs_domain_refuted : the vector z returned by HQS need not belong to the domain of g: with f = L2(q=1), g the indicator of [0, 1], x0 = 0
   and tau = 1 the returned z is -1, for every number of iterations *)
Lemma hqs_domain : forall (F : IPS) (ext : L2Ext R_IPS F) cfg (st : L2St ext) o (g : Op R_IPS) (Hg : hprox R_IPS) (h : heap R_IPS) x0 niter,
  l2_d cfg = NoB o -> l2_q cfg = Some (1 : R_IPS) -> l2_alpha cfg = 1 -> st_sigma st = 1 -> impl_prox g (indic (fun x : R_IPS => 0 <= x <= 1)) -> reads_only Hg (o_prox g) ->
  holds h x0 (0 : R_IPS) -> (0 < niter)%nat ->
  exists h' x z tr, hHQS (l2_hprox ext cfg st) Hg h (Some x0) [1] niter None true = Ok (h', x, z, tr) /\ holds h' z (-1 : R_IPS).
Proof.
  intros F ext cfg st o g Hg h x0 niter Hd Hq Ha Hs HI HG Hx Hn.
  set (f := mkOp (fun _ => Ok (VNum 0)) (fun x t => snd (l2_prox ext cfg st x t)) (fun _ _ => Ok vzero) (fun _ => Ok None) false : Op R_IPS).
  pose proof (hqs_shift R_IPS F ext cfg st o (1 : R_IPS) f g Hg h (Some x0) None (Some (0 : R_IPS)) None 1 niter Hd Hq (fun _ _ => eq_refl) HG Hx I ltac:(lra) Hn) as HS.
  assert (RUN : exists vx tr, HQS f g (Some (0 : R_IPS)) [1] niter None true = Ok (vx, (0 : R_IPS), tr)).
  { unfold HQS. cbn [bind x0z0_init fst snd].
    destruct (loop_reach (hqs_body f g (hqs_taus [1] niter) true) (fun j t => (h_x t : R) <= 0 /\ h_z t = (0 : R_IPS)) niter 0 (HQ (0 : R_IPS) (0 : R_IPS) [])) as [t [E1 [H1 H2]]].
    - intros j t Hj [H1 _]. unfold hqs_body. rewrite one_tau by lia. cbn [bind]. destruct (HI (h_x t) 1 ltac:(lra)) as [vz [-> [D1 D2]]]. cbn [bind].
      assert (Z : vz = (0 : R_IPS)). { specialize (D2 (0 : R_IPS) ltac:(cbn; lra)). cbn [edom eval indic] in D1, D2. unfold norm2 in D2. cbn in D1, D2. set (a := h_x t : R) in *.
        assert (N : 0 <= vz * vz) by (apply Rmult_le_pos; lra). assert (0 <= - (2 * a) * vz) by (apply Rmult_le_pos; lra). assert (Z0 : vz * vz = 0) by lra. apply Rsqr_0_uniq. exact Z0. }
      subst vz. destruct (l2_writes R_IPS F ext cfg st o (1 : R_IPS) [0 : R_IPS] 0%nat (0 : R_IPS) 1 Hd Hq ltac:(lra) eq_refl) as [_ EV]. cbn beta in EV. unfold f at 1. cbn [o_prox]. rewrite EV. cbn [bind]. eexists. split; [reflexivity|]. cbn [h_x h_z fst snd]. split; [|reflexivity].
      rewrite Ha, Hs. cbn. lra.
    - cbn. split; [lra|reflexivity].
    - rewrite E1. cbn [bind fst snd]. exists (h_x t), (h_tr t). rewrite H2. reflexivity. }
  destruct RUN as (vx & tr & E1). rewrite E1 in HS. destruct (hHQS _ _ _ _ _ _ _ _) as [[[[h' x] z] tr']|e]; cbn [same] in HS; [|contradiction]. destruct HS as [_ HZ]. exists h', x, z, tr'. split; [reflexivity|].
  rewrite Ha in HZ. replace (-1 : R_IPS) with ((0 : R_IPS) [-] (1 * 1) [*] (1 : R_IPS)); [exact HZ|]. cbn. lra.
Qed.
(*! C79_hqs_caller_refuted : HQS uses the caller's arrays without copying them: with f = L2(q=q) called first, the array passed as z0 holds
   z0 - tau*alpha*q after the call *)
Lemma hqs_caller : forall (E F : IPS) (ext : L2Ext E F) cfg (st : L2St ext) o q (pg : E -> R -> result E) (h : heap E) x0 z0 vx0 vz0 tau niter h' x z tr,
  l2_d cfg = NoB o -> l2_q cfg = Some q -> holds h x0 vx0 -> holds h z0 vz0 -> 0 < tau -> (0 < niter)%nat ->
  hHQS (l2_hprox ext cfg st) (hp_fresh pg) h (Some x0) [tau] niter (Some z0) false = Ok (h', x, z, tr) ->
  holds h' z0 (vz0 [-] (tau * l2_alpha cfg) [*] q).
Proof.
  intros E F ext cfg st o q pg h x0 z0 vx0 vz0 tau niter h' x z tr Hd Hq Hx Hz Ht Hn. unfold hHQS. cbn [hx0z0 bind].
  destruct (for_loop (hhqs_body _ _ _ _) _ _ _) as [[s k]|e] eqn:L; cbn [bind fst snd]; [|discriminate]. intro H; inversion H; subst.
  set (w := vz0 [-] (tau * l2_alpha cfg) [*] q).
  assert (INV : (k = 0%nat /\ hh_z s = z0 /\ holds (hh_h s) z0 vz0) \/ (hh_z s <> z0 /\ holds (hh_h s) z0 w)).
  { assert (ST : (0%nat = 0%nat /\ hh_z (HHQ h x0 z0 []) = z0 /\ holds (hh_h (HHQ h x0 z0 [])) z0 vz0) \/ (hh_z (HHQ h x0 z0 []) <> z0 /\ holds (hh_h (HHQ h x0 z0 [])) z0 w)) by (left; cbn; auto).
    refine (proj1 (for_loop_inv _ (fun j s => (j = 0%nat /\ hh_z s = z0 /\ holds (hh_h s) z0 vz0) \/ (hh_z s <> z0 /\ holds (hh_h s) z0 w)) niter 0 _ s k _ ST L)).
    intros j u u' b HI HB. right. unfold hhqs_body in HB. destruct (getitem _ j) as [tj|] eqn:Eg; cbn [bind] in HB; [|discriminate].
    assert (tj = tau). { unfold getitem, hqs_taus in Eg. destruct (nth_error (repeat tau niter) j) eqn:En; [|discriminate]. apply nth_error_In, repeat_spec in En. congruence. } subst tj.
    assert (CASE : exists vz, holds (hh_h u) (hh_z u) vz /\ (hh_z u = z0 -> vz = vz0) /\ (hh_z u <> z0 -> holds (hh_h u) z0 w) /\ exists v', holds (hh_h u) z0 v').
    { destruct HI as [[_ [-> HI]]|[Hne HI]]; [exists vz0; split; auto; split; auto; split; [congruence|eauto]|].
      unfold l2_hprox, hp_scratch, rd in HB. destruct (nth_error (hh_h u) (hh_z u)) as [vz|] eqn:En; [|discriminate]. exists vz. split; [exact En|]. split; [congruence|]. split; [auto|eauto]. }
    destruct CASE as (vz & C1 & C2 & C3 & C4). destruct (l2_writes E F ext cfg st o q (hh_h u) (hh_z u) vz tau Hd Hq Ht C1) as [E1 _]. rewrite E1 in HB. cbn [bind fst snd] in HB.
    set (w1 := vz [-] (tau * l2_alpha cfg) [*] q) in *. set (vx := / _ [*] w1) in *. set (h1 := wr (hh_h u) (hh_z u) w1 ++ [vx]) in *.
    assert (Hx1 : holds h1 (length (hh_h u)) vx) by (unfold h1; rewrite <- (wr_len (hh_h u) (hh_z u) w1); apply holds_alloc).
    unfold hp_fresh in HB. rewrite (rd_holds _ _ _ Hx1) in HB. cbn [bind] in HB. destruct (pg vx tau) as [vp|]; cbn [bind fst snd alloc] in HB; [|discriminate]. inversion HB; subst. cbn [hh_h hh_z].
    destruct C4 as [v' C4]. pose proof (holds_lt _ _ _ C4) as LT. split.
    - unfold h1. rewrite app_length, wr_len. lia.
    - apply keeps_app. unfold h1. apply keeps_app. destruct (Nat.eq_dec (hh_z u) z0) as [Ez|Nz].
      + specialize (C2 Ez). subst vz. unfold w1. rewrite Ez in *. eapply wr_same; exact C1.
      + eapply wr_other; [|exact (C3 Nz)]. congruence. }
  destruct INV as [[-> _]|[_ INV]]; [|exact INV]. exfalso. pose proof (for_loop_inv (hhqs_body (l2_hprox ext cfg st) (hp_fresh pg) (hqs_taus [tau] niter) false) (fun _ _ => True) niter 0 _ s 0%nat (fun _ _ _ _ _ _ => I) I L) as [_ [_ HK]]. specialize (HK ltac:(lia)). lia.
Qed.
(*! C79_point_history_refuted : with an operator that stores its result in its argument (Intersection), all the arrays that ProximalPoint hands to the
   callback are one and the same array, which ends up holding the last iterate *)
Lemma pp_history : forall (E : IPS) (f : Op E) (h : heap E) x0 v tau niter tol h' x tr, holds h x0 v ->
  hProximalPoint (hp_inplace (o_prox f)) f h x0 tau niter tol = Ok (h', x, tr) -> Forall (eq x) tr.
Proof.
  intros E f h x0 v tau niter tol h' x tr Hx. unfold hProximalPoint. rewrite (copy_ok _ _ _ Hx). cbn [bind fst snd].
  destruct (for_loop _ _ _ _) as [[s k]|e] eqn:L; cbn [bind fst snd]; [|discriminate]. intro H; inversion H; subst.
  assert (ST : Forall (eq (hpp_x (HPP (h ++ [v]) (length h) None []))) (hpp_tr (HPP (h ++ [v]) (length h) None []))) by constructor.
  refine (proj1 (for_loop_inv _ (fun _ s => Forall (eq (hpp_x s)) (hpp_tr s)) niter 0 _ s k _ ST L)).
  intros j u u' b HI HB. unfold hpp_body, hp_inplace in HB. destruct (rd (hpp_h u) (hpp_x u)) as [vx|]; cbn [bind] in HB; [|discriminate]. destruct (o_prox f vx tau) as [w|]; cbn [bind fst snd] in HB; [|discriminate].
  assert (A : Forall (eq (hpp_x u)) (hpp_tr u ++ [hpp_x u])) by (apply Forall_app; split; auto).
  destruct tol as [tl|]; [|inversion HB; subst; exact A]. destruct (rd _ _) as [a|]; cbn [bind] in HB; [|discriminate]. destruct (get_val f a); cbn [bind] in HB; [|discriminate]. destruct (rel_stop _ _ _ _); cbn [bind] in HB; [|discriminate].
  inversion HB; subst. exact A.
Qed.
(*! C79_moreau_grad : the inherited gradient of the Moreau envelope is (x - prox(x)) / sigmame when prox leaves its argument alone *)
Lemma grad_reads : forall (E : IPS) (H : hprox E) f s (h : heap E) r x p, reads_only H f -> holds h r x -> f x s = Ok p ->
  exists h' g, h_moreau_grad H s h r = Ok (h', g) /\ holds h' g (/ s [*] (x [-] p)) /\ keeps h h'.
Proof.
  intros E H f s h r x p HR Hx Hp. specialize (HR h r x s Hx). rewrite Hp in HR. destruct HR as (h1 & r1 & E1 & H1 & K & _). unfold h_moreau_grad. rewrite E1. cbn [bind fst snd].
  rewrite (ex2_ok h1 r r1 _ x p (K _ _ Hx) H1). eexists _, _. split; [reflexivity|]. split; [apply holds_alloc|]. eapply keeps_trans; [exact K|apply keeps_app].
Qed.
(*! C79_moreau_grad_refuted : for an operator that stores its result in its argument (Intersection) the inherited gradient is always zero, and the
   caller's array is overwritten with the proximal point *)
Lemma grad_inplace : forall (E : IPS) f s (h : heap E) r x p, holds h r x -> f x s = Ok p ->
  exists h' g, h_moreau_grad (hp_inplace f) s h r = Ok (h', g) /\ holds h' g vzero /\ holds h' r p.
Proof.
  intros E f s h r x p Hx Hp. unfold h_moreau_grad, hp_inplace. rewrite (rd_holds _ _ _ Hx). cbn [bind]. rewrite Hp. cbn [bind fst snd].
  assert (H1 : holds (wr h r p) r p) by (eapply wr_same; exact Hx). rewrite (ex2_ok (wr h r p) r r _ p p H1 H1). eexists _, _. split; [reflexivity|].
  replace (/ s [*] (p [-] p)) with (vzero : E) by vring. split; [apply holds_alloc|apply keeps_app, H1].
Qed.

(** ** PPXA and Sum *)
Ltac rd_all F := let H := fresh in pose proof (mapM_rd _ _ _ F) as H;
  match type of H with ?l = ?rr => match goal with |- context [@bind ?A ?B (M_Multi.mapM ?a ?b) ?k] => replace (@bind A B (M_Multi.mapM a b) k) with (@bind A B rr k) by (apply (f_equal (fun z => @bind A B z k)); symmetry; exact H) end end; clear H.
(*! C79_ppxa_refuted : PPXA on f1 = L2(q=q) and f2 = L2() over the reals, with x0 = 0, tau = 1/2, eta = 1, equal weights and any tolerance up to |q|/4, returns
   (1 - niter) q/2 - q/2^(niter+1), which grows without bound, while the minimiser of f1 + f2 is -q/2 *)
Lemma ppxa_div : forall (F : IPS) (ext : L2Ext R_IPS F) cfg cfg' (st st' : L2St ext) o o' (q : R) (h : heap R_IPS) x0 tol niter,
  l2_d cfg = NoB o -> l2_q cfg = Some (q : R_IPS) -> l2_alpha cfg = 1 -> st_sigma st = 1 -> l2_d cfg' = NoB o' -> l2_q cfg' = None -> st_sigma st' = 1 ->
  holds h x0 (0 : R_IPS) -> tol <= Rabs q / 4 ->
  (exists h' tr, hPPXA [l2_hprox ext cfg st; l2_hprox ext cfg' st'] h (HCommon x0) (/ 2) 1 (Some [/ 2; / 2]) niter Rabs (Some tol)
     = Ok (h', ((1 - INR niter) / 2 * q - q * (/ 2) ^ (niter + 1) : R_IPS), tr)) /\
  (forall u : R_IPS, is_min (eadd (etot (l2_call ext cfg st)) (etot (l2_call ext cfg' st'))) u <-> u = (- / 2 * q : R)).
Proof.
  intros F ext cfg cfg' st st' o o' q h x0 tol niter Hd Hq Ha Hs Hd' Hq' Hs' Hx Htol. split.
  - set (X := fun n => (1 - INR n) / 2 * q - q * (/ 2) ^ (n + 1)). set (D := fun n => - q / 2 + q / 2 * (/ 2) ^ n). set (S := fun n => X n - INR n * q / 2).
    unfold hPPXA. cbn [length bind]. rewrite (rd_holds _ _ _ Hx). cbn [bind repeat]. destruct (allocs_ok [(0 : R_IPS); (0 : R_IPS)] h) as [K0 F0]. cbn [allocs alloc fst snd length Nat.eqb andb negb] in *.
    rewrite (mapM_rd _ _ _ F0). cbn [bind]. set (x1 := vmean _).
    assert (E0 : x1 = (0 : R)) by (unfold x1, vmean; cbn; ring). rewrite E0. clear x1 E0.
    set (hh := (h ++ _) ++ _) in *.
    match goal with |- context [for_loop ?b ?n ?i (HPX _ ?ys _ _ _)] =>
      destruct (loop_reach b (fun j s => (exists r1 r2, hx_y s = [r1; r2] /\ r1 <> r2 /\ holds (hx_h s) r1 (S j + D j : R_IPS) /\ holds (hx_h s) r2 (S j - D j : R_IPS)) /\ hx_x s = (X j : R_IPS) /\ hx_old s = (X j : R_IPS)) n i (HPX hh ys (0 : R_IPS) (0 : R_IPS) [])) as [s [E1 [_ [E2 _]]]] end.
    + intros j s Hj [(r1 & r2 & Ey & Hne & HY1 & HY2) [EX EO]]. unfold hppxa_body. cbn [M_Multi.mapM]. assert (EP : pydiv (/ 2) (/ 2) = Ok 1). { unfold pydiv. destruct (Reqb_spec (/ 2) 0) as [[? ?]|[_ ->]]; [lra|]. f_equal. field. }
      rewrite EP. cbn [bind]. rewrite Ey. cbn [hprox_all].
      destruct (l2_writes R_IPS F ext cfg st o q (hx_h s) r1 (S j + D j : R_IPS) 1 Hd Hq ltac:(lra) HY1) as [-> _]. rewrite Ha, Hs. cbn [bind fst snd].
      set (w1 := (S j + D j : R_IPS) [-] (1 * 1) [*] (q : R_IPS)). set (p1 := / (1 + 1 * 1) [*] w1). set (h1 := wr (hx_h s) r1 w1 ++ [p1]).
      assert (A1 : holds h1 r1 w1) by (apply keeps_app; eapply wr_same; exact HY1). assert (A2 : holds h1 r2 (S j - D j : R_IPS)) by (apply keeps_app; eapply wr_other; [congruence|exact HY2]).
      assert (A3 : holds h1 (length (hx_h s)) p1) by (unfold h1; rewrite <- (wr_len (hx_h s) r1 w1); apply holds_alloc).
      pose proof (call_reads (l2_hprox ext cfg' st') _ h1 r2 (S j - D j : R_IPS) 1 (l2_reads R_IPS F ext cfg' st' (or_introl Hq')) A2) as HC. cbn beta in HC.
      rewrite (l2_value R_IPS F ext cfg' st' o' _ 1 Hd' Hq' ltac:(lra)), Hs' in HC. destruct (l2_hprox ext cfg' st' h1 r2 1) as [[h2 rp2]|e]; cbn in HC; [|contradiction]. destruct HC as (B1 & B2 & _). cbn [bind fst snd].
      assert (FP : Forall2 (holds h2) [length (hx_h s); rp2] [p1; / (1 + 1 * 1) [*] (S j - D j : R_IPS)]) by (constructor; [apply B2, A3|constructor; [exact B1|constructor]]).
      assert (FY : Forall2 (holds h2) [r1; r2] [w1; (S j - D j : R_IPS)]) by (constructor; [apply B2, A1|constructor; [apply B2, A2|constructor]]).
      rd_all FP. cbn [bind]. rd_all FY. cbn [bind map2]. rewrite EX, EO. set (pn := wsum _ _).
      assert (EPN : pn = X (Datatypes.S j)). { unfold pn, wsum, p1, w1, S, D. cbn. unfold X. rewrite Nat.add_1_r, Nat.add_1_r. rewrite <- !tech_pow_Rmult. change (match j with O => 1 | Datatypes.S _ => INR j + 1 end) with (INR (Datatypes.S j)). rewrite S_INR. field. }
      set (x' := (X j : R_IPS) [+] 1 [*] (pn [-] (X j : R_IPS))). assert (EX' : x' = X (Datatypes.S j)) by (unfold x'; rewrite EPN; cbn; ring). unfold abs_stop. cbn [bind].
      assert (ST : Rltb (Rabs (x' [-] (X j : R_IPS))) tol = false).
      { apply Rltb_false. rewrite EX'. replace ((X (Datatypes.S j) : R_IPS) [-] (X j : R_IPS)) with ((- (/ 2) + / 2 * / 2 * (/ 2) ^ j) * q).
        - rewrite Rabs_mult. apply Rle_trans with (1 := Htol). rewrite (Rabs_left (- (/ 2) + _)).
          + assert ((/ 2) ^ j <= 1) by (rewrite <- (pow1 j); apply pow_incr; lra). pose proof (Rabs_pos q). replace (Rabs q / 4) with (/ 4 * Rabs q) by field. apply Rmult_le_compat_r; [auto|]. lra.
          + assert ((/ 2) ^ j <= 1) by (rewrite <- (pow1 j); apply pow_incr; lra). lra.
        - cbn. unfold X. rewrite !Nat.add_1_r, <- !tech_pow_Rmult, S_INR. field. }
      change (hx_old s) with (hx_old s). rewrite ST. eexists. split; [reflexivity|]. cbn [hx_h hx_y hx_x hx_old]. rewrite EX'. split; [|split; reflexivity].
      set (y1 := _ [+] 1 [*] _). set (y2 := _ [+] 1 [*] _). destruct (allocs_ok [y1; y2] h2) as [_ FA]. cbn [allocs alloc fst snd] in FA |- *.
      eexists _, _. split; [reflexivity|]. split; [rewrite app_length; cbn; lia|].
      assert (N1 : y1 = S (Datatypes.S j) + D (Datatypes.S j)). { unfold y1. rewrite EPN. unfold p1, w1, S, D. cbn -[INR pow]. unfold X. rewrite !Nat.add_1_r, <- !tech_pow_Rmult, S_INR. field. }
      assert (N2 : y2 = S (Datatypes.S j) - D (Datatypes.S j)). { unfold y2. rewrite EPN. unfold S, D. cbn -[INR pow]. unfold X. rewrite !Nat.add_1_r, <- !tech_pow_Rmult, S_INR. field. }
      inversion FA as [|? ? ? ? FA1 FA2]; subst. inversion FA2 as [|? ? ? ? FA3 _]; subst. rewrite <- N1, <- N2. auto.
    + assert (X0 : X 0%nat = 0) by (unfold X; simpl; field). assert (D0 : D 0%nat = 0) by (unfold D; simpl; field). assert (S0 : S 0%nat = 0) by (unfold S; rewrite X0; simpl; field).
      cbn [hx_y hx_h hx_x hx_old]. rewrite X0, D0, S0. split; [|split; reflexivity]. eexists _, _. split; [reflexivity|]. split; [rewrite app_length; cbn; lia|].
      inversion F0 as [|? ? ? ? FA1 FA2]; subst. inversion FA2 as [|? ? ? ? FA3 _]; subst. replace (0 + 0 : R) with 0 by ring. replace (0 - 0 : R) with 0 by ring. auto.
    + rewrite E1. cbn [bind fst snd]. rewrite E2. eexists _, _. reflexivity.
  - assert (EV : forall u : R_IPS, eval (eadd (etot (l2_call ext cfg st)) (etot (l2_call ext cfg' st'))) u = (u + / 2 * q) * (u + / 2 * q) - q * q / 4).
    { intro u. cbn [eval eadd etot]. unfold l2_call. rewrite Hd, Hd', Hq, Hq', Ha, Hs, Hs'. replace (norm u ^ 2) with (norm2 u) by (rewrite <- norm_sq; ring). unfold norm2. cbn. field. }
    intro u. split.
    + intros [_ H]. specialize (H (- / 2 * q : R_IPS) (conj I I)). rewrite !EV in H. pose proof (Rle_0_sqr (u + / 2 * q)) as S1. unfold Rsqr in S1. assert (Z : (u + / 2 * q) * (u + / 2 * q) = 0).
      { assert (Z0 : (- / 2 * q + / 2 * q) * (- / 2 * q + / 2 * q) = 0) by ring. lra. } apply Rsqr_0_uniq in Z. lra.
    + intros ->. split; [split; exact I|]. intros w _. rewrite !EV. pose proof (Rle_0_sqr (w + / 2 * q)) as S1. unfold Rsqr in S1. assert (Z0 : (- / 2 * q + / 2 * q) * (- / 2 * q + / 2 * q) = 0) by ring. lra.
Qed.
(*! C79_sum_refuted : parallel_dykstra_prox (the prox of a Sum of three functions) on L2(q=q), L2(), L2() over the reals, with equal weights, unit steps, x0 = 0 and any
   tolerance up to |q|/6, returns -niter q/6, which grows without bound; the proximal point of the weighted sum is -q/6 *)
Lemma sum_div : forall (F : IPS) (ext : L2Ext R_IPS F) cfg cfg' (st st' : L2St ext) o o' (q : R) (h : heap R_IPS) x0 tol niter,
  l2_d cfg = NoB o -> l2_q cfg = Some (q : R_IPS) -> l2_alpha cfg = 1 -> st_sigma st = 1 -> l2_d cfg' = NoB o' -> l2_q cfg' = None -> st_sigma st' = 1 ->
  holds h x0 (0 : R_IPS) -> tol <= Rabs q / 6 ->
  let f := etot (E := R_IPS) (l2_call ext cfg st) in let g := etot (E := R_IPS) (l2_call ext cfg' st') in
  (exists h', hparallel_dykstra_prox [l2_hprox ext cfg st; l2_hprox ext cfg' st'; l2_hprox ext cfg' st'] h x0 [1; 1; 1] [1; 1; 1] niter Rabs tol = Ok (h', (- INR niter * q / 6 : R_IPS))) /\
  (forall u : R_IPS, is_prox (escal (/ 3) (eadd f (eadd g g))) 1 (0 : R_IPS) u <-> u = (- q / 6 : R)).
Proof.
  intros F ext cfg cfg' st st' o o' q h x0 tol niter Hd Hq Ha Hs Hd' Hq' Hs' Hx Htol f g. split.
  - set (X := fun n => - INR n * q / 6). set (Z := fun n => - INR n * q / 3).
    unfold hparallel_dykstra_prox. assert (EN : normalise [1; 1; 1] = Ok [/ 3; / 3; / 3]).
    { unfold normalise. cbn [Rsum M_Multi.mapM]. assert (EP : pydiv 1 (1 + (1 + (1 + 0))) = Ok (/ 3)). { unfold pydiv. destruct (Reqb_spec (1 + (1 + (1 + 0))) 0) as [[? ?]|[_ ->]]; [lra|]. f_equal. field. } cbn. rewrite EP. reflexivity. }
    rewrite EN. cbn [bind]. rewrite (rd_holds _ _ _ Hx). cbn [bind length repeat]. destruct (allocs_ok [(0 : R_IPS); (0 : R_IPS); (0 : R_IPS)] h) as [K0 F0]. cbn [allocs alloc fst snd] in *.
    set (hh := ((h ++ _) ++ _) ++ _) in *.
    match goal with |- context [for_loop ?bd ?nn ?ii (HDY _ _ ?ys)] =>
      destruct (loop_reach bd (fun j s => (exists r1 r2 r3 (a b c : R_IPS), hk_z s = [r1; r2; r3] /\ r1 <> r2 /\ r1 <> r3 /\ holds (hk_h s) r1 a /\ holds (hk_h s) r2 b /\ holds (hk_h s) r3 c /\ (a + b + c)%R = 3 * Z j) /\ hk_x s = (X j : R_IPS)) nn ii (HDY hh (0 : R_IPS) ys)) as [s [E1 [_ E2]]] end.
    + intros j s Hj [(r1 & r2 & r3 & a & b & c & Ey & N12 & N13 & HY1 & HY2 & HY3 & ES) EX]. unfold hdyk_body. rewrite Ey. cbn [hprox_all].
      destruct (l2_writes R_IPS F ext cfg st o q (hk_h s) r1 a 1 Hd Hq ltac:(lra) HY1) as [-> _]. rewrite Ha, Hs. cbn [bind fst snd].
      set (w1 := a [-] (1 * 1) [*] (q : R_IPS)). set (p1 := / (1 + 1 * 1) [*] w1). set (h1 := wr (hk_h s) r1 w1 ++ [p1]).
      assert (A1 : holds h1 r1 w1) by (apply keeps_app; eapply wr_same; exact HY1).
      assert (A2 : holds h1 r2 b) by (apply keeps_app; eapply wr_other; [congruence|exact HY2]). assert (A3 : holds h1 r3 c) by (apply keeps_app; eapply wr_other; [congruence|exact HY3]).
      assert (A4 : holds h1 (length (hk_h s)) p1) by (unfold h1; rewrite <- (wr_len (hk_h s) r1 w1); apply holds_alloc).
      pose proof (call_reads (l2_hprox ext cfg' st') _ h1 r2 b 1 (l2_reads R_IPS F ext cfg' st' (or_introl Hq')) A2) as HC. cbn beta in HC.
      rewrite (l2_value R_IPS F ext cfg' st' o' _ 1 Hd' Hq' ltac:(lra)), Hs' in HC. destruct (l2_hprox ext cfg' st' h1 r2 1) as [[h2 rp2]|e]; cbn [same fst snd] in HC; [|contradiction]. destruct HC as (B1 & B2 & _). cbn [bind fst snd].
      pose proof (call_reads (l2_hprox ext cfg' st') _ h2 r3 c 1 (l2_reads R_IPS F ext cfg' st' (or_introl Hq')) (B2 _ _ A3)) as HC. cbn beta in HC.
      rewrite (l2_value R_IPS F ext cfg' st' o' _ 1 Hd' Hq' ltac:(lra)), Hs' in HC. destruct (l2_hprox ext cfg' st' h2 r3 1) as [[h3 rp3]|e]; cbn [same fst snd] in HC; [|contradiction]. destruct HC as (C1 & C2 & _). cbn [bind fst snd].
      set (p2 := / (1 + 1 * 1) [*] b) in *. set (p3 := / (1 + 1 * 1) [*] c) in *.
      assert (FP : Forall2 (holds h3) [length (hk_h s); rp2; rp3] [p1; p2; p3]) by (repeat constructor; auto).
      assert (FY : Forall2 (holds h3) [r1; r2; r3] [w1; b; c]) by (repeat constructor; auto).
      rd_all FP. cbn [bind length Nat.eqb negb]. rd_all FY. cbn [bind map2]. rewrite EX. set (x' := wsum _ _).
      assert (EX' : x' = X (S j)). { unfold x', wsum, p1, p2, p3, w1. cbn. change (match j with O => 1 | S _ => INR j + 1 end) with (INR (S j)). unfold X. rewrite S_INR. unfold Z in ES. cbn in a, b, c. replace a with (3 * (- INR j * q / 3) - b - c) by lra. field. }
      assert (ST : Rltb (Rabs (x' [-] (X j : R_IPS))) tol = false).
      { apply Rltb_false. rewrite EX'. replace ((X (S j) : R_IPS) [-] (X j : R_IPS)) with (- (q / 6)) by (cbn -[INR]; unfold X; rewrite S_INR; field).
        rewrite Rabs_Ropp. replace (Rabs (q / 6)) with (Rabs q / 6) by (unfold Rdiv; rewrite Rabs_mult, (Rabs_right (/ 6)) by lra; reflexivity). exact Htol. }
      rewrite ST. eexists. split; [reflexivity|]. cbn [hk_h hk_z hk_x]. split; [|exact EX'].
      set (y1 := w1 [+] _ [-] _). set (y2 := b [+] _ [-] _). set (y3 := c [+] _ [-] _). destruct (allocs_ok [y1; y2; y3] h3) as [_ FA]. cbn [allocs alloc fst snd] in FA |- *.
      eexists _, _, _, y1, y2, y3. split; [reflexivity|]. split; [rewrite app_length; cbn; lia|]. split; [rewrite !app_length; cbn; lia|].
      inversion FA as [|? ? ? ? FA1 FA2]; subst. inversion FA2 as [|? ? ? ? FA3 FA4]; subst. inversion FA4 as [|? ? ? ? FA5 _]; subst. split; [exact FA1|]. split; [exact FA3|]. split; [exact FA5|].
      unfold y1, y2, y3. rewrite EX'. unfold p1, p2, p3, w1. unfold Z in ES |- *. cbn -[INR] in a, b, c, ES |- *. unfold X. rewrite S_INR. replace a with (3 * (- INR j * q / 3) - b - c) by lra. field.
    + cbn [hk_z hk_h hk_x]. split; [|unfold X; cbn; field]. eexists _, _, _, (0 : R_IPS), (0 : R_IPS), (0 : R_IPS). split; [reflexivity|]. split; [rewrite app_length; cbn; lia|]. split; [rewrite !app_length; cbn; lia|].
      inversion F0 as [|? ? ? ? FA1 FA2]; subst. inversion FA2 as [|? ? ? ? FA3 FA4]; subst. inversion FA4 as [|? ? ? ? FA5 _]; subst. split; [exact FA1|]. split; [exact FA3|]. split; [exact FA5|]. unfold Z. cbn. field.
    + rewrite E1. cbn [bind fst snd]. rewrite E2. eexists. reflexivity.
  - assert (EV : forall u : R_IPS, eval (escal (/ 3) (eadd f (eadd g g))) u + / (2 * 1) * norm2 (u [-] (0 : R_IPS)) = (u + q / 6) * (u + q / 6) - q * q / 36).
    { intro u. unfold f, g. cbn [eval eadd etot escal]. unfold l2_call. rewrite Hd, Hd', Hq, Hq', Ha, Hs, Hs'. replace (norm u ^ 2) with (norm2 u) by (rewrite <- norm_sq; ring). unfold norm2. cbn. field. }
    intro u. unfold is_prox. split.
    + intros [_ H]. specialize (H (- q / 6 : R_IPS) (conj I (conj I I))). rewrite !EV in H. pose proof (Rle_0_sqr (u + q / 6)) as S1. unfold Rsqr in S1. assert (Z : (u + q / 6) * (u + q / 6) = 0).
      { assert (Z0 : (- q / 6 + q / 6) * (- q / 6 + q / 6) = 0) by field. lra. } apply Rsqr_0_uniq in Z. lra.
    + intros ->. split; [split; [exact I|split; exact I]|]. intros w _. rewrite !EV. pose proof (Rle_0_sqr (w + q / 6)) as S1. unfold Rsqr in S1. assert (Z0 : (- q / 6 + q / 6) * (- q / 6 + q / 6) = 0) by field. lra.
Qed.

(*!ex C79_example : the hypotheses hold for L2(q=1) and L2() over the reals: the first operator overwrites its argument (it is confined but does not only read), the
   second only reads; and the by-value and the in-memory runs of Douglas-Rachford from 0 return -1/2 and -3/4 after two iterations *)
Lemma heap_example : let ext := mkL2Ext (fun _ x => x) unit (fun _ => tt) (fun _ x => x) (fun _ x _ _ => x) (fun _ _ x _ _ => x) : L2Ext R_IPS R_IPS in
  let c1 := mkL2 (NoB None) (Some (1 : R_IPS)) 1 false (fun _ => 1%nat) false Legacy DenseDefault in
  let c2 := mkL2 (NoB None) None 1 false (fun _ => 1%nat) false Legacy DenseDefault in
  let s1 := l2_init ext c1 1 None in let s2 := l2_init ext c2 1 None in
  let o1 := mkOp (fun _ => Ok (VNum 0)) (fun x t => snd (l2_prox ext c1 s1 x t)) (fun _ _ => Ok vzero) (fun _ => Ok None) false : Op R_IPS in
  let o2 := mkOp (fun _ => Ok (VNum 0)) (fun x t => snd (l2_prox ext c2 s2 x t)) (fun _ _ => Ok vzero) (fun _ => Ok None) false : Op R_IPS in
  confined (l2_hprox ext c1 s1) (o_prox o1) /\ ~ reads_only (l2_hprox ext c1 s1) (o_prox o1) /\ reads_only (l2_hprox ext c2 s2) (o_prox o2) /\
  (exists y tr, DouglasRachford o1 o2 (0 : R_IPS) 1 1 2 false = Ok ((- / 2 : R_IPS), y, tr)) /\
  (exists h' x y tr, hDouglasRachford (l2_hprox ext c1 s1) (l2_hprox ext c2 s2) [0 : R_IPS] 0%nat 1 1 2 false = Ok (h', x, y, tr) /\ holds h' x (- (3 / 4) : R_IPS)).
Proof.
  intros ext c1 c2 s1 s2 o1 o2. split; [apply l2_confined|]. split; [|split; [apply l2_reads; left; reflexivity|split]].
  - intro HR. specialize (HR [0 : R_IPS] 0%nat (0 : R_IPS) 1 eq_refl). destruct (l2_writes R_IPS R_IPS ext c1 s1 None (1 : R_IPS) [0 : R_IPS] 0%nat (0 : R_IPS) 1 eq_refl eq_refl ltac:(lra) eq_refl) as [E1 E2].
    cbn [o_prox o1] in HR. cbn beta in E2. rewrite E1, E2 in HR. destruct HR as (h' & r' & EQ & _ & K & _). inversion EQ; subst. specialize (K 0%nat (0 : R_IPS) eq_refl). cbn in K. inversion K. lra.
  - unfold DouglasRachford. cbn [for_loop]. unfold dr_body at 1. cbn [M_Split.d_y]. cbn [o_prox o1 o2].
    assert (V1 : forall x : R_IPS, snd (l2_prox ext c1 s1 x 1) = Ok ((/ 2 * (x - 1) : R_IPS))).
    { intro x. unfold l2_prox. destruct (Rleb_spec 1 0) as [[? ?]|[_ ->]]; [lra|]. cbn. f_equal. field. }
    assert (V2 : forall x : R_IPS, snd (l2_prox ext c2 s2 x 1) = Ok ((/ 2 * x : R_IPS))).
    { intro x. unfold l2_prox. destruct (Rleb_spec 1 0) as [[? ?]|[_ ->]]; [lra|]. cbn. f_equal. field. }
    rewrite V1. cbn [bind]. rewrite V2. cbn [bind fst snd M_Split.d_y M_Split.d_tr]. unfold dr_body at 1. cbn [M_Split.d_y M_Split.d_tr o_prox o1 o2]. rewrite V1. cbn [bind]. rewrite V2. cbn [bind fst snd M_Split.d_x M_Split.d_y M_Split.d_tr].
    eexists _, _. match goal with |- Ok (?a, _, _) = Ok (?b, _, _) => replace a with b; [reflexivity|] end. cbn. field.
  - destruct (dr_l2 R_IPS R_IPS ext c1 c2 s1 s2 None None (1 : R_IPS) [0 : R_IPS] 0%nat (0 : R_IPS) 2 eq_refl eq_refl eq_refl eq_refl eq_refl eq_refl eq_refl eq_refl ltac:(lia)) as [(h' & x & y & tr & E1 & HX & _) _].
    exists h', x, y, tr. split; [exact E1|]. replace (- (3 / 4) : R_IPS) with (-1 [*] (1 : R_IPS) [+] (/ 2) ^ 2 [*] ((0 : R_IPS) [+] (1 : R_IPS))); [exact HX|]. cbn. field.
Qed.
