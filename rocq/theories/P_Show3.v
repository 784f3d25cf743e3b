(** * C84: what a [__call__] that writes into its argument does to the solvers; C57 and C84: the identity that returns its argument *)
From Coq Require Import String Psatz.
From Verif Require Import Base Space Spec SpecOps VSum MatFacts ConvexFacts M_ProxOp M_Norms M_Loop M_PG M_Split M_Multi M_PD M_Heap M_AndShow M_Show LoopFacts S_Seq S_PD Compact P_PD P_Iter2 P_Heap P_Show.
From Verif Require Export S_Heap S_Show.
Open Scope result_scope.
Open Scope R_scope.

(** ** ADMM *)
Lemma logged_last niter : (0 < niter)%nat -> logged niter (niter - 1) = true.
Proof. intro H. unfold logged. replace (niter - (niter - 1))%nat with 1%nat by lia. cbn [Nat.ltb Nat.leb]. now rewrite Bool.orb_true_r. Qed.
Lemma logged_small niter i : (niter <= 19)%nat -> (i < niter)%nat -> logged niter i = true.
Proof. intros H1 H2. unfold logged. destruct (Nat.ltb_spec i 10); [reflexivity|]. destruct (Nat.ltb_spec (niter - i) 10); [now rewrite Bool.orb_true_r|]. lia. Qed.

(*! C84_admm_refuted : switching the log on changes the result of ADMM when f is Orthogonal(f0, Q, b=b) with an operator Q that returns the array it is
   given (pylops.Identity by default): for every number of iterations the silent run returns (x, z) and the run with show=True
   returns (x + b, z) *)
Lemma admm_show : forall (E : IPS) (f g : Op E) (Hf Hg : hprox E) (c0 : E -> result pyval) (b : E) (Cg : hcall E) fmt (h : heap E) (x0 z0 : option ref) (vx0 vz0 : option E) tau niter vx vz vtr,
  confined Hf (o_prox f) -> confined Hg (o_prox g) -> (forall v, o_call f v = c0 (v [+] b)) -> calls_only Cg (o_call g) ->
  (forall v, exists k, c0 v = Ok k) -> (forall v, exists k, o_call g v = Ok k) -> (forall v l, fmt v l = Ok tt) -> holds_opt h x0 vx0 -> holds_opt h z0 vz0 -> (0 < niter)%nat ->
  ADMM f g vx0 tau niter vz0 false = Ok (vx, vz, vtr) ->
  let C := horth_call hl_self b (hc_reads c0) in
  (exists h' x z tr, sADMM false Hf Hg C Cg fmt h x0 tau niter z0 false = Ok (h', x, z, tr) /\ holds h' x vx /\ holds h' z vz) /\
  (exists h' x z tr, sADMM true Hf Hg C Cg fmt h x0 tau niter z0 false = Ok (h', x, z, tr) /\ holds h' x (vx [+] b) /\ holds h' z vz).
Proof.
  intros E f g Hf Hg c0 b Cg fmt h x0 z0 vx0 vz0 tau niter vx vz vtr HF HG Hc0 HCg T0 Tg Tf Hx Hz Hn HA C. split.
  - assert (S : same_or (fun _ => False) (fun p q => let '(h', x, z, tr) := p in let '(vx, vz, vtr) := q in holds h' x vx /\ holds h' z vz)
                 (sADMM false Hf Hg C Cg fmt h x0 tau niter z0 false) (ADMM f g vx0 tau niter vz0 false)).
    { unfold sADMM. pose proof (admm_sim E f g Hf Hg h x0 z0 vx0 vz0 tau niter false HF HG Hx Hz) as A. unfold hADMM in A.
      destruct (hx0z0 h x0 z0) as [[[h0 x] z]|e]; cbn [bind] in A |- *.
      2:{ destruct (ADMM f g vx0 tau niter vz0 false); cbn in A |- *; [contradiction|subst; auto]. }
      assert (EQ : forall n i s, for_loop (sadmm_body false niter Hf Hg C Cg fmt tau false) n i s = for_loop (hadmm_body Hf Hg tau false) n i s).
      { induction n as [|n IH]; intros i s; cbn [for_loop]; [reflexivity|]. unfold sadmm_body at 1, with_line. cbn [andb].
        destruct (hadmm_body Hf Hg tau false i s) as [p|e]; [|reflexivity]. cbn [bind]. destruct (snd p); [reflexivity|apply IH]. }
      rewrite EQ. destruct (for_loop _ _ _ _) as [r|e]; cbn [bind] in A |- *; destruct (ADMM f g vx0 tau niter vz0 false) as [[[qx qz] qt]|e']; cbn in A |- *; try contradiction; [|subst; auto].
      eexists. split; [reflexivity|]. cbn. tauto. }
    rewrite HA in S. destruct (sADMM false Hf Hg C Cg fmt h x0 tau niter z0 false) as [[[[h' x] z] tr]|e]; cbn in S; [|destruct S; [discriminate|contradiction]].
    destruct S as (q & Eq & S). injection Eq as <-. destruct S. eexists _, _, _, _. split; [reflexivity|]. auto.
  - assert (S : same (fun p q => let '(h', x, z, tr) := p in let '(vx, vz, vtr) := q in holds h' x (vx [+] b) /\ holds h' z vz)
                 (sADMM true Hf Hg C Cg fmt h x0 tau niter z0 false) (ADMM f g vx0 tau niter vz0 false)).
    { clear HA. unfold sADMM, ADMM. eapply same_bind; [apply init_sim; eauto|]. intros [[h0 x] z] [wx wz] (K0 & Hx' & Hz'). cbn [fst snd alloc] in *.
      set (Q := fun (s : hadmm E) (t : admm_state E) => holds (ha_h s) (ha_z s) (a_z t) /\ holds (ha_h s) (ha_u s) (a_u t)).
      assert (STEP : forall i s t, Q s t -> same (fun p q => Q (fst p) (fst q) /\ snd p = false /\ snd q = false /\
                 (logged niter i = true -> holds (ha_h (fst p)) (ha_x (fst p)) (a_x (fst q) [+] b)))
                 (sadmm_body true niter Hf Hg C Cg fmt tau false i s) (admm_body f g tau false i t)).
      { intros i s t (Q3 & Q4). unfold sadmm_body, hadmm_body, admm_body.
        rewrite (ex2_ok (ha_h s) _ _ _ _ _ Q3 Q4). cbn [bind fst snd].
        pose proof (call_temp Hf _ (ha_h s) (a_z t [-] a_u t) tau HF) as A. destruct (Hf _ _ tau) as [[h1 x1]|e], (o_prox f (a_z t [-] a_u t) tau) as [vx1|e']; cbn in A; try contradiction; [|subst; reflexivity].
        destruct A as (A1 & A2 & A3). cbn [bind fst snd]. rewrite (ex2_ok h1 _ _ _ _ _ A1 (A2 _ _ Q4)). cbn [bind fst snd].
        pose proof (call_temp Hg _ h1 (vx1 [+] a_u t) tau HG) as B. destruct (Hg _ _ tau) as [[h2 z1]|e], (o_prox g (vx1 [+] a_u t) tau) as [vz1|e']; cbn in B; try contradiction; [|subst; reflexivity].
        destruct B as (B1 & B2 & B3). cbn [bind fst snd]. rewrite (ex2_ok h2 _ _ _ _ _ (B2 _ _ (A2 _ _ Q4)) (B2 _ _ A1)). cbn [bind fst snd].
        set (h3 := h2 ++ [a_u t [+] vx1]). assert (K3 : keeps h2 h3) by apply keeps_app.
        rewrite (ex2_ok h3 _ _ _ _ _ (holds_alloc _ _) (K3 _ _ B1)). cbn [bind fst snd]. set (vu := a_u t [+] vx1 [-] vz1). set (h4 := h3 ++ [vu]).
        assert (K4 : keeps h3 h4) by apply keeps_app. assert (X4 : holds h4 x1 vx1) by auto. assert (Z4 : holds h4 z1 vz1) by auto. assert (U4 : holds h4 (length h3) vu) by apply holds_alloc.
        assert (NZ : z1 <> x1) by (apply holds_lt in A1; lia). assert (NU : length h3 <> x1). { intro. assert (x1 < length h3)%nat by (apply (holds_lt h3 x1 vx1); auto). lia. }
        unfold with_line. cbn [andb]. destruct (logged niter i); [|cbn; repeat split; auto; discriminate]. cbn [fst snd ha_h ha_x ha_z ha_u ha_tr].
        unfold line2, C, horth_call, hl_self. cbn [bind fst snd]. rewrite (rd_holds _ _ _ X4). cbn [bind].
        set (h5 := wr h4 x1 (vx1 [+] b)). assert (X5 : holds h5 x1 (vx1 [+] b)) by (eapply wr_same; exact X4). assert (K5 : keeps_but x1 h4 h5) by apply wr_other.
        unfold hc_reads. rewrite (rd_holds _ _ _ X5). cbn [bind]. destruct (T0 (vx1 [+] b)) as [k ->]. cbn [bind fst snd].
        pose proof (call_only Cg _ h5 x1 _ HCg X5) as D. destruct (Tg (vx1 [+] b)) as [kg Eg]. rewrite Eg in D. destruct (Cg h5 x1) as [[h6 k6]|e]; cbn in D; [|contradiction]. destruct D as [-> K6].
        cbn [bind fst snd]. rewrite (rd_holds _ _ _ (K6 _ _ X5)). cbn [bind]. rewrite Tf. cbn. repeat split; auto. }
      assert (LOOP : forall n i s t, (i + n = niter)%nat -> Q s t -> same (fun p q => Q (fst p) (fst q) /\ (n = O \/ holds (ha_h (fst p)) (ha_x (fst p)) (a_x (fst q) [+] b)))
                 (for_loop (sadmm_body true niter Hf Hg C Cg fmt tau false) n i s) (for_loop (admm_body f g tau false) n i t)).
      { induction n as [|n IH]; intros i s t Hi HQ; cbn [for_loop]; [cbn; auto|]. eapply same_bind; [apply STEP, HQ|]. intros [s' c] [t' d] (H1 & H2 & H3 & H4). cbn [fst snd] in *. subst c d.
        destruct n as [|n].
        - cbn. split; [exact H1|]. right. apply H4. replace i with (niter - 1)%nat by lia. apply logged_last. exact Hn.
        - eapply same_imp; [apply IH; [lia|exact H1]|]. intros p q [P1 [P2|P2]]; [discriminate|]. auto. }
      eapply same_bind; [apply (LOOP niter O); [reflexivity|]|].
      - split; [cbn; apply keeps_app, Hz'|apply holds_alloc].
      - intros [s k] [t k'] [[P1 P2] [P3|P3]]; cbn [fst snd] in *; [lia|]. cbn. auto. }
    rewrite HA in S. destruct (sADMM true Hf Hg C Cg fmt h x0 tau niter z0 false) as [[[[h' x] z] tr]|e]; cbn in S; [|contradiction]. destruct S. eexists _, _, _, _. split; [reflexivity|]. auto.
Qed.

(** ** ProximalPoint *)
Lemma loop_chain {T : Type} (body : nat -> T -> result (T * bool)) N (P : nat -> T -> Prop) :
  (forall i s, (i < N)%nat -> P i s -> exists s', body i s = Ok (s', false) /\ P (S i) s') ->
  forall n i s, (i + n = N)%nat -> P i s -> exists r, for_loop body n i s = Ok r /\ P N (fst r).
Proof.
  intros HB. induction n as [|n IH]; intros i s Hi HP; cbn [for_loop]; [eexists; split; [reflexivity|]; cbn [fst]; replace N with i by lia; exact HP|].
  destruct (HB i s) as (s' & -> & HP'); [lia|exact HP|]. cbn [bind fst snd]. apply (IH (S i)); [lia|exact HP'].
Qed.
Lemma prox_half (E : IPS) t (x p : E) : 0 < t -> is_prox (etot (fun v : E => norm2 v / 2)) t x p -> p = / (1 + t) [*] x.
Proof.
  intros Ht [_ Hm]. set (q := / (1 + t) [*] x). specialize (Hm q I). cbn in Hm.
  assert (EQ : forall y : E, norm2 y / 2 + / (2 * t) * norm2 (y [-] x) = norm2 q / 2 + / (2 * t) * norm2 (q [-] x) + (1 + t) / (2 * t) * norm2 (y [-] q)).
  { intro y. unfold q, norm2. iexp. field. lra. }
  rewrite (EQ p) in Hm. apply norm2_sub_eq0. pose proof (norm2_nonneg (p [-] q)). assert (0 < (1 + t) / (2 * t)) by (apply Rdiv_lt_0_compat; lra).
  set (c := (1 + t) / (2 * t)) in *. assert (c * norm2 (p [-] q) <= 0) by lra. destruct (Rle_lt_or_eq_dec _ _ H) as [H2|H2]; [|auto].
  pose proof (Rmult_lt_0_compat _ _ H0 H2). lra.
Qed.
Lemma orth_half_prox (E : IPS) (f0 : Op E) b fuel t (v : E) : impl_prox f0 (etot (fun v : E => norm2 v / 2)) -> 0 < t ->
  o_prox (obj (S fuel) (orth_body f0 (id_linop E) false b 1)) v t = Ok (/ (1 + t) [*] (v [+] b) [-] b).
Proof.
  intros HI Ht. cbn [obj o_prox]. unfold d_prox. cbn. unfold check_tau. destruct (Rleb_spec t 0) as [[H ->]|[H ->]]; [lra|]. cbn.
  destruct (HI (v [+] b) t Ht) as (p & -> & Hp). cbn. f_equal. f_equal. apply prox_half; auto.
Qed.

(*! C84_point_refuted : ProximalPoint on f = Orthogonal(f0, Q, b=b) with f0 = 1/2|.|^2 and an operator Q that returns the array it is given, that is on
   1/2|x + b|^2: silently, n iterations return -b + (1+tau)^(-n) (x0 + b), which tends to the minimiser -b; with show=True (n up
   to 19, so that every iteration is logged) they return b/tau + (1+tau)^(-n) (x0 - b/tau), which heads for b/tau *)
Lemma point_show : forall (E : IPS) fuel (f0 : Op E) (b : E) (H : hprox E) fmt (h : heap E) (x0 : ref) (v : E) tau n,
  let half := etot (fun v : E => norm2 v / 2) in let f := obj (S fuel) (orth_body f0 (id_linop E) false b 1) in let C := horth_call hl_self b (hc_reads (o_call f0)) in
  impl_prox f0 half -> impl_call f0 half -> confined H (o_prox f) -> (forall v l, fmt v l = Ok tt) -> holds h x0 v -> 0 < tau ->
  is_min (epre half (fun x => x [+] b)) (vopp b) /\
  (exists h' x tr, sProximalPoint false H C fmt h x0 tau n None = Ok (h', x, tr) /\ holds h' x (vopp b [+] (/ (1 + tau)) ^ n [*] (v [+] b))) /\
  ((n <= 19)%nat -> exists h' x tr, sProximalPoint true H C fmt h x0 tau n None = Ok (h', x, tr) /\
     holds h' x (/ tau [*] b [+] (/ (1 + tau)) ^ n [*] (v [-] / tau [*] b))).
Proof.
  intros E fuel f0 b H fmt h x0 v tau n half f C HI HCl HH Tf Hx Ht.
  split; [|split].
  - split; [exact I|]. intros y _. cbn. replace (vopp b [+] b) with (vzero : E) by (unfold vopp; vring). rewrite norm2_zero. pose proof (norm2_nonneg (y [+] b)). lra.
  - unfold sProximalPoint. rewrite (copy_ok _ _ _ Hx). cbn [bind fst snd].
    destruct (loop_chain (spp_body false n H C fmt tau None) n (fun k s => holds (hpp_h s) (hpp_x s) (vopp b [+] (/ (1 + tau)) ^ k [*] (v [+] b)))) with (n := n) (i := O) (s := HPP (h ++ [v]) (length h) None []) as (r & -> & Hr).
    + intros i s _ Hs. unfold spp_body. pose proof (call_conf H _ _ _ _ tau HH Hs) as W. unfold f in W. rewrite orth_half_prox in W by auto.
      destruct (H (hpp_h s) (hpp_x s) tau) as [[h1 x1]|e]; cbn in W; [|contradiction]. destruct W as (W1 & _). cbn [bind fst snd]. unfold with_line. cbn [andb]. eexists. split; [reflexivity|]. cbn.
      match goal with |- holds _ _ ?a => match type of W1 with holds _ _ ?c => replace a with c; [exact W1|] end end. set (q := (/ (1 + tau)) ^ i). unfold vopp. vfield. lra.
    + reflexivity.
    + cbn [hpp_h hpp_x]. match goal with |- holds _ _ ?a => replace a with v; [apply holds_alloc|] end. cbn [pow]. unfold vopp. vring.
    + cbn [bind]. eexists _, _, _. split; [reflexivity|exact Hr].
  - intro Hn. unfold sProximalPoint. rewrite (copy_ok _ _ _ Hx). cbn [bind fst snd].
    destruct (loop_chain (spp_body true n H C fmt tau None) n (fun k s => holds (hpp_h s) (hpp_x s) (/ tau [*] b [+] (/ (1 + tau)) ^ k [*] (v [-] / tau [*] b)))) with (n := n) (i := O) (s := HPP (h ++ [v]) (length h) None []) as (r & -> & Hr).
    + intros i s Hi Hs. unfold spp_body. pose proof (call_conf H _ _ _ _ tau HH Hs) as W. unfold f in W. rewrite orth_half_prox in W by auto.
      destruct (H (hpp_h s) (hpp_x s) tau) as [[h1 x1]|e]; cbn in W; [|contradiction]. destruct W as (W1 & _). cbn [bind fst snd]. unfold with_line.
      rewrite logged_small by assumption. cbn [andb fst snd hpp_h hpp_x hpp_pf hpp_tr]. unfold C, horth_call, hl_self. cbn [bind fst snd]. rewrite (rd_holds _ _ _ W1). cbn [bind].
      match goal with |- context [wr h1 x1 ?a] => set (w := a); set (h2 := wr h1 x1 w) end. assert (X2 : holds h2 x1 w) by (eapply wr_same; exact W1).
      unfold hc_reads. rewrite (rd_holds _ _ _ X2). cbn [bind]. rewrite (HCl w I). cbn [bind fst snd]. rewrite (rd_holds _ _ _ X2). cbn [bind]. rewrite Tf. cbn [bind]. eexists. split; [reflexivity|]. cbn [hpp_h hpp_x].
      match goal with |- holds _ _ ?a => replace a with w; [exact X2|] end. unfold w. cbn [pow]. set (q := (/ (1 + tau)) ^ i). vfield. lra.
    + reflexivity.
    + cbn [hpp_h hpp_x]. match goal with |- holds _ _ ?a => replace a with v; [apply holds_alloc|] end. cbn [pow]. vring.
    + cbn [bind]. eexists _, _, _. split; [reflexivity|exact Hr].
Qed.

(*! C84_point_tol_refuted : the same with a tolerance, without or with the log: started at 0 with tol=0 (never met), n iterations return
   (1 - (1+tau)^(-n)) b/tau for every n, and stay on the wrong side of 0 *)
Lemma point_tol : forall (E : IPS) fuel (show : bool) (f0 : Op E) (b : E) (H : hprox E) fmt (h : heap E) (x0 : ref) tau n,
  let half := etot (fun v : E => norm2 v / 2) in let f := obj (S fuel) (orth_body f0 (id_linop E) false b 1) in let C := horth_call hl_self b (hc_reads (o_call f0)) in
  impl_prox f0 half -> impl_call f0 half -> confined H (o_prox f) -> (forall v l, fmt v l = Ok tt) -> holds h x0 vzero -> 0 < tau -> b <> vzero ->
  exists h' x tr, sProximalPoint show H C fmt h x0 tau n (Some 0) = Ok (h', x, tr) /\ holds h' x ((1 - (/ (1 + tau)) ^ n) / tau [*] b).
Proof.
  intros E fuel show f0 b H fmt h x0 tau n half f C HI HCl HH Tf Hx Ht Hb.
  unfold sProximalPoint. rewrite (copy_ok _ _ _ Hx). cbn [bind fst snd].
  assert (Q : forall i, 0 < (/ (1 + tau)) ^ S i < 1).
  { intro i. assert (0 < / (1 + tau) < 1). { split; [apply Rinv_0_lt_compat; lra|]. rewrite <- Rinv_1. apply Rinv_lt_contravar; lra. }
    split; [apply pow_lt; lra|]. apply pow_lt_1_compat; [lra|lia]. }
  destruct (loop_chain (spp_body show n H C fmt tau (Some 0)) n (fun k s => holds (hpp_h s) (hpp_x s) ((1 - (/ (1 + tau)) ^ k) / tau [*] b) /\ (hpp_pf s = None \/ exists o, hpp_pf s = Some o /\ o <> 0)))
    with (n := n) (i := O) (s := HPP (h ++ [vzero]) (length h) None (@nil ref)) as (r & -> & Hr).
  + intros i s Hi [Hs Hpf]. unfold spp_body. pose proof (call_conf H _ _ _ _ tau HH Hs) as W. unfold f in W. rewrite orth_half_prox in W by auto.
    destruct (H (hpp_h s) (hpp_x s) tau) as [[h1 x1]|e]; cbn in W; [|contradiction]. destruct W as (W1 & _). cbn [bind fst snd].
    unfold C, horth_call, hl_self. cbn [bind fst snd]. rewrite (rd_holds _ _ _ W1). cbn [bind].
    match goal with |- context [wr h1 x1 ?a] => set (w := a); set (h2 := wr h1 x1 w) end. assert (X2 : holds h2 x1 w) by (eapply wr_same; exact W1).
    assert (Ew : w = (1 - (/ (1 + tau)) ^ S i) / tau [*] b) by (unfold w; cbn [pow]; set (q := (/ (1 + tau)) ^ i); vfield; lra).
    unfold hc_reads. rewrite (rd_holds _ _ _ X2). cbn [bind]. rewrite (HCl w I). cbn [bind fst snd as_num].
    assert (RS : rel_stop true 0 (eval half w) (hpp_pf s) = Ok false).
    { unfold rel_stop. destruct Hpf as [->|(o & -> & Ho)]; [destruct (Rltb_spec 1 0) as [[? ->]|[? ->]]; [lra|reflexivity]|].
      destruct (Reqb_spec o 0) as [[? ->]|[? ->]]; [contradiction|]. match goal with |- context [Rltb ?a 0] => destruct (Rltb_spec a 0) as [[X ->]|[X ->]]; [pose proof (Rabs_pos (1 - eval half w / o)); lra|reflexivity] end. }
    rewrite RS. cbn [bind]. assert (PF : eval half w <> 0).
    { cbn. rewrite Ew, norm2_scal. intro Z. apply Hb. apply norm2_eq0. specialize (Q i). assert (0 < (1 - (/ (1 + tau)) ^ S i) / tau) by (apply Rdiv_lt_0_compat; lra).
      set (c := (1 - (/ (1 + tau)) ^ S i) / tau) in *. assert (Z' : c * c * norm2 b = 0) by lra. apply Rmult_integral in Z'. destruct Z' as [Z'|Z']; [apply Rmult_integral in Z'; lra|exact Z']. }
    unfold with_line. destruct (show && logged n i)%bool.
    * cbn [fst snd hpp_h hpp_x hpp_pf hpp_tr bind]. rewrite (rd_holds _ _ _ X2). cbn [bind]. rewrite Tf. cbn [bind]. eexists. split; [reflexivity|]. cbn [hpp_h hpp_x hpp_pf]. split; [rewrite <- Ew; exact X2|]. right. eauto.
    * eexists. split; [reflexivity|]. cbn [hpp_h hpp_x hpp_pf]. split; [rewrite <- Ew; exact X2|]. right. eauto.
  + reflexivity.
  + cbn [hpp_h hpp_x hpp_pf]. split; [|auto]. match goal with |- holds _ _ ?a => replace a with (vzero : E); [apply holds_alloc|] end. cbn [pow]. replace ((1 - 1) / tau) with 0 by (field; lra). vring.
  + cbn [bind]. eexists _, _, _. split; [reflexivity|apply Hr].
Qed.
