(** * C84: evaluating the functions for the log or the tolerance test changes nothing, unless [__call__] writes into its argument *)
From Coq Require Import String.
From Verif Require Import Base Space Spec VSum MatFacts M_ProxOp M_Norms M_Loop M_PG M_Split M_Multi M_PD M_Heap M_AndShow M_Show LoopFacts P_Heap.
From Verif Require Export S_Heap S_Show.
Open Scope result_scope.
Open Scope R_scope.

Section G.
Context {E : IPS}.
Implicit Types (h : heap E) (r : ref) (v : E) (H : hprox E) (C : hcall E).

Lemma so_same {A B} bad (Q : A -> B -> Prop) a b : same Q a b -> same_or bad Q a b.
Proof. destruct a, b; cbn; intros HQ; try contradiction; [eauto|left; congruence]. Qed.
Lemma so_bind {A B A' B'} bad (Q : A -> B -> Prop) (T : A' -> B' -> Prop) a b k k' :
  same_or bad Q a b -> (forall x y, Q x y -> same_or bad T (k x) (k' y)) -> same_or bad T (bind a k) (bind b k').
Proof. destruct a as [x|e]; cbn; intros HQ HK; [destruct HQ as (y & -> & HQ); cbn; auto|]. destruct HQ as [->|HB]; cbn; auto. Qed.
Lemma so_loop {S T} bad (Q : S -> T -> Prop) b1 b2 n : forall i s t,
  (forall i s t, Q s t -> same_or bad (fun p q => Q (fst p) (fst q) /\ snd p = snd q) (b1 i s) (b2 i t)) -> Q s t ->
  same_or bad (fun p q => Q (fst p) (fst q) /\ snd p = snd q) (for_loop b1 n i s) (for_loop b2 n i t).
Proof.
  induction n as [|n IH]; intros i s t Hb Hq; cbn [for_loop]; [cbn; eauto|].
  eapply so_bind; [apply Hb, Hq|]. intros [s' c] [t' d] [H1 H2]. cbn in *. subst d. destruct c; [cbn; eauto|]. apply IH; auto.
Qed.
(** a progress line that keeps the relation *)
Lemma so_line {S T} (bad : exn -> Prop) (Q : S -> T -> Prop) show niter i line (p : S * bool) (q : T * bool) :
  Q (fst p) (fst q) -> snd p = snd q ->
  (show = true -> forall s t, Q s t -> match line s with Ok s' => Q s' t | Err e => bad e end) ->
  same_or bad (fun p q => Q (fst p) (fst q) /\ snd p = snd q) (with_line show niter i line p) (Ok q).
Proof.
  intros HQ Hs HL. unfold with_line. destruct (show && logged niter i)%bool eqn:Hb.
  - apply andb_prop in Hb. destruct Hb as [-> _]. specialize (HL eq_refl _ _ HQ). destruct (line (fst p)) as [s'|e]; cbn; [|auto]. exists q. auto.
  - cbn. exists q. auto.
Qed.
Lemma call_only C c h r x : calls_only C c -> holds h r x -> same (fun p k => snd p = k /\ keeps h (fst p)) (C h r) (c x).
Proof. intros HC Hx. specialize (HC h r x Hx). destruct (c x) as [k|e]; [destruct HC as (h' & -> & K); cbn; auto|rewrite HC; reflexivity]. Qed.
Lemma line2_ok show (Cf Cg : hcall E) cf cg fmt h x v : show = true -> calls_only Cf cf -> calls_only Cg cg -> holds h x v ->
  match line2 Cf Cg fmt h x with Ok h' => keeps h h' | Err e => log_error show [cf; cg] fmt e end.
Proof.
  intros Hs Hf Hg Hx. unfold line2. pose proof (call_only Cf cf h x v Hf Hx) as A. destruct (Cf h x) as [[h1 k1]|e], (cf v) as [k|e'] eqn:Ec; cbn in A; try contradiction.
  2:{ subst e'. cbn. split; [exact Hs|]. exists v. left. exists cf. cbn. auto. }
  destruct A as [-> K1]. cbn [bind fst snd]. pose proof (call_only Cg cg h1 x v Hg (K1 _ _ Hx)) as A. destruct (Cg h1 x) as [[h2 k2]|e], (cg v) as [k'|e'] eqn:Ec'; cbn in A; try contradiction.
  2:{ subst e'. cbn. split; [exact Hs|]. exists v. left. exists cg. cbn. auto. }
  destruct A as [-> K2]. cbn [bind fst snd]. rewrite (rd_holds _ _ _ (K2 _ _ (K1 _ _ Hx))). cbn [bind].
  destruct (fmt v [k; k']) as [u|e] eqn:Ef; cbn; [eapply keeps_trans; eauto|]. split; [exact Hs|]. exists v. right. eauto.
Qed.

(** ** Operators *)
Lemma reads_calls (c : E -> result pyval) : calls_only (hc_reads c) c.
Proof. intros h r x Hx. unfold hc_reads. rewrite (rd_holds _ _ _ Hx). cbn. destruct (c x); cbn; [|reflexivity]. exists h. split; [reflexivity|apply keeps_refl]. Qed.
Lemma only_confined C c : calls_only C c -> calls_confined C c.
Proof. intros HC h r x Hx. specialize (HC h r x Hx). destruct (c x); [|exact HC]. destruct HC as (h' & E1 & K). exists h'. repeat split; auto; [|eauto]. intros i w _ Hi. auto. Qed.
Lemma new_makes (A : E -> E) : makes_new (hl_new A) A.
Proof. intros h r x Hx. unfold hl_new. rewrite (rd_holds _ _ _ Hx). cbn. exists (h ++ [A x]), (length h). repeat split; [apply holds_alloc|apply keeps_app|lia]. Qed.
Lemma new_lin (L : hlin E) A : makes_new L A -> lin_reads L A.
Proof. intros HL h r x Hx. destruct (HL h r x Hx) as (h' & r' & E1 & H1 & K & _). exists h', r'. auto. Qed.
Lemma self_lin : lin_reads (E:=E) hl_self (fun x => x).
Proof. intros h r x Hx. exists h, r. repeat split; auto. apply keeps_refl. Qed.
End G.

(*! C84_orthogonal_call : Orthogonal(f, Q, b=b)(x) evaluates f at Qx + b, and changes no array, if Q returns new arrays (f itself may write into
   its argument) *)
Lemma orth_call_only : forall (E : IPS) (L : hlin E) (A : E -> E) (b : E) (C : hcall E) (c : E -> result pyval), makes_new L A -> calls_confined C c ->
  calls_only (horth_call L b C) (fun x => c (A x [+] b)).
Proof.
  intros E L A b C c HL HC h r x Hx. unfold horth_call. destruct (HL h r x Hx) as (h1 & y & -> & Hy & K & Hn). cbn [bind fst snd].
  rewrite (rd_holds _ _ _ Hy). cbn [bind]. specialize (HC (wr h1 y (A x [+] b)) y (A x [+] b) (wr_same _ _ _ _ Hy)).
  destruct (c (A x [+] b)) as [k|e]; [|exact HC]. destruct HC as (h2 & E2 & K2 & _). exists h2. split; [exact E2|].
  intros i w Hi. assert (Hne : i <> y) by (apply holds_lt in Hi; lia). apply K2; [exact Hne|]. apply wr_other; auto.
Qed.
(*! C84_orthogonal_call_refuted : with an operator that returns the array it is given (pylops.Identity by default), Orthogonal(f, Q, b=b)(x) adds b to
   the caller's x: evaluating twice gives f(x + b), then f(x + 2b), and x holds x + 2b afterwards; the sum of that function and a
   linear term v, evaluated once, gives f(x + b) + <v, x + b> instead of f(x + b) + <v, x> *)
Lemma orth_call_self : forall (E : IPS) (b v : E) (c : E -> result pyval) (h : heap E) (r : ref) (x : E) k1 k2, holds h r x -> c (x [+] b) = Ok k1 -> c (x [+] b [+] b) = Ok k2 ->
  let C := horth_call hl_self b (hc_reads c) in
  (exists h1 h2, C h r = Ok (h1, k1) /\ holds h1 r (x [+] b) /\ C h1 r = Ok (h2, k2) /\ holds h2 r (x [+] b [+] b)) /\
  (exists h1, hsum_call C v h r = Ok (h1, VNum (as_num k1 + << v, x [+] b >>))).
Proof.
  intros E b v c h r x k1 k2 Hx E1 E2 C.
  assert (ST : forall h x k, holds h r x -> c (x [+] b) = Ok k -> C h r = Ok (wr h r (x [+] b), k) /\ holds (wr h r (x [+] b)) r (x [+] b)).
  { intros h' x' k Hx' Ek. pose proof (wr_same _ _ (x' [+] b) _ Hx') as Hw. split; [|exact Hw]. unfold C, horth_call, hl_self. cbn [bind fst snd].
    rewrite (rd_holds _ _ _ Hx'). cbn [bind]. unfold hc_reads. rewrite (rd_holds _ _ _ Hw). cbn [bind]. rewrite Ek. reflexivity. }
  destruct (ST h x k1 Hx E1) as [A1 B1]. destruct (ST _ _ k2 B1 E2) as [A2 B2]. split.
  - exists (wr h r (x [+] b)), (wr (wr h r (x [+] b)) r (x [+] b [+] b)). auto.
  - exists (wr h r (x [+] b)). unfold hsum_call. rewrite A1. cbn [bind fst snd]. rewrite (rd_holds _ _ _ B1). reflexivity.
Qed.

Lemma bind_ok_r {A} (a : result A) : bind a Ok = a.
Proof. destruct a; reflexivity. Qed.
Lemma admm_step : forall (E : IPS) (f g : Op E) (Hf Hg : hprox E) tau (gfirst : bool) i (h : heap E) (s : hadmm E) (t : admm_state E),
  confined Hf (o_prox f) -> confined Hg (o_prox g) ->
  let Q := fun (s : hadmm E) (t : admm_state E) => keeps h (ha_h s) /\ holds (ha_h s) (ha_x s) (a_x t) /\ holds (ha_h s) (ha_z s) (a_z t) /\ holds (ha_h s) (ha_u s) (a_u t) /\ Forall2 (holds2 (ha_h s)) (ha_tr s) (a_tr t) in
  Q s t -> same (fun p q => Q (fst p) (fst q) /\ snd p = snd q) (hadmm_body Hf Hg tau gfirst i s) (admm_body f g tau gfirst i t).
Proof.
  intros E f g Hf Hg tau gfirst i h s t HF HG Q (Q1 & Q2 & Q3 & Q4 & Q5). unfold hadmm_body, admm_body.
  eapply (same_bind (fun p q => let '(h', x, z) := p in holds h' x (fst q) /\ holds h' z (snd q) /\ keeps (ha_h s) h')).
      * destruct gfirst.
        -- rewrite (ex2_ok (ha_h s) _ _ _ _ _ Q2 Q4). cbn [bind fst snd].
           eapply same_bind; [apply (call_temp Hg); eauto|]. intros [h1 z1] vz1 (A1 & A2 & _). cbn [fst snd] in *.
           rewrite (ex2_ok h1 _ _ _ _ _ A1 (A2 _ _ Q4)). cbn [bind fst snd].
           eapply same_bind; [apply (call_temp Hf); eauto|]. intros [h2 x1] vx1 (B1 & B2 & _). cbn [fst snd] in *. cbn. repeat split; auto. eapply keeps_trans; eauto.
        -- rewrite (ex2_ok (ha_h s) _ _ _ _ _ Q3 Q4). cbn [bind fst snd].
           eapply same_bind; [apply (call_temp Hf); eauto|]. intros [h1 x1] vx1 (A1 & A2 & _). cbn [fst snd] in *.
           rewrite (ex2_ok h1 _ _ _ _ _ A1 (A2 _ _ Q4)). cbn [bind fst snd].
           eapply same_bind; [apply (call_temp Hg); eauto|]. intros [h2 z1] vz1 (B1 & B2 & _). cbn [fst snd] in *. cbn. repeat split; auto. eapply keeps_trans; eauto.
      * intros [[h' x1] z1] [vx1 vz1] (A1 & A2 & A3). cbn [fst snd] in *.
        rewrite (ex2_ok h' _ _ _ _ _ (A3 _ _ Q4) A1). cbn [bind fst snd]. set (h3 := h' ++ _). assert (K3 : keeps h' h3) by apply keeps_app.
        rewrite (ex2_ok h3 (length h') z1 _ (a_u t [+] vx1) vz1 (holds_alloc _ _) (K3 _ _ A2)). cbn [bind fst snd same].
        assert (K4 : keeps h' (h3 ++ [a_u t [+] vx1 [-] vz1])) by (eapply keeps_trans; [exact K3|apply keeps_app]).
        assert (K5 : keeps (ha_h s) (h3 ++ [a_u t [+] vx1 [-] vz1])) by (eapply keeps_trans; eauto).
        split; [|reflexivity]. unfold Q. cbn [ha_h ha_x ha_z ha_u ha_tr a_x a_z a_u a_tr]. split; [eapply keeps_trans; eauto|]. split; [auto|]. split; [auto|]. split; [apply holds_alloc|].
        apply Forall2_app; [|constructor; [split; auto|constructor]]. eapply trace_keep; [|exact Q5]. intros a b. apply holds2_keep, K5.
Qed.

Lemma dr_half_step (E : IPS) tau eta (H1 H2 : hprox E) (f1 f2 : Op E) hh y vy : reads_only H1 (o_prox f1) -> confined H2 (o_prox f2) -> holds hh y vy ->
  same (fun p q => let '(h', x, y') := p in holds h' x (fst q) /\ holds h' y' (snd q) /\ keeps hh h') (hdr_half H1 H2 tau eta hh y)
       (x <- o_prox f1 vy tau ;; p <- o_prox f2 (2 [*] x [-] vy) tau ;; Ok (x, vy [+] eta [*] (p [-] x))).
Proof.
  intros HR HC Hy. unfold hdr_half. eapply same_bind; [apply call_reads; eauto|]. intros [h1 x] vx (A1 & A2 & _). cbn [fst snd] in *.
    rewrite (ex2_ok h1 x y _ vx vy A1 (A2 _ _ Hy)). cbn [bind fst snd].
    eapply same_bind; [apply call_temp; eauto|]. intros [h2 p] vp (B1 & B2 & _). cbn [fst snd] in *.
    rewrite (ex2_ok h2 p x _ vp vx B1 (B2 _ _ A1)). cbn [bind fst snd].
    set (h3 := h2 ++ _). assert (K3 : keeps h2 h3) by apply keeps_app.
    rewrite (ex2_ok h3 y (length h2) _ vy (eta [*] (vp [-] vx)) (K3 _ _ (B2 _ _ (A2 _ _ Hy))) (holds_alloc _ _)). cbn [bind fst snd same].
    assert (K4 : keeps h2 (h3 ++ [vy [+] eta [*] (vp [-] vx)])) by (eapply keeps_trans; [exact K3|apply keeps_app]).
    split; [apply K4, B2, A1|]. split; [apply holds_alloc|]. eapply keeps_trans; [exact A2|]. eapply keeps_trans; [exact B2|exact K4].
Qed.

(** ** Solvers *)
(*! C84_proximal_point : ProximalPoint, with or without the log, returns the vector of the silent by-value run, the arrays handed to the callback keep
   the iterates and the caller's arrays are unchanged; the log can only add an exception raised by evaluating the function
   or printing a line *)
Lemma spp_sim : forall (E : IPS) (show : bool) (f : Op E) (H : hprox E) (C : hcall E) fmt (h : heap E) (x0 : ref) (v : E) tau niter tol,
  reads_only H (o_prox f) -> calls_only C (o_call f) -> holds h x0 v ->
  same_or (log_error show [o_call f] fmt) (fun p q => let '(h', x, tr) := p in holds h' x (fst q) /\ Forall2 (holds h') tr (snd q) /\ keeps h h')
       (sProximalPoint show H C fmt h x0 tau niter tol) (ProximalPoint f v tau niter tol).
Proof.
  intros E show f H C fmt h x0 v tau niter tol HR HC Hx. unfold sProximalPoint, ProximalPoint. rewrite (copy_ok _ _ _ Hx). cbn [bind fst snd].
  set (Q := fun (s : hpp E) (t : pp_state E) => keeps h (hpp_h s) /\ holds (hpp_h s) (hpp_x s) (pp_x t) /\ hpp_pf s = pp_pf t /\ Forall2 (holds (hpp_h s)) (hpp_tr s) (pp_tr t)).
  assert (QK : forall s t h', Q s t -> keeps (hpp_h s) h' -> Q (HPP h' (hpp_x s) (hpp_pf s) (hpp_tr s)) t).
  { intros s t h' (Q1 & Q2 & Q3 & Q4) K. repeat split; cbn; auto; [eapply keeps_trans; eauto|]. eapply trace_keep; [|exact Q4]. intros a b. apply K. }
  eapply so_bind.
  - apply (so_loop _ Q).
    + intros i s t (Q1 & Q2 & Q3 & Q4). unfold spp_body, pp_body. eapply so_bind; [apply so_same, call_reads; eauto|]. intros [h1 x] vx (A1 & A2 & _). cbn [fst snd] in *.
      assert (TR : Forall2 (holds h1) (hpp_tr s ++ [x]) (pp_tr t ++ [vx])) by (apply Forall2_app; [|constructor; auto]; eapply trace_keep; [|exact Q4]; intros a b; apply A2).
      assert (K : keeps h h1) by (eapply keeps_trans; eauto).
      destruct tol as [tl|].
      * unfold get_val. pose proof (call_only C _ h1 x vx HC A1) as A. destruct (C h1 x) as [[h2 k2]|e], (o_call f vx) as [k|e']; cbn in A; try contradiction; [|subst; cbn; auto].
        destruct A as [-> K2]. cbn [bind fst snd]. rewrite Q3. destruct (rel_stop true tl (as_num k) (pp_pf t)) as [st|e]; [|cbn; auto]. cbn [bind].
        apply so_line; [|reflexivity|].
        -- cbn. repeat split; cbn; auto; [eapply keeps_trans; eauto|]. eapply trace_keep; [|exact TR]. intros a b. apply K2.
        -- cbn [bind fst snd]. intros Hs s' t' HQ. destruct (HQ) as (P1 & P2 & _). rewrite (rd_holds _ _ _ P2). cbn [bind]. destruct (fmt (pp_x t') [k]) as [u|e] eqn:Ef; cbn.
           ++ apply QK; [exact HQ|apply keeps_refl].
           ++ split; [exact Hs|]. exists (pp_x t'). right. eauto.
      * cbn [bind]. apply so_line; [|reflexivity|].
        -- cbn. repeat split; cbn; auto.
        -- intros Hs s' t' HQ. destruct (HQ) as (P1 & P2 & _). pose proof (call_only C _ _ _ _ HC P2) as A.
           destruct (C (hpp_h s') (hpp_x s')) as [[h2 k2]|e], (o_call f (pp_x t')) as [k|e'] eqn:Ec; cbn in A; try contradiction.
           2:{ subst e'. cbn. split; [exact Hs|]. exists (pp_x t'). left. exists (o_call f). cbn. auto. }
           destruct A as [-> K2]. cbn [bind fst snd]. rewrite (rd_holds _ _ _ (K2 _ _ P2)). cbn [bind]. destruct (fmt (pp_x t') [k]) as [u|e] eqn:Ef; cbn.
           ++ apply QK; [exact HQ|exact K2].
           ++ split; [exact Hs|]. exists (pp_x t'). right. eauto.
    + repeat split; cbn; auto; [apply keeps_app|apply holds_alloc].
  - intros [s k] [t k'] [(Q1 & Q2 & Q3 & Q4) _]. cbn. eauto 6.
Qed.

(*! C84_hqs : the same for HQS *)
Lemma shqs_sim : forall (E : IPS) (show : bool) (f g : Op E) (Hf Hg : hprox E) (Cf Cg : hcall E) fmt (h : heap E) (x0 z0 : option ref) (vx0 vz0 : option E) tau niter (gfirst : bool),
  reads_only Hf (o_prox f) -> reads_only Hg (o_prox g) -> calls_only Cf (o_call f) -> calls_only Cg (o_call g) -> holds_opt h x0 vx0 -> holds_opt h z0 vz0 ->
  same_or (log_error show [o_call f; o_call g] fmt) (fun p q => let '(h', x, z, tr) := p in let '(vx, vz, vtr) := q in
          holds h' x vx /\ holds h' z vz /\ Forall2 (holds2 h') tr vtr /\ keeps h h')
       (sHQS show Hf Hg Cf Cg fmt h x0 tau niter z0 gfirst) (HQS f g vx0 tau niter vz0 gfirst).
Proof.
  intros E show f g Hf Hg Cf Cg fmt h x0 z0 vx0 vz0 tau niter gfirst HF HG HCf HCg Hx Hz. unfold sHQS, HQS.
  eapply so_bind; [apply so_same, init_sim; eauto|]. intros [[h0 x] z] [vx vz] (K0 & Hx' & Hz'). cbn [fst snd] in *.
  set (Q := fun (s : hhqs E) (t : hqs_state E) => keeps h (hh_h s) /\ holds (hh_h s) (hh_x s) (h_x t) /\ holds (hh_h s) (hh_z s) (h_z t) /\ Forall2 (holds2 (hh_h s)) (hh_tr s) (h_tr t)).
  eapply so_bind.
  - apply (so_loop _ Q).
    + intros i s t (Q1 & Q2 & Q3 & Q4). unfold shqs_body.
      assert (B : same (fun p q => Q (fst p) (fst q) /\ snd p = snd q) (hhqs_body Hf Hg (hqs_taus tau niter) gfirst i s) (hqs_body f g (hqs_taus tau niter) gfirst i t)).
      { unfold hhqs_body, hqs_body. destruct (getitem (hqs_taus tau niter) i) as [tk|e]; [|reflexivity]. cbn [bind].
        eapply (same_bind (fun p q => let '(h', x, z) := p in holds h' x (fst q) /\ holds h' z (snd q) /\ keeps (hh_h s) h')).
        * destruct gfirst.
          -- eapply same_bind; [apply (call_reads Hg); eauto|]. intros [h1 z1] vz1 (A1 & A2 & _). cbn [fst snd] in *.
             eapply same_bind; [apply (call_reads Hf); eauto|]. intros [h2 x1] vx1 (B1 & B2 & _). cbn [fst snd] in *. cbn. repeat split; auto. eapply keeps_trans; eauto.
          -- eapply same_bind; [apply (call_reads Hf); eauto|]. intros [h1 x1] vx1 (A1 & A2 & _). cbn [fst snd] in *.
             eapply same_bind; [apply (call_reads Hg); eauto|]. intros [h2 z1] vz1 (B1 & B2 & _). cbn [fst snd] in *. cbn. repeat split; auto. eapply keeps_trans; eauto.
        * intros [[h' x1] z1] [vx1 vz1] (A1 & A2 & A3). cbn [fst snd] in *. cbn. split; [|reflexivity]. repeat split; auto.
          -- eapply keeps_trans; eauto.
          -- apply Forall2_app; [|constructor; [split; auto|constructor]]. eapply trace_keep; [|exact Q4]. intros a b. apply holds2_keep, A3. }
      rewrite <- (bind_ok_r (hqs_body f g (hqs_taus tau niter) gfirst i t)). eapply so_bind; [apply so_same, B|].
      intros p q [HQ Hs]. apply so_line; auto. intros Hsh s' t' (P1 & P2 & P3 & P4). pose proof (line2_ok show Cf Cg _ _ fmt _ _ _ Hsh HCf HCg P2) as L.
      destruct (line2 Cf Cg fmt (hh_h s') (hh_x s')) as [h'|e]; cbn; [|exact L]. repeat split; cbn; auto; [eapply keeps_trans; eauto|].
      eapply trace_keep; [|exact P4]. intros a b. apply holds2_keep, L.
    + repeat split; cbn; auto.
  - intros [s k] [t k'] [(Q1 & Q2 & Q3 & Q4) _]. cbn. eexists. split; [reflexivity|]. cbn. auto.
Qed.
(*! C84_admm : the same for ADMM, whose proximal operators may write into their arguments *)
Lemma sadmm_sim : forall (E : IPS) (show : bool) (f g : Op E) (Hf Hg : hprox E) (Cf Cg : hcall E) fmt (h : heap E) (x0 z0 : option ref) (vx0 vz0 : option E) tau niter (gfirst : bool),
  confined Hf (o_prox f) -> confined Hg (o_prox g) -> calls_only Cf (o_call f) -> calls_only Cg (o_call g) -> holds_opt h x0 vx0 -> holds_opt h z0 vz0 ->
  same_or (log_error show [o_call f; o_call g] fmt) (fun p q => let '(h', x, z, tr) := p in let '(vx, vz, vtr) := q in
          holds h' x vx /\ holds h' z vz /\ Forall2 (holds2 h') tr vtr /\ keeps h h')
       (sADMM show Hf Hg Cf Cg fmt h x0 tau niter z0 gfirst) (ADMM f g vx0 tau niter vz0 gfirst).
Proof.
  intros E show f g Hf Hg Cf Cg fmt h x0 z0 vx0 vz0 tau niter gfirst HF HG HCf HCg Hx Hz. unfold sADMM, ADMM.
  eapply so_bind; [apply so_same, init_sim; eauto|]. intros [[h0 x] z] [vx vz] (K0 & Hx' & Hz'). cbn [fst snd alloc] in *.
  set (Q := fun (s : hadmm E) (t : admm_state E) => keeps h (ha_h s) /\ holds (ha_h s) (ha_x s) (a_x t) /\ holds (ha_h s) (ha_z s) (a_z t) /\ holds (ha_h s) (ha_u s) (a_u t) /\ Forall2 (holds2 (ha_h s)) (ha_tr s) (a_tr t)).
  eapply so_bind.
  - apply (so_loop _ Q).
    + intros i s t HQ0. unfold sadmm_body.
      rewrite <- (bind_ok_r (admm_body f g tau gfirst i t)). eapply so_bind; [apply so_same, (admm_step E f g Hf Hg tau gfirst i h s t HF HG HQ0)|].
      intros p q [HQ Hs]. apply so_line; auto. intros Hsh s' t' (P1 & P2 & P3 & P4 & P5). pose proof (line2_ok show Cf Cg _ _ fmt _ _ _ Hsh HCf HCg P2) as L.
      destruct (line2 Cf Cg fmt (ha_h s') (ha_x s')) as [h'|e]; cbn; [|exact L]. repeat split; cbn; auto; [eapply keeps_trans; eauto|].
      eapply trace_keep; [|exact P5]. intros a b. apply holds2_keep, L.
    + split; [eapply keeps_trans; [exact K0|apply keeps_app]|]. split; [apply keeps_app, Hx'|]. split; [apply keeps_app, Hz'|]. split; [apply holds_alloc|constructor].
  - intros [s k] [t k'] [(Q1 & Q2 & Q3 & Q4 & Q5) _]. cbn. eexists. split; [reflexivity|]. cbn. auto.
Qed.

(*! C84_douglas_rachford : the same for DouglasRachfordSplitting, if the operator called first leaves its argument alone *)
Lemma sdr_sim : forall (E : IPS) (show : bool) (f g : Op E) (Hf Hg : hprox E) (Cf Cg : hcall E) fmt (h : heap E) (x0 : ref) (v : E) tau eta niter (gfirst : bool),
  (if gfirst then reads_only Hg (o_prox g) /\ confined Hf (o_prox f) else reads_only Hf (o_prox f) /\ confined Hg (o_prox g)) ->
  calls_only Cf (o_call f) -> calls_only Cg (o_call g) -> holds h x0 v ->
  same_or (log_error show [o_call f; o_call g] fmt) (fun p q => let '(h', x, y, tr) := p in let '(vx, vy, vtr) := q in
          holds h' x vx /\ holds h' y vy /\ Forall2 (holds2 h') tr vtr /\ keeps h h')
       (sDouglasRachford show Hf Hg Cf Cg fmt h x0 tau eta niter gfirst) (DouglasRachford f g v tau eta niter gfirst).
Proof.
  intros E show f g Hf Hg Cf Cg fmt h x0 v tau eta niter gfirst HH HCf HCg Hx. unfold sDouglasRachford, DouglasRachford. rewrite (copy_ok _ _ _ Hx). cbn [bind fst snd].
  set (Q := fun (s : hdr E) (t : dr_state E) => keeps h (hd_h s) /\ holds (hd_h s) (hd_y s) (M_Split.d_y t) /\
     (match hd_x s, M_Split.d_x t with Some x, Some vx => holds (hd_h s) x vx | None, None => True | _, _ => False end) /\ Forall2 (holds2 (hd_h s)) (hd_tr s) (M_Split.d_tr t)).
  eapply so_bind.
  - apply (so_loop _ Q).
    + intros i s t (Q1 & Q2 & Q3 & Q4). unfold sdr_body.
      set (Q' := fun (s : hdr E) (t : dr_state E) => Q s t /\ exists x, hd_x s = Some x).
      assert (B : same (fun p q => Q' (fst p) (fst q) /\ snd p = snd q) (hdr_body Hf Hg tau eta gfirst i s) (dr_body f g tau eta gfirst i t)).
      { unfold hdr_body, dr_body.
        eapply (same_bind (fun p q => let '(h', x, y') := p in holds h' x (fst q) /\ holds h' y' (snd q) /\ keeps (hd_h s) h')).
        * destruct gfirst; destruct HH as [HR HC]; eapply dr_half_step; eauto.
        * intros [[h' x] y'] [vx vy] (A1 & A2 & A3). cbn [fst snd] in *. cbn. split; [|reflexivity]. split; [|cbn; eauto]. repeat split; auto.
          -- eapply keeps_trans; eauto.
          -- apply Forall2_app; [|constructor; [split; auto|constructor]]. eapply trace_keep; [|exact Q4]. intros a b. apply holds2_keep, A3. }
      rewrite <- (bind_ok_r (dr_body f g tau eta gfirst i t)). eapply so_bind; [apply so_same, B|]. intros p q [HQ Hs].
      assert (W : same_or (log_error show [o_call f; o_call g] fmt) (fun p q => Q' (fst p) (fst q) /\ snd p = snd q)
                    (with_line show niter i (fun s => match hd_x s with
                       | Some x => h <- line2 Cf Cg fmt (hd_h s) x ;; Ok (HDR h (hd_x s) (hd_y s) (hd_tr s)) | None => Err UnboundLocalError end) p) (Ok q)).
      { apply so_line; auto. intros Hsh s' t' [(P1 & P2 & P3 & P4) [x Ex]]. rewrite Ex in *. destruct (M_Split.d_x t') as [vx|] eqn:Ev; [|contradiction].
        pose proof (line2_ok show Cf Cg _ _ fmt _ _ _ Hsh HCf HCg P3) as L. destruct (line2 Cf Cg fmt (hd_h s') x) as [h'|e]; cbn; [|exact L].
        split; [|cbn; eauto]. split; [eapply keeps_trans; eauto|]. split; [cbn; auto|]. split; [cbn; rewrite Ev; auto|]. cbn. eapply trace_keep; [|exact P4]. intros a b. apply holds2_keep, L. }
      destruct (with_line show niter i _ p) as [p'|e]; cbn in W |- *; [|exact W]. destruct W as (y & E1 & [W _] & W'). exists y. auto.
    + repeat split; cbn; auto; [apply keeps_app|apply holds_alloc].
  - intros [s k] [t k'] [(Q1 & Q2 & Q3 & Q4) _]. cbn [fst snd] in *. destruct (hd_x s), (M_Split.d_x t); try contradiction; cbn; auto. eexists. split; [reflexivity|]. cbn. auto.
Qed.

(** one proximal step on a temporary *)
Lemma pg_step (E : IPS) (f g : Op E) (Hg : hprox E) e tau (h : heap E) a va : confined Hg (o_prox g) -> holds h a va ->
  same (fun p w => holds (fst p) (snd p) w /\ keeps h (fst p) /\ (length h <= snd p)%nat) (hpg_step f Hg e tau h a)
       (gr <- get_grad f va ;; o_prox g (va [-] tau [*] gr) (e * tau)).
Proof.
  intros HG Ha. unfold hpg_step. rewrite (rd_holds _ _ _ Ha). cbn [bind]. destruct (get_grad f va) as [gr|x]; [|reflexivity]. cbn [bind alloc fst snd].
  apply call_temp, HG.
Qed.
(*! C84_proximal_gradient : the same for ProximalGradient without backtracking, for every eta, acceleration and tolerance; the proximal operator of g
   may write into its argument *)
Lemma spg_sim : forall (E : IPS) (show : bool) (f g : Op E) (Hg : hprox E) (Cf Cg : hcall E) fmt (h : heap E) (x0 : ref) (v : E) epsg tau beta eta niter niterback accel tol,
  confined Hg (o_prox g) -> calls_only Cf (o_call f) -> calls_only Cg (o_call g) -> holds h x0 v ->
  same_or (log_error show [o_call f; o_call g] fmt) (fun p q => let '(h', x, tr) := p in holds h' x (fst q) /\ Forall2 (holds h') tr (snd q) /\ keeps h h')
       (sProximalGradient show f Hg Cf Cg fmt h x0 epsg tau eta niter accel tol)
       (ProximalGradient f g v epsg (Some tau) false beta eta niter niterback accel tol).
Proof.
  intros E show f g Hg Cf Cg fmt h x0 v epsg tau beta eta niter niterback accel tol HG HCf HCg Hx. unfold sProximalGradient, ProximalGradient.
  destruct (pg_epsg epsg niter) as [eps|ee]; [|cbn; auto]. cbn [bind]. destruct (accel_known accel); [|cbn; auto].
  rewrite (copy_ok _ _ _ Hx). cbn [bind fst snd]. rewrite (copy_ok (h ++ [v]) (length h) v (holds_alloc h v)). cbn [bind fst snd].
  set (Q := fun (s : hpg E) (t : pg_state E) => keeps h (hg_h s) /\ holds (hg_h s) (hg_x s) (pg_x t) /\ holds (hg_h s) (hg_y s) (pg_y t) /\ hg_t s = pg_t t /\ pg_tau t = tau /\
       hg_pfg s = pg_pfg t /\ Forall2 (holds (hg_h s)) (hg_tr s) (pg_tr t)).
  assert (QK : forall s t h', Q s t -> keeps (hg_h s) h' -> Q (HPG h' (hg_x s) (hg_y s) (hg_t s) (hg_pfg s) (hg_tr s)) t).
  { intros s t h' (Q1 & Q2 & Q3 & Q4 & Q5 & Q6 & Q7) K. repeat split; cbn; auto; [eapply keeps_trans; eauto|]. eapply trace_keep; [|exact Q7]. intros a b. apply K. }
  eapply so_bind.
  - apply (so_loop _ Q).
    + intros i s t (Q1 & Q2 & Q3 & Q4 & Q5 & Q6 & Q7). unfold spg_body, pg_body. rewrite (copy_ok _ _ _ Q2). cbn [bind fst snd].
      destruct (getitem eps i) as [e|ee]; [|cbn; auto]. cbn [bind]. set (h0 := hg_h s ++ [pg_x t]). assert (K0 : keeps (hg_h s) h0) by apply keeps_app.
      eapply (so_bind _ (fun p q => holds (fst p) (snd p) (fst q) /\ snd q = tau /\ keeps h0 (fst p))).
      * apply so_same. unfold pg_prox_step. rewrite Q5. destruct (Reqb eta 1).
        -- pose proof (pg_step E f g Hg e tau h0 _ _ HG (K0 _ _ Q3)) as A. destruct (hpg_step f Hg e tau h0 (hg_y s)) as [[h1 p]|e1], (get_grad f (pg_y t)) as [gr|e2]; cbn [bind] in A |- *;
             try destruct (o_prox g (pg_y t [-] tau [*] gr) (e * tau)) as [w|e3]; cbn in A |- *; try contradiction; auto. destruct A as (A1 & A2 & _). auto.
        -- pose proof (pg_step E f g Hg e tau h0 _ _ HG (K0 _ _ Q2)) as A. destruct (hpg_step f Hg e tau h0 (hg_x s)) as [[h1 p]|e1], (get_grad f (pg_x t)) as [gr|e2]; cbn [bind] in A |- *;
             try destruct (o_prox g (pg_x t [-] tau [*] gr) (e * tau)) as [w|e3]; cbn [bind same fst snd] in A |- *; try contradiction; auto. destruct A as (A1 & A2 & _).
           rewrite (ex2_ok h1 _ _ _ _ _ (A2 _ _ (K0 _ _ Q2)) A1). cbn. split; [apply holds_alloc|]. split; [reflexivity|]. eapply keeps_trans; [exact A2|apply keeps_app].
      * intros [h1 x] [vx tau'] (A1 & A2 & A3). cbn [fst snd] in *. subst tau'.
        rewrite (ex2_ok h1 x (length (hg_h s)) _ _ _ A1 (A3 _ _ (holds_alloc _ _))). cbn [bind fst snd]. rewrite Q4.
        set (t' := if accel_is accel "fista" then _ else _). set (om := if accel_is accel "vandenberghe" then _ else _). set (vy := vx [+] om [*] (vx [-] pg_x t)).
        set (h2 := h1 ++ [vy]). assert (K2 : keeps h1 h2) by apply keeps_app. assert (KK : keeps (hg_h s) h2) by (eapply keeps_trans; [exact K0|]; eapply keeps_trans; eauto).
        assert (TR : Forall2 (holds h2) (hg_tr s ++ [x]) (pg_tr t ++ [vx])). { apply Forall2_app; [|constructor; auto]. eapply trace_keep; [|exact Q7]. intros a b. apply KK. }
        destruct tol as [tl|].
        -- unfold get_val. pose proof (call_only Cf _ h2 x vx HCf (K2 _ _ A1)) as A. destruct (Cf h2 x) as [[h3 k3]|e3], (o_call f vx) as [k|e']; cbn in A; try contradiction; [|subst e'; cbn; auto].
           destruct A as [-> K3]. cbn [bind fst snd]. pose proof (call_only Cg _ h3 x vx HCg (K3 _ _ (K2 _ _ A1))) as A.
           destruct (Cg h3 x) as [[h4 k4]|e4], (o_call g vx) as [kg|e']; cbn in A; try contradiction; [|subst e'; cbn; auto].
           destruct A as [-> K4]. cbn [bind fst snd]. rewrite Q6. destruct (rel_stop false tl (as_num k + e * as_num kg) (pg_pfg t)) as [st|e5]; [|cbn; auto]. cbn [bind].
           assert (K24 : keeps h2 h4) by (eapply keeps_trans; eauto).
           apply so_line; [|reflexivity|].
           ++ cbn. split; [cbn; eapply keeps_trans; [exact Q1|]; eapply keeps_trans; eauto|]. split; [cbn; auto|]. split; [apply K24, holds_alloc|]. repeat split; auto.
              cbn. eapply trace_keep; [|exact TR]. intros a b. apply K24.
           ++ intros Hs s' q' HQ. destruct (HQ) as (P1 & P2 & _). rewrite (rd_holds _ _ _ P2). cbn [bind]. destruct (fmt (pg_x q') [k; kg]) as [u|e6] eqn:Ef; cbn; [exact HQ|].
              split; [exact Hs|]. exists (pg_x q'). right. eauto.
        -- cbn [bind]. apply so_line; [|reflexivity|].
           ++ cbn. split; [cbn; eapply keeps_trans; eauto|]. split; [cbn; auto|]. split; [apply holds_alloc|]. repeat split; auto.
           ++ intros Hs s' q' HQ. destruct (HQ) as (P1 & P2 & _). pose proof (line2_ok show Cf Cg _ _ fmt _ _ _ Hs HCf HCg P2) as L.
              destruct (line2 Cf Cg fmt (hg_h s') (hg_x s')) as [h'|e6]; cbn; [|exact L]. apply QK; auto.
    + split; [eapply keeps_trans; apply keeps_app|]. split; [apply keeps_app, holds_alloc|]. split; [cbn [hg_h hg_y]; change (length (h ++ [v])) with (length (h ++ [v])); apply holds_alloc|]. repeat split; auto; constructor.
  - intros [s k] [t k'] [(Q1 & Q2 & Q3 & Q4 & Q5 & Q6 & Q7) _]. cbn. eexists. split; [reflexivity|]. cbn. auto.
Qed.
