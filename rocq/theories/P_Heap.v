(** * C79: operators that write into the array they are given, inside the solvers *)
From Verif Require Import Base Space Spec VSum MatFacts M_ProxOp M_Norms M_Loop M_PG M_Split M_Multi M_Dyk M_L2 M_Inter M_Heap LoopFacts.
From Verif Require Export S_Heap.
Open Scope result_scope.
Open Scope R_scope.

Section G.
Context {E : IPS}.
Implicit Types (h : heap E) (r : ref) (v : E) (H : hprox E) (f : E -> R -> result E).

Lemma same_bind {A B A' B'} (Q : A -> B -> Prop) (T : A' -> B' -> Prop) a b k k' :
  same Q a b -> (forall x y, Q x y -> same T (k x) (k' y)) -> same T (bind a k) (bind b k').
Proof. destruct a, b; cbn; intros HQ HK; try contradiction; auto. Qed.
Lemma same_imp {A B} (Q T : A -> B -> Prop) a b : same Q a b -> (forall x y, Q x y -> T x y) -> same T a b.
Proof. destruct a, b; cbn; auto. Qed.
Lemma same_loop {S T} (Q : S -> T -> Prop) b1 b2 n : forall i s t,
  (forall i s t, Q s t -> same (fun p q => Q (fst p) (fst q) /\ snd p = snd q) (b1 i s) (b2 i t)) -> Q s t ->
  same (fun p q => Q (fst p) (fst q) /\ snd p = snd q) (for_loop b1 n i s) (for_loop b2 n i t).
Proof.
  induction n as [|n IH]; intros i s t Hb Hq; cbn [for_loop]; [split; auto|].
  eapply same_bind; [apply Hb, Hq|]. intros [s' c] [t' d] [H1 H2]. cbn in *. subst d. destruct c; [split; auto|]. apply IH; auto.
Qed.

(** cells *)
Lemma holds_lt h r v : holds h r v -> (r < length h)%nat.
Proof. intro H. apply nth_error_Some. unfold holds in H. congruence. Qed.
Lemma holds_fun h r v w : holds h r v -> holds h r w -> v = w.
Proof. unfold holds; congruence. Qed.
Lemma rd_holds h r v : holds h r v -> rd h r = Ok v.
Proof. unfold holds, rd. now intros ->. Qed.
Lemma keeps_refl h : keeps h h. Proof. now intros i v. Qed.
Lemma keeps_trans h1 h2 h3 : keeps h1 h2 -> keeps h2 h3 -> keeps h1 h3.
Proof. intros A B i v H. auto. Qed.
Lemma keeps_len h h' : keeps h h' -> (length h <= length h')%nat.
Proof.
  intro K. destruct h as [|a h]; [cbn; lia|]. destruct (nth_error (a :: h) (length h)) eqn:En.
  - apply K, holds_lt in En. cbn. lia.
  - apply nth_error_None in En. cbn in En. lia.
Qed.
Lemma keeps_app h l : keeps h (h ++ l).
Proof. intros i v H. unfold holds. rewrite nth_error_app1; [exact H|eapply holds_lt; exact H]. Qed.
Lemma holds_alloc h v : holds (h ++ [v]) (length h) v.
Proof. unfold holds. rewrite nth_error_app2, Nat.sub_diag by lia. reflexivity. Qed.
Lemma ex2_ok h a b k va vb : holds h a va -> holds h b vb -> ex2 h a b k = Ok (h ++ [k va vb], length h).
Proof. intros Ha Hb. unfold ex2. rewrite (rd_holds _ _ _ Ha), (rd_holds _ _ _ Hb). reflexivity. Qed.
Lemma copy_ok h a va : holds h a va -> copy h a = Ok (h ++ [va], length h).
Proof. intros Ha. unfold copy. rewrite (rd_holds _ _ _ Ha). reflexivity. Qed.
Lemma wr_same h r v w : holds h r w -> holds (wr h r v) r v.
Proof. unfold holds. revert r; induction h as [|a h IH]; intros [|r]; cbn; try discriminate; auto. Qed.
Lemma wr_other h r v : keeps_but r h (wr h r v).
Proof. intros i w. unfold holds. revert r i; induction h as [|a h IH]; intros [|r] [|i]; cbn; auto; try congruence; intros Hn; apply IH; congruence. Qed.
Lemma wr_len h r v : length (wr h r v) = length h.
Proof. revert r; induction h as [|a h IH]; intros [|r]; cbn; auto. Qed.

Lemma reads_confined H f : reads_only H f -> confined H f.
Proof.
  intros HR h r x tau Hx. specialize (HR h r x tau Hx). destruct (f x tau) as [v|e]; [|exact HR].
  destruct HR as (h' & r' & E1 & H1 & K & Hr). exists h', r'. repeat split; auto.
  - intros i w _ Hi. auto.
  - exists x. auto.
Qed.
(** the three ways of using the argument *)
Lemma fresh_reads f : reads_only (hp_fresh f) f.
Proof.
  intros h r x tau Hx. unfold hp_fresh. rewrite (rd_holds _ _ _ Hx). cbn. destruct (f x tau) as [v|e]; cbn; [|reflexivity].
  exists (h ++ [v]), (length h). repeat split; [apply holds_alloc|apply keeps_app|right; lia].
Qed.
Lemma inplace_confined f : confined (hp_inplace f) f.
Proof.
  intros h r x tau Hx. unfold hp_inplace. rewrite (rd_holds _ _ _ Hx). cbn. destruct (f x tau) as [v|e]; cbn; [|reflexivity].
  exists (wr h r v), r. repeat split; [eapply wr_same; exact Hx|apply wr_other|exists v; eapply wr_same; exact Hx|auto].
Qed.
Lemma scratch_confined (f : E -> R -> result (E * E)) : confined (hp_scratch f) (fun x tau => p <- f x tau ;; Ok (snd p)).
Proof.
  intros h r x tau Hx. unfold hp_scratch. rewrite (rd_holds _ _ _ Hx). cbn. destruct (f x tau) as [[w v]|e]; cbn; [|reflexivity].
  exists (wr h r w ++ [v]), (length (wr h r w)). repeat split; [apply holds_alloc| |exists w; apply keeps_app; eapply wr_same; exact Hx|rewrite wr_len; auto].
  intros i u Hn Hi. apply keeps_app. eapply wr_other; eauto.
Qed.

(** an operator called on a fresh temporary *)
Lemma call_temp H f h v tau : confined H f ->
  same (fun p w => holds (fst p) (snd p) w /\ keeps h (fst p) /\ (length h <= snd p)%nat) (H (h ++ [v]) (length h) tau) (f v tau).
Proof.
  intro HC. specialize (HC (h ++ [v]) (length h) v tau (holds_alloc h v)). destruct (f v tau) as [w|e]; [|rewrite HC; reflexivity].
  destruct HC as (h' & r' & -> & H1 & K & _ & Hr). cbn. split; [exact H1|]. split.
  - intros i u Hi. apply K; [|apply keeps_app, Hi]. apply holds_lt in Hi. lia.
  - rewrite app_length in Hr. lia.
Qed.
Lemma call_reads H f h r x tau : reads_only H f -> holds h r x ->
  same (fun p w => holds (fst p) (snd p) w /\ keeps h (fst p) /\ (snd p = r \/ length h <= snd p)%nat) (H h r tau) (f x tau).
Proof.
  intros HC Hx. specialize (HC h r x tau Hx). destruct (f x tau) as [w|e]; [|rewrite HC; reflexivity].
  destruct HC as (h' & r' & -> & H1 & K & Hr). cbn. auto.
Qed.
Lemma call_conf H f h r x tau : confined H f -> holds h r x ->
  same (fun p w => holds (fst p) (snd p) w /\ keeps_but r h (fst p) /\ (exists w, holds (fst p) r w) /\ (snd p = r \/ length h <= snd p)%nat) (H h r tau) (f x tau).
Proof.
  intros HC Hx. specialize (HC h r x tau Hx). destruct (f x tau) as [w|e]; [|rewrite HC; reflexivity].
  destruct HC as (h' & r' & -> & H1 & K & Hw & Hr). cbn. auto.
Qed.

(** recorded pairs of arrays *)
Lemma trace_keep {A B} (P : heap E -> A -> B -> Prop) h h' l l' : (forall a b, P h a b -> P h' a b) -> Forall2 (P h) l l' -> Forall2 (P h') l l'.
Proof. intros K F. induction F; constructor; auto. Qed.
Lemma holds2_keep h h' p q : keeps h h' -> holds2 h p q -> holds2 h' p q.
Proof. intros K [A B]. split; auto. Qed.
End G.

(** ** Operators that do not touch their argument: the solvers of the other files *)
(*! C79_douglas_rachford : if the operator called first leaves its argument alone, DouglasRachfordSplitting returns exactly the vectors
   of the model that passes arrays by value, every array handed to the callback keeps its content until the end, and the
   caller's arrays are unchanged; the other operator may write into its argument *)
Lemma dr_sim : forall (E : IPS) (f g : Op E) (Hf Hg : hprox E) (h : heap E) (x0 : ref) (v : E) tau eta niter (gfirst : bool),
  (if gfirst then reads_only Hg (o_prox g) /\ confined Hf (o_prox f) else reads_only Hf (o_prox f) /\ confined Hg (o_prox g)) ->
  holds h x0 v ->
  same (fun p q => let '(h', x, y, tr) := p in let '(vx, vy, vtr) := q in
          holds h' x vx /\ holds h' y vy /\ Forall2 (holds2 h') tr vtr /\ keeps h h')
       (hDouglasRachford Hf Hg h x0 tau eta niter gfirst) (DouglasRachford f g v tau eta niter gfirst).
Proof.
  intros E f g Hf Hg h x0 v tau eta niter gfirst HH Hx. unfold hDouglasRachford, DouglasRachford. rewrite (copy_ok _ _ _ Hx). cbn [bind fst snd].
  set (Q := fun (s : hdr E) (t : dr_state E) => keeps h (hd_h s) /\ holds (hd_h s) (hd_y s) (M_Split.d_y t) /\
     (match hd_x s, M_Split.d_x t with Some x, Some vx => holds (hd_h s) x vx | None, None => True | _, _ => False end) /\ Forall2 (holds2 (hd_h s)) (hd_tr s) (M_Split.d_tr t)).
  assert (HALF : forall (H1 H2 : hprox E) (f1 f2 : Op E) hh y vy, reads_only H1 (o_prox f1) -> confined H2 (o_prox f2) -> holds hh y vy ->
     same (fun p q => let '(h', x, y') := p in holds h' x (fst q) /\ holds h' y' (snd q) /\ keeps hh h') (hdr_half H1 H2 tau eta hh y)
       (x <- o_prox f1 vy tau ;; p <- o_prox f2 (2 [*] x [-] vy) tau ;; Ok (x, vy [+] eta [*] (p [-] x)))).
  { intros H1 H2 f1 f2 hh y vy HR HC Hy. unfold hdr_half. eapply same_bind; [apply call_reads; eauto|]. intros [h1 x] vx (A1 & A2 & _). cbn [fst snd] in *.
    rewrite (ex2_ok h1 x y _ vx vy A1 (A2 _ _ Hy)). cbn [bind fst snd].
    eapply same_bind; [apply call_temp; eauto|]. intros [h2 p] vp (B1 & B2 & _). cbn [fst snd] in *.
    rewrite (ex2_ok h2 p x _ vp vx B1 (B2 _ _ A1)). cbn [bind fst snd].
    set (h3 := h2 ++ _). assert (K3 : keeps h2 h3) by apply keeps_app.
    rewrite (ex2_ok h3 y (length h2) _ vy (eta [*] (vp [-] vx)) (K3 _ _ (B2 _ _ (A2 _ _ Hy))) (holds_alloc _ _)). cbn [bind fst snd same].
    assert (K4 : keeps h2 (h3 ++ [vy [+] eta [*] (vp [-] vx)])) by (eapply keeps_trans; [exact K3|apply keeps_app]).
    split; [apply K4, B2, A1|]. split; [apply holds_alloc|]. eapply keeps_trans; [exact A2|]. eapply keeps_trans; [exact B2|exact K4]. }
  eapply same_bind.
  - apply (same_loop Q).
    + intros i s t (Q1 & Q2 & Q3 & Q4). unfold hdr_body, dr_body.
      eapply (same_bind (fun p q => let '(h', x, y') := p in holds h' x (fst q) /\ holds h' y' (snd q) /\ keeps (hd_h s) h')).
      * destruct gfirst; destruct HH as [HR HC]; eapply HALF; eauto.
      * intros [[h' x] y'] [vx vy] (A1 & A2 & A3). cbn [fst snd] in *. cbn. split; [|reflexivity]. repeat split; auto.
        -- eapply keeps_trans; eauto.
        -- apply Forall2_app; [|constructor; [split; auto|constructor]]. eapply trace_keep; [|exact Q4]. intros a b. apply holds2_keep, A3.
    + repeat split; cbn; auto; [apply keeps_app|apply holds_alloc].
  - intros [s k] [t k'] [(Q1 & Q2 & Q3 & Q4) _]. cbn [fst snd] in *. destruct (hd_x s), (M_Split.d_x t); try contradiction; cbn; auto.
Qed.

(*! C79_proximal_point : if the operator leaves its argument alone, ProximalPoint returns the vector of the by-value model, the arrays handed
   to the callback keep the successive iterates until the end, and the caller's arrays are unchanged *)
Lemma pp_sim : forall (E : IPS) (f : Op E) (H : hprox E) (h : heap E) (x0 : ref) (v : E) tau niter tol, reads_only H (o_prox f) -> holds h x0 v ->
  same (fun p q => let '(h', x, tr) := p in holds h' x (fst q) /\ Forall2 (holds h') tr (snd q) /\ keeps h h')
       (hProximalPoint H f h x0 tau niter tol) (ProximalPoint f v tau niter tol).
Proof.
  intros E f H h x0 v tau niter tol HR Hx. unfold hProximalPoint, ProximalPoint. rewrite (copy_ok _ _ _ Hx). cbn [bind fst snd].
  set (Q := fun (s : hpp E) (t : pp_state E) => keeps h (hpp_h s) /\ holds (hpp_h s) (hpp_x s) (pp_x t) /\ hpp_pf s = pp_pf t /\ Forall2 (holds (hpp_h s)) (hpp_tr s) (pp_tr t)).
  eapply same_bind.
  - apply (same_loop Q).
    + intros i s t (Q1 & Q2 & Q3 & Q4). unfold hpp_body, pp_body. eapply same_bind; [apply call_reads; eauto|]. intros [h1 x] vx (A1 & A2 & _). cbn [fst snd] in *.
      assert (TR : Forall2 (holds h1) (hpp_tr s ++ [x]) (pp_tr t ++ [vx])) by (apply Forall2_app; [|constructor; auto]; eapply trace_keep; [|exact Q4]; intros a b; apply A2).
      assert (K : keeps h h1) by (eapply keeps_trans; eauto).
      destruct tol as [tl|]; [|cbn; repeat split; auto]. rewrite (rd_holds _ _ _ A1), Q3. cbn [bind].
      destruct (get_val f vx) as [pf|e]; [|reflexivity]. cbn [bind]. destruct (rel_stop true tl pf (pp_pf t)); cbn; auto. repeat split; auto.
    + repeat split; cbn; auto; [apply keeps_app|apply holds_alloc].
  - intros [s k] [t k'] [(Q1 & Q2 & Q3 & Q4) _]. cbn. auto.
Qed.
(*! C79_proximal_point_value : the vector returned by ProximalPoint is right, and the caller's arrays are unchanged, even when the operator
   writes into its argument *)
Lemma pp_value : forall (E : IPS) (f : Op E) (H : hprox E) (h : heap E) (x0 : ref) (v : E) tau niter tol, confined H (o_prox f) -> holds h x0 v ->
  same (fun p q => let '(h', x, tr) := p in holds h' x (fst q) /\ keeps h h')
       (hProximalPoint H f h x0 tau niter tol) (ProximalPoint f v tau niter tol).
Proof.
  intros E f H h x0 v tau niter tol HR Hx. unfold hProximalPoint, ProximalPoint. rewrite (copy_ok _ _ _ Hx). cbn [bind fst snd].
  set (Q := fun (s : hpp E) (t : pp_state E) => keeps h (hpp_h s) /\ holds (hpp_h s) (hpp_x s) (pp_x t) /\ hpp_pf s = pp_pf t /\ (length h <= hpp_x s)%nat).
  eapply same_bind.
  - apply (same_loop Q).
    + intros i s t (Q1 & Q2 & Q3 & Q4). unfold hpp_body, pp_body. eapply same_bind; [apply call_conf; eauto|]. intros [h1 x] vx (A1 & A2 & _ & A4). cbn [fst snd] in *.
      assert (K : keeps h h1). { intros j w Hj. apply A2; [apply holds_lt in Hj; lia|apply Q1, Hj]. }
      assert (L : (length h <= x)%nat). { pose proof (keeps_len _ _ Q1). lia. }
      destruct tol as [tl|]; [|cbn; repeat split; auto]. rewrite (rd_holds _ _ _ A1), Q3. cbn [bind].
      destruct (get_val f vx) as [pf|e]; [|reflexivity]. cbn [bind]. destruct (rel_stop true tl pf (pp_pf t)); cbn; auto. repeat split; auto.
    + repeat split; cbn; auto; [apply keeps_app|apply holds_alloc].
  - intros [s k] [t k'] [(Q1 & Q2 & Q3 & Q4) _]. cbn. auto.
Qed.

Lemma init_sim {E : IPS} (h : heap E) (x0 z0 : option ref) (vx vz : option E) : holds_opt h x0 vx -> holds_opt h z0 vz ->
  same (fun p q => let '(h', x, z) := p in keeps h h' /\ holds h' x (fst q) /\ holds h' z (snd q)) (hx0z0 h x0 z0) (x0z0_init vx vz).
Proof.
  destruct x0 as [x|], vx as [vx|], z0 as [z|], vz as [vz|]; cbn; intros Hx Hz; try contradiction; auto.
  - repeat split; auto. apply keeps_refl.
  - rewrite (copy_ok _ _ _ Hx). cbn. repeat split; [apply keeps_app|apply keeps_app, Hx|apply holds_alloc].
  - rewrite (copy_ok _ _ _ Hz). cbn. repeat split; [apply keeps_app|apply holds_alloc|apply keeps_app, Hz].
Qed.
(*! C79_hqs : if neither operator touches its argument, HQS returns exactly the vectors of the by-value model, every array handed to the
   callback keeps its content, and the caller's arrays are unchanged *)
Lemma hqs_sim : forall (E : IPS) (f g : Op E) (Hf Hg : hprox E) (h : heap E) (x0 z0 : option ref) (vx0 vz0 : option E) tau niter (gfirst : bool),
  reads_only Hf (o_prox f) -> reads_only Hg (o_prox g) -> holds_opt h x0 vx0 -> holds_opt h z0 vz0 ->
  same (fun p q => let '(h', x, z, tr) := p in let '(vx, vz, vtr) := q in
          holds h' x vx /\ holds h' z vz /\ Forall2 (holds2 h') tr vtr /\ keeps h h')
       (hHQS Hf Hg h x0 tau niter z0 gfirst) (HQS f g vx0 tau niter vz0 gfirst).
Proof.
  intros E f g Hf Hg h x0 z0 vx0 vz0 tau niter gfirst HF HG Hx Hz. unfold hHQS, HQS.
  eapply same_bind; [apply init_sim; eauto|]. intros [[h0 x] z] [vx vz] (K0 & Hx' & Hz'). cbn [fst snd] in *.
  set (Q := fun (s : hhqs E) (t : hqs_state E) => keeps h (hh_h s) /\ holds (hh_h s) (hh_x s) (h_x t) /\ holds (hh_h s) (hh_z s) (h_z t) /\ Forall2 (holds2 (hh_h s)) (hh_tr s) (h_tr t)).
  eapply same_bind.
  - apply (same_loop Q).
    + intros i s t (Q1 & Q2 & Q3 & Q4). unfold hhqs_body, hqs_body. destruct (getitem (hqs_taus tau niter) i) as [tk|e]; [|reflexivity]. cbn [bind].
      eapply (same_bind (fun p q => let '(h', x, z) := p in holds h' x (fst q) /\ holds h' z (snd q) /\ keeps (hh_h s) h')).
      * destruct gfirst.
        -- eapply same_bind; [apply (call_reads Hg); eauto|]. intros [h1 z1] vz1 (A1 & A2 & _). cbn [fst snd] in *.
           eapply same_bind; [apply (call_reads Hf); eauto|]. intros [h2 x1] vx1 (B1 & B2 & _). cbn [fst snd] in *. cbn. repeat split; auto. eapply keeps_trans; eauto.
        -- eapply same_bind; [apply (call_reads Hf); eauto|]. intros [h1 x1] vx1 (A1 & A2 & _). cbn [fst snd] in *.
           eapply same_bind; [apply (call_reads Hg); eauto|]. intros [h2 z1] vz1 (B1 & B2 & _). cbn [fst snd] in *. cbn. repeat split; auto. eapply keeps_trans; eauto.
      * intros [[h' x1] z1] [vx1 vz1] (A1 & A2 & A3). cbn [fst snd] in *. cbn. split; [|reflexivity]. repeat split; auto.
        -- eapply keeps_trans; eauto.
        -- apply Forall2_app; [|constructor; [split; auto|constructor]]. eapply trace_keep; [|exact Q4]. intros a b. apply holds2_keep, A3.
    + repeat split; cbn; auto.
  - intros [s k] [t k'] [(Q1 & Q2 & Q3 & Q4) _]. cbn. auto.
Qed.
(*! C79_hqs_last : in HQS the variable computed last in an iteration (x with gfirst=True, z otherwise) is right even when the operators
   write into their arguments *)
Lemma hqs_last : forall (E : IPS) (f g : Op E) (Hf Hg : hprox E) (h : heap E) (x0 z0 : option ref) (vx0 vz0 : option E) tau niter (gfirst : bool),
  confined Hf (o_prox f) -> confined Hg (o_prox g) -> holds_opt h x0 vx0 -> holds_opt h z0 vz0 ->
  same (fun p q => let '(h', x, z, tr) := p in let '(vx, vz, vtr) := q in if gfirst then holds h' x vx else holds h' z vz)
       (hHQS Hf Hg h x0 tau niter z0 gfirst) (HQS f g vx0 tau niter vz0 gfirst).
Proof.
  intros E f g Hf Hg h x0 z0 vx0 vz0 tau niter gfirst HF HG Hx Hz. unfold hHQS, HQS.
  eapply same_bind; [apply init_sim; eauto|]. intros [[h0 x] z] [vx vz] (K0 & Hx' & Hz'). cbn [fst snd] in *.
  set (Q := fun (s : hhqs E) (t : hqs_state E) => if gfirst then holds (hh_h s) (hh_x s) (h_x t) else holds (hh_h s) (hh_z s) (h_z t)).
  eapply same_bind.
  - apply (same_loop Q).
    + intros i s t Q1. unfold hhqs_body, hqs_body. destruct (getitem (hqs_taus tau niter) i) as [tk|e]; [|reflexivity]. cbn [bind].
      eapply (same_bind (fun p q => let '(h', x, z) := p in if gfirst then holds h' x (fst q) else holds h' z (snd q))).
      * unfold Q in Q1. destruct gfirst.
        -- eapply same_bind; [apply (call_conf Hg); eauto|]. intros [h1 z1] vz1 (A1 & _). cbn [fst snd] in *.
           eapply same_bind; [apply (call_conf Hf); eauto|]. intros [h2 x1] vx1 (B1 & _). cbn [fst snd] in *. cbn. auto.
        -- eapply same_bind; [apply (call_conf Hf); eauto|]. intros [h1 x1] vx1 (A1 & _). cbn [fst snd] in *.
           eapply same_bind; [apply (call_conf Hg); eauto|]. intros [h2 z1] vz1 (B1 & _). cbn [fst snd] in *. cbn. auto.
      * intros [[h' x1] z1] [vx1 vz1] A1. cbn [fst snd] in *. cbn. unfold Q. cbn. auto.
    + unfold Q. cbn. destruct gfirst; auto.
  - intros [s k] [t k'] [Q1 _]. unfold Q in Q1. cbn. auto.
Qed.

(*! C79_admm : ADMM gives its operators temporaries only: whatever they write into their arguments, it returns exactly the vectors of the
   by-value model, the arrays handed to the callback keep their content, and the caller's arrays are unchanged *)
Lemma admm_sim : forall (E : IPS) (f g : Op E) (Hf Hg : hprox E) (h : heap E) (x0 z0 : option ref) (vx0 vz0 : option E) tau niter (gfirst : bool),
  confined Hf (o_prox f) -> confined Hg (o_prox g) -> holds_opt h x0 vx0 -> holds_opt h z0 vz0 ->
  same (fun p q => let '(h', x, z, tr) := p in let '(vx, vz, vtr) := q in
          holds h' x vx /\ holds h' z vz /\ Forall2 (holds2 h') tr vtr /\ keeps h h')
       (hADMM Hf Hg h x0 tau niter z0 gfirst) (ADMM f g vx0 tau niter vz0 gfirst).
Proof.
  intros E f g Hf Hg h x0 z0 vx0 vz0 tau niter gfirst HF HG Hx Hz. unfold hADMM, ADMM.
  eapply same_bind; [apply init_sim; eauto|]. intros [[h0 x] z] [vx vz] (K0 & Hx' & Hz'). cbn [fst snd alloc] in *.
  set (Q := fun (s : hadmm E) (t : admm_state E) => keeps h (ha_h s) /\ holds (ha_h s) (ha_x s) (a_x t) /\ holds (ha_h s) (ha_z s) (a_z t) /\ holds (ha_h s) (ha_u s) (a_u t) /\ Forall2 (holds2 (ha_h s)) (ha_tr s) (a_tr t)).
  eapply same_bind.
  - apply (same_loop Q).
    + intros i s t (Q1 & Q2 & Q3 & Q4 & Q5). unfold hadmm_body, admm_body.
      eapply (same_bind (fun p q => let '(h', x, z) := p in holds h' x (fst q) /\ holds h' z (snd q) /\ keeps (ha_h s) h')).
      * destruct gfirst.
        -- rewrite (ex2_ok (ha_h s) _ _ _ _ _ Q2 Q4). cbn [bind fst snd].
           eapply same_bind; [apply (call_temp Hg); eauto|]. intros [h1 z1] vz1 (A1 & A2 & _). cbn [fst snd] in *.
           rewrite (ex2_ok h1 _ _ _ _ _ A1 (A2 _ _ Q4)). cbn [bind fst snd].
           eapply same_bind; [apply (call_temp Hf); eauto|]. intros [h2 x1] vx1 (B1 & B2 & _). cbn [fst snd] in *. cbn. repeat split; auto. eapply keeps_trans; eauto.
        -- rewrite (ex2_ok (ha_h s) _ _ _ _ _ Q3 Q4). cbn [bind fst snd].
           eapply same_bind; [apply (call_temp Hf); eauto|]. intros [h1 x1] vx1 (A1 & A2 & _). cbn [fst snd] in *.
           rewrite (ex2_ok h1 _ _ _ _ _ A1 (A2 _ _ Q4)). cbn [bind fst snd].
           eapply same_bind; [apply (call_temp Hg); eauto|]. intros [h2 z1] vz1 (B1 & B2 & _). cbn [fst snd] in *. cbn. repeat split; auto. eapply keeps_trans; eauto.
      * intros [[h' x1] z1] [vx1 vz1] (A1 & A2 & A3). cbn [fst snd] in *.
        rewrite (ex2_ok h' _ _ _ _ _ (A3 _ _ Q4) A1). cbn [bind fst snd]. set (h3 := h' ++ _). assert (K3 : keeps h' h3) by apply keeps_app.
        rewrite (ex2_ok h3 (length h') z1 _ (a_u t [+] vx1) vz1 (holds_alloc _ _) (K3 _ _ A2)). cbn [bind fst snd same].
        assert (K4 : keeps h' (h3 ++ [a_u t [+] vx1 [-] vz1])) by (eapply keeps_trans; [exact K3|apply keeps_app]).
        assert (K5 : keeps (ha_h s) (h3 ++ [a_u t [+] vx1 [-] vz1])) by (eapply keeps_trans; eauto).
        split; [|reflexivity]. unfold Q. cbn [ha_h ha_x ha_z ha_u ha_tr a_x a_z a_u a_tr]. split; [eapply keeps_trans; eauto|]. split; [auto|]. split; [auto|]. split; [apply holds_alloc|].
        apply Forall2_app; [|constructor; [split; auto|constructor]]. eapply trace_keep; [|exact Q5]. intros a b. apply holds2_keep, K5.
    + repeat split; cbn; auto; try (apply keeps_app; solve [auto]); try apply holds_alloc. eapply keeps_trans; [exact K0|apply keeps_app].
  - intros [s k] [t k'] [(Q1 & Q2 & Q3 & Q4 & Q5) _]. cbn. auto.
Qed.

Section A.
Context {E : IPS}.
Implicit Types (h : heap E).
Lemma mapM_rd h rs vs : Forall2 (holds h) rs vs -> M_Multi.mapM (rd h) rs = Ok vs.
Proof. intro F. induction F as [|r v rs vs Hr F IH]; [reflexivity|]. cbn [M_Multi.mapM]. rewrite (rd_holds _ _ _ Hr), IH. reflexivity. Qed.
Lemma allocs_ok vs : forall h, keeps h (fst (allocs h vs)) /\ Forall2 (holds (fst (allocs h vs))) (snd (allocs h vs)) vs.
Proof.
  induction vs as [|v vs IH]; intro h; cbn [allocs fst snd alloc]; [split; [apply keeps_refl|constructor]|].
  destruct (IH (h ++ [v])) as [K F]. split; [eapply keeps_trans; [apply keeps_app|exact K]|]. constructor; [|exact F]. apply K, holds_alloc.
Qed.
Lemma Forall2_keep h h' (rs : list ref) (vs : list E) : keeps h h' -> Forall2 (holds h) rs vs -> Forall2 (holds h') rs vs.
Proof. intros K F. eapply trace_keep; [|exact F]. intros a b. apply K. Qed.
Lemma all_sim Hs (os : list (Op E)) : Forall2 (fun H o => reads_only H (o_prox o)) Hs os -> forall h ys vs taus, Forall2 (holds h) ys vs ->
  same (fun p q => Forall2 (holds (fst p)) (snd p) q /\ keeps h (fst p)) (hprox_all Hs h ys taus) (prox_all os vs taus).
Proof.
  intro F. induction F as [|H o Hs os HR F IH]; intros h ys vs taus Fy; cbn [hprox_all prox_all]; [cbn; split; [constructor|apply keeps_refl]|].
  destruct Fy as [|y v ys vs Hy Fy]; [reflexivity|]. destruct taus as [|t taus]; [reflexivity|].
  eapply same_bind; [apply call_reads; eauto|]. intros [h1 r] w (A1 & A2 & _). cbn [fst snd] in *.
  eapply same_bind; [apply IH, (Forall2_keep h h1); eauto|]. intros [h2 rs] ws [B1 B2]. cbn in *. split; [constructor; auto|eapply keeps_trans; eauto].
Qed.
Lemma tmps_sim Hs (os : list (Op E)) : Forall2 (fun H o => confined H (o_prox o)) Hs os -> forall h vs taus,
  same (fun p q => Forall2 (holds (fst p)) (snd p) q /\ keeps h (fst p)) (hprox_tmps Hs h vs taus) (prox_all os vs taus).
Proof.
  intro F. induction F as [|H o Hs os HR F IH]; intros h vs taus; cbn [hprox_tmps prox_all]; [cbn; split; [constructor|apply keeps_refl]|].
  destruct vs as [|v vs]; [reflexivity|]. destruct taus as [|t taus]; [reflexivity|].
  eapply same_bind; [apply call_temp; eauto|]. intros [h1 r] w (A1 & A2 & _). cbn [fst snd] in *.
  eapply same_bind; [apply IH|]. intros [h2 rs] ws [B1 B2]. cbn in *. split; [constructor; auto|eapply keeps_trans; eauto].
Qed.
Lemma Forall2_len {A B} (P : A -> B -> Prop) l l' : Forall2 P l l' -> length l = length l'.
Proof. induction 1; cbn; auto. Qed.
End A.

(*! C79_ppxa : if no operator touches its argument, PPXA returns exactly the vectors of the by-value model and the caller's arrays are
   unchanged *)
Lemma ppxa_sim : forall (E : IPS) (os : list (Op E)) (Hs : list (hprox E)) (h : heap E) x0 v0 tau eta weights niter (amax : E -> R) tol,
  Forall2 (fun H o => reads_only H (o_prox o)) Hs os -> holds_init h x0 v0 ->
  same (fun p q => let '(h', x, tr) := p in x = fst q /\ tr = snd q /\ keeps h h')
       (hPPXA Hs h x0 tau eta weights niter amax tol) (PPXA os v0 tau eta weights niter amax tol).
Proof.
  intros E os Hs h x0 v0 tau eta weights niter amax tol HF H0. unfold hPPXA, PPXA. rewrite (Forall2_len _ _ _ HF). set (m := length os).
  destruct (match weights with None => c <- pydiv 1 (INR m) ;; Ok (repeat c m) | Some w => Ok w end) as [w|e]; [|reflexivity]. cbn [bind].
  assert (HY : exists hy, (match x0 with HRows l => Ok (h, l) | HCommon x => v <- rd h x ;; Ok (allocs h (repeat v m)) end) = Ok hy /\ keeps h (fst hy) /\
     Forall2 (holds (fst hy)) (snd hy) (match v0 with PerFun l => l | Common x => repeat x m end)).
  { destruct x0 as [x|l], v0 as [v|l']; cbn in H0; try contradiction.
    - rewrite (rd_holds _ _ _ H0). cbn [bind]. eexists. split; [reflexivity|]. apply allocs_ok.
    - eexists. split; [reflexivity|]. split; [apply keeps_refl|exact H0]. }
  destruct HY as [[hh ys] [-> [K FY]]]. cbn [bind fst snd] in *. set (vs := match v0 with PerFun l => l | Common x => repeat x m end) in *.
  rewrite (Forall2_len _ _ _ FY). destruct (negb (Nat.eqb (length w) m && Nat.eqb (length vs) m)); [reflexivity|]. rewrite (mapM_rd _ _ _ FY). cbn [bind].
  set (Q := fun (s : hppxa E) (t : ppxa_state E) => keeps h (hx_h s) /\ Forall2 (holds (hx_h s)) (hx_y s) (px_y t) /\ hx_x s = px_x t /\ hx_old s = px_old t /\ hx_tr s = px_tr t).
  eapply same_bind.
  - apply (same_loop Q).
    + intros i s t (Q1 & Q2 & Q3 & Q4 & Q5). unfold hppxa_body, ppxa_body. destruct (M_Multi.mapM (pydiv tau) w) as [taus|e]; [|reflexivity]. cbn [bind]. unfold stack_all.
      pose proof (all_sim Hs os HF (hx_h s) (hx_y s) (px_y t) taus Q2) as HA.
      destruct (hprox_all Hs (hx_h s) (hx_y s) taus) as [[h1 rs]|e], (prox_all os (px_y t) taus) as [ps|e']; cbn in HA; try contradiction; [|subst; reflexivity]. destruct HA as [A1 A2].
      cbn [bind fst snd]. rewrite (mapM_rd _ _ _ A1). cbn [bind]. destruct ps as [|p0 ps]; [reflexivity|]. cbn [bind]. set (P := p0 :: ps) in *.
      rewrite (mapM_rd h1 _ _ (Forall2_keep _ _ _ _ A2 Q2)). cbn [bind]. rewrite Q3, Q4, Q5.
      destruct (abs_stop amax tol _) as [b|e]; [|reflexivity]. cbn. split; [|reflexivity].
      set (Y := map2 _ _ _). destruct (allocs_ok Y h1) as [B1 B2]. repeat split; auto. eapply keeps_trans; [exact Q1|]. eapply keeps_trans; eauto.
    + repeat split; auto.
  - intros [s k] [t k'] [(Q1 & Q2 & Q3 & Q4 & Q5) _]. cbn in *. auto.
Qed.
(*! C79_consensus_admm : ConsensusADMM gives its operators temporaries only: whatever they write into their arguments, it returns exactly
   the vectors of the by-value model and the caller's arrays are unchanged *)
Lemma cadmm_sim : forall (E : IPS) (os : list (Op E)) (Hs : list (hprox E)) (h : heap E) x0 v0 tau niter (amax : E -> R) tol,
  Forall2 (fun H o => confined H (o_prox o)) Hs os -> holds h x0 v0 ->
  same (fun p q => let '(h', x, tr) := p in x = fst q /\ tr = snd q /\ keeps h h')
       (hConsensusADMM Hs h x0 tau niter amax tol) (ConsensusADMM os v0 tau niter amax tol).
Proof.
  intros E os Hs h x0 v0 tau niter amax tol HF H0. unfold hConsensusADMM, ConsensusADMM. rewrite (rd_holds _ _ _ H0). cbn [bind]. rewrite (Forall2_len _ _ _ HF).
  set (Q := fun (s : hcadmm E) (t : cadmm_state E) => keeps h (hc_h s) /\ hc_xbar s = ca_xbar t /\ hc_old s = ca_old t /\ hc_y s = ca_y t /\ hc_tr s = ca_tr t).
  eapply same_bind.
  - apply (same_loop Q).
    + intros i s t (Q1 & Q2 & Q3 & Q4 & Q5). unfold hcadmm_body, cadmm_body, stack_all. rewrite (Forall2_len _ _ _ HF), Q2, Q3, Q4, Q5.
      set (vs := map _ _). set (taus := repeat _ _). pose proof (tmps_sim Hs os HF (hc_h s) vs taus) as HA.
      destruct (hprox_tmps Hs (hc_h s) vs taus) as [[h1 rs]|e], (prox_all os vs taus) as [ps|e']; cbn in HA; try contradiction; [|subst; reflexivity]. destruct HA as [A1 A2].
      cbn [bind fst snd]. rewrite (mapM_rd _ _ _ A1). cbn [bind]. destruct ps as [|p0 ps]; [reflexivity|]. cbn [bind].
      destruct (abs_stop amax tol _) as [b|e]; [|reflexivity]. cbn. split; [|reflexivity]. repeat split; auto. eapply keeps_trans; eauto.
    + repeat split; auto. apply keeps_refl.
  - intros [s k] [t k'] [(Q1 & Q2 & Q3 & Q4 & Q5) _]. cbn in *. auto.
Qed.
(*! C79_dykstra_prox : if no operator touches its argument, parallel_dykstra_prox (the prox of a Sum of three or more functions) returns exactly the
   vector of the by-value model and the caller's arrays are unchanged *)
Lemma dyk_sim : forall (E : IPS) (os : list (Op E)) (Hs : list (hprox E)) (h : heap E) x0 v0 weights taus niter (amax : E -> R) tol,
  Forall2 (fun H o => reads_only H (o_prox o)) Hs os -> holds h x0 v0 ->
  same (fun p q => snd p = q /\ keeps h (fst p)) (hparallel_dykstra_prox Hs h x0 weights taus niter amax tol) (parallel_dykstra_prox amax v0 os weights taus niter tol).
Proof.
  intros E os Hs h x0 v0 weights taus niter amax tol HF H0. unfold hparallel_dykstra_prox, parallel_dykstra_prox. destruct (normalise weights) as [w|e]; [|reflexivity]. cbn [bind].
  rewrite (rd_holds _ _ _ H0). cbn [bind]. rewrite (Forall2_len _ _ _ HF).
  set (Q := fun (s : hdyk E) (t : par_state) => keeps h (hk_h s) /\ hk_x s = pa_x t /\ Forall2 (holds (hk_h s)) (hk_z s) (pa_z t)).
  eapply same_bind.
  - apply (same_loop Q).
    + intros i s t (Q1 & Q2 & Q3). unfold hdyk_body, par_body. rewrite Q2.
      pose proof (all_sim Hs os HF (hk_h s) (hk_z s) (pa_z t) taus Q3) as HA.
      destruct (hprox_all Hs (hk_h s) (hk_z s) taus) as [[h1 rs]|e], (prox_all os (pa_z t) taus) as [ps|e']; cbn in HA; try contradiction; [|subst; reflexivity]. destruct HA as [A1 A2].
      cbn [bind fst snd]. rewrite (mapM_rd _ _ _ A1). cbn [bind]. destruct (negb _); [reflexivity|]. rewrite (mapM_rd h1 _ _ (Forall2_keep _ _ _ _ A2 Q3)). cbn. split; [|reflexivity].
      set (Y := map2 _ _ _). destruct (allocs_ok Y h1) as [B1 B2]. repeat split; auto. eapply keeps_trans; [exact Q1|]. eapply keeps_trans; eauto.
    + destruct (allocs_ok (repeat v0 (length os)) h) as [B1 B2]. repeat split; auto.
  - intros [s k] [t k'] [(Q1 & Q2 & Q3) _]. cbn in *. auto.
Qed.
