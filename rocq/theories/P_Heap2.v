(** * C79: what the solvers compute with the library's operators that write into their argument *)
From Verif Require Import Base Space Spec VSum MatFacts M_ProxOp M_Norms M_Loop M_PG M_Split M_Multi M_Dyk M_L2 M_Inter M_Heap SpecOps LoopFacts P_L2 S_Inter P_Inter P_Heap.
From Verif Require Export S_Heap.
Open Scope result_scope.
Open Scope R_scope.

Lemma loop_reach {S} (body : nat -> S -> result (S * bool)) (P : nat -> S -> Prop) n : forall i s,
  (forall j s, (i <= j < i + n)%nat -> P j s -> exists s', body j s = Ok (s', false) /\ P (Datatypes.S j) s') -> P i s ->
  exists s', for_loop body n i s = Ok (s', (i + n)%nat) /\ P (i + n)%nat s'.
Proof.
  induction n as [|n IH]; intros i s Hb Hp; cbn [for_loop]; [exists s; rewrite Nat.add_0_r; auto|].
  destruct (Hb i s ltac:(lia) Hp) as [s1 [-> H1]]. cbn [bind fst snd]. destruct (IH (Datatypes.S i) s1) as [s' [E1 H2]]; [intros; apply Hb; auto; lia|exact H1|].
  rewrite <- Nat.add_succ_comm. eauto.
Qed.

(** ** L2 in the heap *)
(*! C79_l2_confined : L2.prox writes at most into its argument and computes the value of the by-value model *)
Lemma l2_confined : forall (E F : IPS) (ext : L2Ext E F) cfg (st : L2St ext), confined (l2_hprox ext cfg st) (fun x tau => snd (l2_prox ext cfg st x tau)).
Proof.
  intros E F ext cfg st h r x tau Hx. pose proof (scratch_confined (fun x tau => let '(_, x', res) := l2_prox ext cfg st x tau in v <- res ;; Ok (x', v)) h r x tau Hx) as H. cbn beta in H.
  destruct (l2_prox ext cfg st x tau) as [[st' x'] [v|e]] eqn:El; cbn [snd bind] in *; exact H.
Qed.
(*! C79_l2_reads : without a q-term, or with data b and no operator, or with an operator and a solver other than cgls, L2.prox changes no
   array *)
Lemma l2_reads : forall (E F : IPS) (ext : L2Ext E F) cfg (st : L2St ext),
  l2_q cfg = None \/ (exists b, l2_d cfg = OnlyB b) \/ (exists A b, l2_d cfg = WithOp A true b) \/ (exists A b, l2_d cfg = WithOp A false b /\ l2_solv cfg <> Cgls) ->
  reads_only (l2_hprox ext cfg st) (fun x tau => snd (l2_prox ext cfg st x tau)).
Proof.
  intros E F ext cfg st HC h r x tau Hx. pose proof (l2_preserves E F ext cfg st x tau HC) as HP. unfold l2_hprox, hp_scratch. rewrite (rd_holds _ _ _ Hx). cbn [bind].
  destruct (l2_prox ext cfg st x tau) as [[st' x'] [v|e]] eqn:El; cbn in HP |- *; subst x'; [|reflexivity].
  exists (wr h r x ++ [v]), (length (wr h r x)). split; [reflexivity|]. split; [apply holds_alloc|]. split; [|right; rewrite wr_len; lia].
  intros i w Hi. apply keeps_app. destruct (Nat.eq_dec i r) as [->|Hn]; [|eapply wr_other; eauto]. rewrite (holds_fun _ _ _ _ Hi Hx). eapply wr_same; exact Hx.
Qed.
(** the configuration that writes: a q-term, no data *)
Lemma l2_writes (E F : IPS) (ext : L2Ext E F) cfg (st : L2St ext) o q h r x tau : l2_d cfg = NoB o -> l2_q cfg = Some q -> 0 < tau -> holds h r x ->
  let x' := x [-] (tau * l2_alpha cfg) [*] q in
  l2_hprox ext cfg st h r tau = Ok (wr h r x' ++ [/ (1 + tau * st_sigma st) [*] x'], length h) /\
  (fun x tau => snd (l2_prox ext cfg st x tau)) x tau = Ok (/ (1 + tau * st_sigma st) [*] x').
Proof.
  intros Hd Hq Ht Hx x'. unfold l2_hprox, hp_scratch. rewrite (rd_holds _ _ _ Hx). cbn [bind]. unfold l2_prox. destruct (Rleb_spec tau 0) as [[? ?]|[_ ->]]; [lra|].
  rewrite Hd. cbn. unfold sub_q. rewrite Hq. unfold alloc. rewrite wr_len. split; reflexivity.
Qed.
Lemma l2_value (E F : IPS) (ext : L2Ext E F) cfg (st : L2St ext) o x tau : l2_d cfg = NoB o -> l2_q cfg = None -> 0 < tau ->
  snd (l2_prox ext cfg st x tau) = Ok (/ (1 + tau * st_sigma st) [*] x).
Proof. intros Hd Hq Ht. unfold l2_prox. destruct (Rleb_spec tau 0) as [[? ?]|[_ ->]]; [lra|]. rewrite Hd. cbn. unfold sub_q. rewrite Hq. reflexivity. Qed.

(*! C79_dr_l2_refuted : DouglasRachfordSplitting with f = L2(q=q) = 1/2 |x|^2 + <q, x> and g = L2() = 1/2 |x|^2 (tau = eta = 1, f first) returns
   -q + (x0 + q) / 2^niter, which tends to -q, while the minimiser of f + g is -q/2: L2.prox overwrites the array y of the solver *)
Lemma dr_l2 : forall (E F : IPS) (ext : L2Ext E F) cfg cfg' (st st' : L2St ext) o o' (q : E) (h : heap E) x0 v niter,
  l2_d cfg = NoB o -> l2_q cfg = Some q -> l2_alpha cfg = 1 -> st_sigma st = 1 ->
  l2_d cfg' = NoB o' -> l2_q cfg' = None -> st_sigma st' = 1 -> holds h x0 v -> (0 < niter)%nat ->
  (exists h' x y tr, hDouglasRachford (l2_hprox ext cfg st) (l2_hprox ext cfg' st') h x0 1 1 niter false = Ok (h', x, y, tr) /\
     holds h' x ((- 1) [*] q [+] (/ 2) ^ niter [*] (v [+] q)) /\ holds h' y ((- 1) [*] q [+] (/ 2) ^ niter [*] (v [+] q))) /\
  (forall u, is_min (eadd (etot (l2_call ext cfg st)) (etot (l2_call ext cfg' st'))) u <-> u = (- / 2) [*] q).
Proof.
  intros E F ext cfg cfg' st st' o o' q h x0 v niter Hd Hq Ha Hs Hd' Hq' Hs' Hx Hn. split.
  - set (Y := fun n => (- 1) [*] q [+] (/ 2) ^ n [*] (v [+] q)).
    unfold hDouglasRachford. rewrite (copy_ok _ _ _ Hx). cbn [bind fst snd].
    destruct (loop_reach (hdr_body (l2_hprox ext cfg st) (l2_hprox ext cfg' st') 1 1 false)
      (fun j s => holds (hd_h s) (hd_y s) (Y j) /\ ((0 < j)%nat -> exists x, hd_x s = Some x /\ holds (hd_h s) x (Y j))) niter 0 (HDR (h ++ [v]) None (length h) [])) as [s [E1 [S1 S2]]].
    + intros j s _ [HY _]. unfold hdr_body, hdr_half. set (hh := hd_h s) in *. set (y := hd_y s) in *.
      destruct (l2_writes E F ext cfg st o q hh y (Y j) 1 Hd Hq ltac:(lra) HY) as [-> _]. rewrite Ha, Hs. cbn [bind fst snd].
      set (y1 := Y j [-] (1 * 1) [*] q). set (vx := / (1 + 1 * 1) [*] y1). set (h1 := wr hh y y1 ++ [vx]).
      assert (Hy1 : holds h1 y y1) by (apply keeps_app; eapply wr_same; exact HY).
      assert (Hx1 : holds h1 (length hh) vx) by (unfold h1; rewrite <- (wr_len hh y y1); apply holds_alloc).
      rewrite (ex2_ok h1 _ _ _ vx y1 Hx1 Hy1). cbn [bind fst snd].
      pose proof (call_temp (l2_hprox ext cfg' st') _ h1 (2 [*] vx [-] y1) 1 (l2_confined E F ext cfg' st')) as HC. cbn beta in HC.
      rewrite (l2_value E F ext cfg' st' o' _ 1 Hd' Hq' ltac:(lra)), Hs' in HC.
      destruct (l2_hprox ext cfg' st' (h1 ++ [2 [*] vx [-] y1]) (length h1) 1) as [[h2 p]|e]; cbn in HC; [|contradiction]. destruct HC as (P1 & P2 & _). cbn [bind fst snd].
      rewrite (ex2_ok h2 p (length hh) _ _ vx P1 (P2 _ _ Hx1)). cbn [bind fst snd]. set (d := 1 [*] _). set (h3 := h2 ++ [d]).
      assert (K3 : keeps h2 h3) by apply keeps_app. assert (Hd3 : holds h3 (length h2) d) by apply holds_alloc.
      rewrite (ex2_ok h3 y (length h2) _ y1 d (K3 _ _ (P2 _ _ Hy1)) Hd3). cbn [bind fst snd].
      assert (EY : y1 [+] d = Y (Datatypes.S j)). { unfold d, vx, y1, Y. simpl. set (c := (/ 2) ^ j). vfield. }
      assert (EX : vx = Y (Datatypes.S j)). { unfold vx, y1, Y. simpl. set (c := (/ 2) ^ j). vfield. }
      eexists. split; [reflexivity|]. cbn [hd_h hd_y hd_x]. rewrite EY. split; [apply holds_alloc|]. intros _. exists (length hh). split; [reflexivity|]. rewrite <- EX. apply keeps_app, K3, P2, Hx1.
    + cbn. split; [|lia]. replace (Y 0%nat) with v; [apply holds_alloc|]. unfold Y. simpl. vring.
    + rewrite E1. cbn [bind fst snd]. rewrite Nat.add_0_l in *. destruct (S2 ltac:(lia)) as [x [-> S3]]. exists (hd_h s), x, (hd_y s), (hd_tr s). auto.
  - assert (EV : forall u, eval (eadd (etot (l2_call ext cfg st)) (etot (l2_call ext cfg' st'))) u = norm2 (u [+] / 2 [*] q) - norm2 (/ 2 [*] q)).
    { intro u. cbn [eval eadd etot]. unfold l2_call. rewrite Hd, Hd', Hq, Hq', Ha, Hs, Hs'. replace (norm u ^ 2) with (norm2 u) by (rewrite <- norm_sq; ring). unfold norm2. iexp. field. }
    intro u. split.
    + intros [_ H]. specialize (H ((- / 2) [*] q) (conj I I)). rewrite !EV in H.
      assert (Z : norm2 ((- / 2) [*] q [+] / 2 [*] q) = 0) by (unfold norm2; iexp; field). pose proof (norm2_nonneg (u [+] / 2 [*] q)).
      assert (Z2 : norm2 (u [+] / 2 [*] q) = 0) by lra. apply norm2_eq0 in Z2. replace u with ((u [+] / 2 [*] q) [-] / 2 [*] q) by vring. rewrite Z2. vring.
    + intros ->. split; [split; exact I|]. intros w _. rewrite !EV. assert (Z : norm2 ((- / 2) [*] q [+] / 2 [*] q) = 0) by (unfold norm2; iexp; field). pose proof (norm2_nonneg (w [+] / 2 [*] q)). lra.
Qed.

Lemma same_loop_b {S T} (Q : S -> T -> Prop) b1 b2 n : forall i s t,
  (forall j s t, (i <= j < i + n)%nat -> Q s t -> same (fun p q => Q (fst p) (fst q) /\ snd p = snd q) (b1 j s) (b2 j t)) -> Q s t ->
  same (fun p q => Q (fst p) (fst q) /\ snd p = snd q) (for_loop b1 n i s) (for_loop b2 n i t).
Proof.
  induction n as [|n IH]; intros i s t Hb Hq; cbn [for_loop]; [split; auto|].
  eapply same_bind; [apply Hb; [lia|exact Hq]|]. intros [s' c] [t' d] [H1 H2]. cbn in *. subst d. destruct c; [split; auto|]. apply IH; auto. intros; apply Hb; auto; lia.
Qed.
Lemma one_tau tau n i : (i < n)%nat -> getitem (hqs_taus [tau] n) i = Ok tau.
Proof. intro H. unfold getitem, hqs_taus. rewrite nth_error_repeat by exact H. reflexivity. Qed.

(*! C79_dr_inplace : when the operator called first stores its result in its argument (as Intersection does), DouglasRachfordSplitting with
   eta = 1 performs exactly the iterations of HQS started from z0 = x0 (the reflection 2 x - y collapses to x): the returned vectors
   and the arrays x handed to the callback are those of HQS *)
Lemma dr_inplace : forall (E : IPS) (f g : Op E) (Hg : hprox E) (h : heap E) x0 v tau niter, confined Hg (o_prox g) -> holds h x0 v -> (0 < niter)%nat ->
  same (fun p q => let '(h', x, y, tr) := p in let '(vx, vz, vtr) := q in
          holds h' x vx /\ holds h' y vz /\ Forall2 (fun r w => holds h' (fst r) (fst w)) tr vtr /\ keeps h h')
       (hDouglasRachford (hp_inplace (o_prox f)) Hg h x0 tau 1 niter false) (HQS f g None [tau] niter (Some v) false).
Proof.
  intros E f g Hg h x0 v tau niter HG Hx Hn. unfold hDouglasRachford, HQS. rewrite (copy_ok _ _ _ Hx). cbn [bind fst snd x0z0_init].
  set (Q := fun (s : hdr E) (t : hqs_state E) => keeps h (hd_h s) /\ (length h <= hd_y s)%nat /\ holds (hd_h s) (hd_y s) (h_z t) /\
     Forall2 (fun r w => holds (hd_h s) (fst r) (fst w) /\ (fst r < hd_y s)%nat) (hd_tr s) (h_tr t) /\
     (match hd_x s with Some x => h_tr t <> [] /\ holds (hd_h s) x (h_x t) | None => h_tr t = [] end)).
  assert (L : same (fun p q => Q (fst p) (fst q) /\ snd p = snd q) (for_loop (hdr_body (hp_inplace (o_prox f)) Hg tau 1 false) niter 0 (HDR (h ++ [v]) None (length h) []))
      (for_loop (hqs_body f g (hqs_taus [tau] niter) false) niter 0 (HQ v v []))).
  { apply same_loop_b.
    - intros i s t Hi (Q1 & Q2 & Q3 & Q4 & Q5). unfold hdr_body, hqs_body, hdr_half. rewrite one_tau by lia. cbn [bind].
      set (hh := hd_h s) in *. set (y := hd_y s) in *. unfold hp_inplace. rewrite (rd_holds _ _ _ Q3). cbn [bind].
      destruct (o_prox f (h_z t) tau) as [vx|e]; [|reflexivity]. cbn [bind fst snd]. set (h1 := wr hh y vx).
      assert (Hy1 : holds h1 y vx) by (eapply wr_same; exact Q3). rewrite (ex2_ok h1 _ _ _ vx vx Hy1 Hy1). cbn [bind fst snd].
      replace (2 [*] vx [-] vx) with vx by vring.
      pose proof (call_temp Hg _ h1 vx tau HG) as HC. destruct (Hg (h1 ++ [vx]) (length h1) tau) as [[h2 p]|e], (o_prox g vx tau) as [vz|e']; cbn in HC; try contradiction; [|subst; reflexivity].
      destruct HC as (P1 & P2 & _). cbn [bind fst snd]. rewrite (ex2_ok h2 p y _ vz vx P1 (P2 _ _ Hy1)). cbn [bind fst snd]. set (d := 1 [*] (vz [-] vx)). set (h3 := h2 ++ [d]).
      assert (K3 : keeps h2 h3) by apply keeps_app. assert (Hd3 : holds h3 (length h2) d) by apply holds_alloc.
      rewrite (ex2_ok h3 y (length h2) _ vx d (K3 _ _ (P2 _ _ Hy1)) Hd3). cbn [bind fst snd same]. replace (vx [+] d) with vz by (unfold d; vring).
      set (h4 := h3 ++ [vz]). assert (K4 : keeps h1 h4) by (eapply keeps_trans; [exact P2|]; eapply keeps_trans; [exact K3|apply keeps_app]).
      assert (KH : keeps h h4). { intros j w Hj. apply K4. eapply wr_other; [|apply Q1, Hj]. apply holds_lt in Hj. lia. }
      assert (LY : (y < length h3)%nat) by (apply (holds_lt h3 y vx), K3, P2, Hy1).
      split; [|reflexivity]. unfold Q. cbn [hd_h hd_y hd_x hd_tr h_x h_z h_tr]. split; [exact KH|]. split; [pose proof (keeps_len _ _ Q1); lia|]. split; [apply holds_alloc|]. split.
      + apply Forall2_app.
        * clear -Q4 K4 LY. induction Q4 as [|r w l l' [A B] F IH]; constructor; auto. split; [|lia]. apply K4. eapply wr_other; [|exact A]. lia.
        * constructor; [|constructor]. cbn. split; [apply K4, Hy1|exact LY].
      + split; [destruct (h_tr t); discriminate|]. apply K4, Hy1.
    - unfold Q. cbn. split; [apply keeps_app|]. split; [lia|]. split; [apply holds_alloc|]. split; [constructor|reflexivity]. }
  destruct (for_loop (hdr_body _ _ _ _ _) _ _ _) as [[s k]|e] eqn:L1, (for_loop (hqs_body _ _ _ _) _ _ _) as [[t k']|e'] eqn:L2; cbn in L; try contradiction; [|subst; reflexivity].
  destruct L as [(Q1 & Q2 & Q3 & Q4 & Q5) _]. cbn [bind fst snd].
  assert (NT : h_tr t <> []).
  { destruct niter as [|n]; [lia|]. 
    destruct (for_loop_inv (hqs_body f g (hqs_taus [tau] (S n)) false) (fun j u => j = 0%nat \/ h_tr u <> []) (S n) 0 (HQ v v []) t k') as [[HH|HH] [_ HK]]; auto.
    - intros j u u' b _ HB. right. unfold hqs_body in HB. destruct (getitem _ j); cbn [bind] in HB; [|discriminate]. destruct (o_prox f _ _); cbn [bind] in HB; [|discriminate]. destruct (o_prox g _ _); cbn [bind] in HB; [|discriminate]. inversion HB. cbn. destruct (h_tr u); discriminate.
    - specialize (HK ltac:(lia)). lia. }
  destruct (hd_x s) as [x|]; [|contradiction]. cbn. split; [apply Q5|]. split; [exact Q3|]. split; [|exact Q1].
  clear -Q4. induction Q4 as [|r w l l' [A B] F IH]; constructor; auto.
Qed.

(** ** Intersection *)
(*! C79_intersection : Intersection.prox stores its result in the array it was given, and returns that array *)
Lemma inter_writes : forall k n sg niter tol (h : heap (Vec (k * n))) r x tau v, holds h r x -> inter_vec k n sg niter tol x tau = Ok v ->
  inter_hprox k n sg niter tol h r tau = Ok (wr h r v, r) /\ holds (wr h r v) r v /\ keeps_but r h (wr h r v).
Proof.
  intros k n sg niter tol h r x tau v Hx Hv. unfold inter_hprox, hp_inplace. rewrite (rd_holds _ _ _ Hx). cbn [bind]. rewrite Hv. split; [reflexivity|]. split; [eapply wr_same; exact Hx|apply wr_other].
Qed.

Lemma inter2 niter tol (x : Vec (2 * 1)) tau : (0 < niter)%nat -> 0 < tau -> exists r, inter_vec 2 1 (SigNum 0) niter tol x tau = Ok r /\
  get r 0 + get r 1 = get x 0 + get x 1 /\ Rabs (get r 1 - get r 0) <= / 10 ^ 10.
Proof.
  intros Hn Ht. unfold inter_vec, inter_prox. destruct (Rleb_spec tau 0) as [[? ?]|[_ ->]]; [lra|].
  assert (HL : length (proj1_sig x) = (2 * 1)%nat) by exact (proj2_sig x).
  destruct (C37_last_pair_l 2 1 (SigNum 0) (fun _ _ => 0) (proj1_sig x) niter tol ltac:(lia) ltac:(lia) Hn HL (sig_num 2 0 (Rle_refl 0))) as [r [E1 H1]].
  destruct (C37_sums_l 2 1 (SigNum 0) (fun _ _ => 0) (proj1_sig x) ltac:(lia) HL (sig_num 2 0 (Rle_refl 0))) as [st [_ HS]].
  destruct (HS niter tol) as (m & r' & E2 & _ & _ & _ & H2). rewrite E1 in E2. inversion E2; subst r'. rewrite E1. cbn [bind snd]. eexists. split; [reflexivity|].
  rewrite !get_vtab by lia. specialize (H1 0%nat ltac:(lia)). specialize (H2 0%nat ltac:(lia)). unfold rcol, tab in H1, H2. cbn [RS] in H2. change ((2 - 1) * 1 + 0)%nat with 1%nat in H1. change ((2 - 2) * 1 + 0)%nat with 0%nat in H1. change (0 * 1 + 0)%nat with 0%nat in H2. change (1 * 1 + 0)%nat with 1%nat in H2. unfold get, lst. split; lra.
Qed.
Lemma misfit2_prox x p : is_prox (etot misfit2) 1 x p -> get p 0 = get x 0 / 2 /\ get p 1 = (get x 1 + 3) / 4.
Proof.
  intros [_ H]. set (c := vtab (2 * 1) (fun i => match i with O => get x 0 / 2 | _ => (get x 1 + 3) / 4 end)). specialize (H c I). cbn [eval etot] in H. unfold misfit2 in H.
  rewrite !vec_norm2 in H. cbn [RS Nat.mul Nat.add] in H. rewrite !(get_sub 2) in H by lia. unfold c in H. rewrite !get_vtab in H by lia. cbv beta iota in H. change (2 * 1)%nat with 2%nat in *.
  set (a := get p 0) in *. set (b := get p 1) in *. set (u := get x 0) in *. set (w := get x 1) in *.
  pose proof (Rle_0_sqr (a - u / 2)) as S1. pose proof (Rle_0_sqr (b - (w + 3) / 4)) as S2. unfold Rsqr in *.
  assert (Z1 : (a - u / 2) * (a - u / 2) = 0) by (match type of H with ?l <= ?rr => assert (D : l - rr = (a - u / 2) * (a - u / 2) + 2 * ((b - (w + 3) / 4) * (b - (w + 3) / 4))) by field end; lra).
  assert (Z2 : (b - (w + 3) / 4) * (b - (w + 3) / 4) = 0) by (match type of H with ?l <= ?rr => assert (D : l - rr = (a - u / 2) * (a - u / 2) + 2 * ((b - (w + 3) / 4) * (b - (w + 3) / 4))) by field end; lra).
  apply Rsqr_0_uniq in Z1. apply Rsqr_0_uniq in Z2. split; lra.
Qed.
(*! C79_dr_intersection_refuted : DouglasRachfordSplitting with f = Intersection(k=2, n=1, sigma=0) (equal entries), g = x_0^2/2 + 3 (x_1 - 1)^2/2,
   tau = eta = 1 and x0 = 0 returns, after six or more iterations, a vector whose entries are 0.6 up to 0.01, while the minimiser has
   entries 0.75: Intersection.prox overwrites the array y of the solver *)
Lemma dr_inter : forall (g : Op (Vec (2 * 1))) (Hg : hprox (Vec (2 * 1))) h x0 ni tol niter, impl_prox g (etot misfit2) -> confined Hg (o_prox g) ->
  holds h x0 vzero -> (0 < ni)%nat -> (6 <= niter)%nat ->
  (exists h' x y tr vx, hDouglasRachford (inter_hprox 2 1 (SigNum 0) ni tol) Hg h x0 1 1 niter false = Ok (h', x, y, tr) /\ holds h' x vx /\
     Rabs (get vx 0 - 3 / 5) <= / 100 /\ Rabs (get vx 1 - 3 / 5) <= / 100) /\
  (forall u, is_min (eadd (indic (fun u => get u 0 = get u 1)) (etot misfit2)) u <-> get u 0 = 3 / 4 /\ get u 1 = 3 / 4).
Proof.
  intros g Hg h x0 ni tol niter HI HG Hx Hni Hn. split.
  - set (f := mkOp (fun _ => Ok (VNum 0)) (inter_vec 2 1 (SigNum 0) ni tol) (fun _ _ => Ok vzero) (fun _ => Ok None) false : Op (Vec (2 * 1))).
    pose proof (dr_inplace _ f g Hg h x0 vzero 1 niter HG Hx ltac:(lia)) as HD. change (hp_inplace (o_prox f)) with (inter_hprox 2 1 (SigNum 0) ni tol) in HD.
    assert (RUN : exists vx vz tr, HQS f g None [1] niter (Some vzero) false = Ok (vx, vz, tr) /\ Rabs (get vx 0 - 3 / 5) <= / 100 /\ Rabs (get vx 1 - 3 / 5) <= / 100).
    { unfold HQS. cbn [bind x0z0_init fst snd]. pose (mz := fun t : hqs_state (Vec (2 * 1)) => (get (h_z t) 0 + get (h_z t) 1) / 2).
      assert (E10 : 0 < / 10 ^ 10 < / 1000000) by (split; [apply Rinv_0_lt_compat, pow_lt; lra|apply Rinv_lt_contravar; lra]).
      destruct (loop_reach (hqs_body f g (hqs_taus [1] niter) false) (fun j t => Rabs (mz t - 3 / 5) <= (3 / 8) ^ j * (3 / 5) + / 10 ^ 10 /\
          ((0 < j)%nat -> exists m, Rabs (m - 3 / 5) <= (3 / 8) ^ (j - 1) * (3 / 5) + / 10 ^ 10 /\ Rabs (get (h_x t) 0 - m) <= / 10 ^ 10 /\ Rabs (get (h_x t) 1 - m) <= / 10 ^ 10)) niter 0 (HQ vzero vzero [])) as [t [E1 [_ H2]]].
      - intros j t Hj [H1 _]. unfold hqs_body. rewrite one_tau by lia. cbn [bind]. cbn [o_prox f].
        destruct (inter2 ni tol (h_z t) 1 Hni ltac:(lra)) as [vx [-> [X1 X2]]]. cbn [bind].
        destruct (HI vx 1 ltac:(lra)) as [vz [-> HP]]. destruct (misfit2_prox _ _ HP) as [Z1 Z2]. cbn [bind fst snd]. eexists. split; [reflexivity|]. unfold mz in *. cbn [h_z h_x] in *.
        set (a := get vx 0) in *. set (b := get vx 1) in *. set (m := (get (h_z t) 0 + get (h_z t) 1) / 2) in *. assert (EM : a + b = 2 * m) by (unfold m; lra).
        set (c := (3 / 8) ^ j) in *. set (ep := / 10 ^ 10) in *. apply abs_le in X2. apply abs_le in H1. rewrite Z1, Z2. split.
        + apply Rabs_le. simpl. fold c. lra.
        + intros _. exists m. replace (S j - 1)%nat with j by lia. fold c. split; [apply Rabs_le; lra|]. split; apply Rabs_le; lra.
      - split; [|lia]. unfold mz. cbn [h_z]. rewrite !get_zero by lia. rewrite Rabs_left by lra. simpl. lra.
      - rewrite E1. cbn [bind fst snd]. exists (h_x t), (h_z t), (h_tr t). split; [reflexivity|]. rewrite Nat.add_0_l in *. destruct (H2 ltac:(lia)) as (m & M1 & M2 & M3).
        assert (C : (3 / 8) ^ (niter - 1) <= (3 / 8) ^ 5).
        { replace (niter - 1)%nat with (5 + (niter - 6))%nat by lia. rewrite pow_add. rewrite <- (Rmult_1_r ((3 / 8) ^ 5)) at 2. apply Rmult_le_compat_l; [apply pow_le; lra|].
          rewrite <- (pow1 (niter - 6)). apply pow_incr. lra. }
        apply abs_le in M1, M2, M3. assert ((3 / 8) ^ 5 * (3 / 5) < / 150) by (simpl; lra). split; apply Rabs_le; lra. }
    destruct RUN as (vx & vz & tr & E1 & X0 & X1). rewrite E1 in HD. destruct (hDouglasRachford _ _ _ _ _ _ _ _) as [[[[h' x] y] tr']|e]; cbn in HD; [|contradiction].
    destruct HD as (D1 & _). exists h', x, y, tr', vx. auto.
  - intro u. cbn [is_min edom eval eadd indic etot]. unfold is_min; cbn [edom eval eadd indic etot]. unfold misfit2. split.
    + intros [[Hu _] H]. set (c := vtab (2 * 1) (fun _ => 3 / 4)). specialize (H c). unfold c in H. rewrite !get_vtab in H by lia. specialize (H (conj eq_refl I)).
      rewrite <- Hu in *. set (a := get u 0) in *. pose proof (Rle_0_sqr (a - 3 / 4)) as S1. unfold Rsqr in S1.
      assert (Z1 : (a - 3 / 4) * (a - 3 / 4) = 0) by lra. apply Rsqr_0_uniq in Z1. lra.
    + intros [U0 U1]. rewrite U0, U1. split; [auto|]. intros w [Hw _]. rewrite <- Hw. set (a := get w 0). pose proof (Rle_0_sqr (a - 3 / 4)) as S1. unfold Rsqr in S1. lra.
Qed.
(*!ex C79_intersection_example : an operator g as required: the proximal operator of the misfit, computing a new array *)
Lemma dr_inter_ex : let g := mkOp (fun x => Ok (VNum (misfit2 x))) (fun x t => Ok (vtab (2 * 1) (fun i => match i with O => get x 0 / (1 + t) | _ => (get x 1 + 3 * t) / (1 + 3 * t) end))) (fun _ _ => Ok vzero) (fun _ => Ok None) false : Op (Vec (2 * 1)) in
  impl_prox g (etot misfit2) /\ confined (hp_fresh (o_prox g)) (o_prox g).
Proof.
  intro g. split; [|apply reads_confined, fresh_reads]. intros x t Ht. eexists. split; [reflexivity|]. split; [exact I|]. intros y _. cbn [eval etot]. unfold misfit2.
  rewrite !vec_norm2. cbn [RS Nat.mul Nat.add]. rewrite !(get_sub 2) by lia. rewrite !get_vtab by lia. cbv beta iota. change (2 * 1)%nat with 2%nat in *.
  set (a := get y 0). set (b := get y 1). set (u := get x 0). set (w := get x 1).
  pose proof (Rle_0_sqr (a - u / (1 + t))) as S1. pose proof (Rle_0_sqr (b - (w + 3 * t) / (1 + 3 * t))) as S2. unfold Rsqr in *.
  match goal with |- ?l <= ?rr => assert (D : rr - l = (1 + t) / (2 * t) * ((a - u / (1 + t)) * (a - u / (1 + t))) + (1 + 3 * t) / (2 * t) * ((b - (w + 3 * t) / (1 + 3 * t)) * (b - (w + 3 * t) / (1 + 3 * t)))) by (field; repeat split; lra) end.
  assert (P1 : 0 <= (1 + t) / (2 * t)) by (apply Rlt_le, Rdiv_lt_0_compat; lra). assert (P2 : 0 <= (1 + 3 * t) / (2 * t)) by (apply Rlt_le, Rdiv_lt_0_compat; lra).
  pose proof (Rmult_le_pos _ _ P1 S1). pose proof (Rmult_le_pos _ _ P2 S2). lra.
Qed.
