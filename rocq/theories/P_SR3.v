(** * Proofs about SR3 and its inner LSQR (M_SR3.v) *)
From Coq Require Import Psatz.
From Verif Require Import Base Space Spec Sep ConvexFacts Smooth M_ProxOp SpecOps P_ProxOp M_Norms P_Norms M_L1 P_L1 M_Loop LoopFacts LoopFacts2 SeqFacts M_SR3 P_PG2.
Open Scope result_scope.
Open Scope R_scope.

Lemma ovdiv_some {E : IPS} (x : E) b : Reqb b 0 = false -> ovdiv (Some x) (Some b) = Some (/ b [*] x).
Proof. intro H. cbn. rewrite H. reflexivity. Qed.
Lemma ovdiv_nan {E : IPS} (x : E) b : Reqb b 0 = true -> ovdiv (Some x) (Some b) = None.
Proof. intro H. cbn. rewrite H. reflexivity. Qed.
Lemma odiv_some a b : Reqb b 0 = false -> odiv (Some a) (Some b) = Some (a / b).
Proof. intro H. cbn. rewrite H. reflexivity. Qed.

Section Lsqr.
Context {E G : IPS} {p : nat} (B : linop E G) (d : G).

(** the residual *)
Definition rs (x : E) : G := d [-] lapp B x.
Definition lsq (x : E) : R := norm2 (rs x).

Lemma lsq_min x : ladj B (rs x) = vzero -> is_min (etot lsq) x.
Proof.
  intro H. split; [exact I|]. intros y _. cbn [eval etot]. unfold lsq.
  assert (Hxy : rs y = rs x [-] lapp B (y [-] x)) by (unfold rs; rewrite lapp_sub; vring). rewrite Hxy, norm2_sub.
  assert (<< rs x, lapp B (y [-] x) >> = 0) by (rewrite <- ladj_spec', H, inner_zero_l; reflexivity).
  pose proof (norm2_nonneg (lapp B (y [-] x))). lra.
Qed.

(** State before an iteration, as long as nothing broke down.  [ut] is the direction of the
    residual. *)
Definition good (s : ls_state E G p) : Prop :=
  exists x u v w a ph rh ut z, s = LS (Some x) (Some u) (Some v) (Some w) (Some a) (Some ph) (Some rh) z /\
    norm2 u = 1 /\ norm2 v = 1 /\ 0 < a /\ 0 < ph /\ rh <> 0 /\ norm2 ut = 1 /\ rs x = ph [*] ut /\ ladj B ut = rh [*] v /\
    rh = a * << u, ut >> /\ lapp B w = rh [*] ut [+] (lapp B v [-] a [*] u).
(** State after a breakdown: the next search direction is NaN. *)
Definition dead (s : ls_state E G p) : Prop := exists x, ls_x s = Some x /\ ls_w s = None /\ ladj B (rs x) = vzero.

Lemma norm_unit {H : IPS} (x : H) : norm x <> 0 -> norm2 (/ norm x [*] x) = 1.
Proof. intro Hn. rewrite norm2_scal, <- norm_sq. field. auto. Qed.

Lemma norm_pos0 {H : IPS} (x : H) : norm x <> 0 -> 0 < norm x.
Proof. intro Hn. pose proof (norm_nonneg x). lra. Qed.

Lemma ls_step Reg thr j (s : ls_state E G p) : good s -> exists s' b, ls_body B Reg thr j s = Ok (s', b) /\
  (exists x x' w, ls_x s = Some x /\ ls_x s' = Some x' /\ lsq x' < lsq x /\ << rs x', lapp B (x' [-] x) >> = 0 /\
     ls_w s = Some w /\ w <> vzero /\ << ladj B (rs x'), w >> = 0) /\ (good s' \/ dead s') /\ (ls_z s = Some vzero -> b = false).
Proof.
  intros [x [u [v [w [a [ph [rh [ut [z [-> [Hu [Hv [Ha [Hph [Hrh [Hut [Hr [Hat [Hrha Hw]]]]]]]]]]]]]]]]]]].
  unfold ls_body. cbn [ls_x ls_u ls_v ls_w ls_alpha ls_phi ls_rho ls_z o1 o2].
  set (ub := lapp B v [-] a [*] u). set (beta := norm ub).
  set (rho := sqrt (rh ^ 2 + beta ^ 2)).
  assert (Hb0 : 0 <= beta) by apply norm_nonneg.
  assert (Hrh2 : 0 < rh ^ 2) by (pose proof (pow2_ge_0 rh); assert (rh ^ 2 <> 0) by (apply pow_nonzero; auto); lra).
  assert (Hrp : 0 < rho) by (apply sqrt_lt_R0; nra).
  assert (Hrr : rho * rho = rh ^ 2 + beta ^ 2) by (apply sqrt_sqrt; nra).
  assert (Ho : << ut, ub >> = 0).
  { unfold ub. rewrite inner_sub_r, inner_scal_r, <- ladj_spec', Hat, inner_scal_l. fold (norm2 v). rewrite Hv, (inner_sym ut u). lra. }
  assert (Hlr : lsq x = ph * ph) by (unfold lsq; rewrite Hr, norm2_scal, Hut; ring).
  set (c := rh / rho). set (sn := beta / rho).
  assert (Hcs : c * c + sn * sn = 1).
  { unfold c, sn. replace (rh / rho * (rh / rho) + beta / rho * (beta / rho)) with ((rh ^ 2 + beta ^ 2) / (rho * rho)) by (field; lra). rewrite <- Hrr. field. lra. }
  assert (Hc0 : c <> 0) by (unfold c, Rdiv; apply Rmult_integral_contrapositive_currified; [auto|apply Rinv_neq_0_compat; lra]).
  assert (Hcc : 0 < c * c) by (pose proof (Rle_0_sqr c); unfold Rsqr in *; assert (c * c <> 0) by (apply Rmult_integral_contrapositive_currified; auto); lra).
  assert (Hs0 : 0 <= sn) by (unfold sn; apply Rmult_le_pos; [auto|left; apply Rinv_0_lt_compat; auto]).
  assert (Hsn : sn < 1) by nra.
  set (x' := x [+] (c * ph / rho) [*] w).
  assert (Hx' : rs x' = (ph * (1 - c * c)) [*] ut [-] (c * ph / rho) [*] ub).
  { unfold x', rs. rewrite lapp_add, lapp_scal, Hw. fold ub.
    replace (d [-] (lapp B x [+] (c * ph / rho) [*] (rh [*] ut [+] ub))) with (rs x [-] (c * ph / rho) [*] (rh [*] ut [+] ub)) by (unfold rs; vring).
    rewrite Hr. replace rh with (c * rho) by (unfold c; field; lra). vfield. lra. }
  assert (Hle : lsq x' = (sn * ph) * (sn * ph)).
  { unfold lsq. rewrite Hx'. unfold norm2. inner_lin_all. rewrite (inner_sym ub ut), Ho. fold (norm2 ut) (norm2 ub). rewrite Hut, <- norm_sq. fold beta.
    replace beta with (sn * rho) by (unfold sn; field; lra).
    replace (1 - c * c) with (sn * sn) by lra. replace (c * ph / rho * (c * ph / rho * (sn * rho * (sn * rho)))) with (ph * ph * (sn * sn) * (c * c)) by (field; lra).
    replace (c * c) with (1 - sn * sn) by lra. ring. }
  assert (Hdec : lsq x' < lsq x).
  { rewrite Hle, Hlr. assert (0 < ph * ph) by nra. assert (sn * sn < 1) by nra.
    assert (sn * sn * (ph * ph) < 1 * (ph * ph)) by (apply Rmult_lt_compat_r; auto). lra. }
  assert (Hbb : norm2 ub = beta * beta) by (unfold beta; rewrite norm_sq; reflexivity).
  assert (Hls : << rs x', lapp B w >> = 0).
  { rewrite Hw, Hx'. fold ub. inner_lin_all. rewrite (inner_sym ub ut), Ho. fold (norm2 ut) (norm2 ub). rewrite Hut, Hbb.
    replace beta with (sn * rho) by (unfold sn; field; lra). replace rh with (c * rho) by (unfold c; field; lra). replace (1 - c * c) with (sn * sn) by lra. field. lra. }
  assert (Hw0 : w <> vzero).
  { intro Hz. rewrite Hz, lapp_zero in Hw. fold ub in Hw. assert (Hq : << ut, vzero >> = << ut, rh [*] ut [+] ub >>) by (rewrite Hw; reflexivity).
    rewrite inner_zero_r, inner_add_r, inner_scal_r, Ho in Hq. fold (norm2 ut) in Hq. rewrite Hut in Hq. lra. }
  assert (Hls1 : << rs x', lapp B (x' [-] x) >> = 0).
  { replace (x' [-] x) with ((c * ph / rho) [*] w) by (unfold x'; vring). rewrite lapp_scal, inner_scal_r, Hls. ring. }
  assert (Hls2 : << ladj B (rs x'), w >> = 0) by (rewrite ladj_spec'; exact Hls).
  assert (Hzz : forall b, z = Some vzero -> oltb (o1 norm (o2 vsub b z)) (o1 (fun z => / 1000000 * norm z) z) = false).
  { intros b ->. destruct b as [b|]; [|reflexivity]. cbn [o1 o2 oltb]. rewrite norm_zero. apply Rltb_false. pose proof (norm_nonneg (b [-] vzero)). lra. }
  assert (Hro : Reqb rho 0 = false) by (apply Reqb_false; lra).
  destruct (Reqb_spec beta 0) as [[Hbe Eb]|[Hbe Eb]].
  - (* beta = 0 *)
    rewrite (ovdiv_nan _ _ Eb). cbn [o1 o2]. fold rho. rewrite !(odiv_some _ _ Hro). cbn [o1 o2]. fold c sn. cbn [o1 o2]. rewrite ?(odiv_some _ _ Hro). cbn [o1 o2]. fold x'.
    eexists. eexists. split; [reflexivity|]. split; [exists x, x', w; cbn [ls_x]; repeat split; auto|]. split; [|cbn [ls_z]; intro; apply (Hzz (Some _)); auto]. right. exists x'. cbn [ls_x ls_w]. split; auto. split; auto.
    assert (rs x' = vzero) as ->; [|apply ladj_zero]. apply norm2_eq0. fold (lsq x'). rewrite Hle. unfold sn. rewrite Hbe. field. lra.
  - pose proof (norm_pos0 ub Hbe) as Hbp. fold beta in Hbp.
    rewrite (ovdiv_some _ _ Eb). cbn [o1 o2]. set (u' := / beta [*] ub).
    assert (Hub : ub = beta [*] u') by (unfold u'; vfield; auto).
    assert (Hu' : norm2 u' = 1) by (apply norm_unit; auto).
    assert (Hou : << ut, u' >> = 0) by (unfold u'; rewrite inner_scal_r, Ho; ring).
    set (vb := ladj B u' [-] beta [*] v). set (a' := norm vb).
    fold rho. set (ut' := sn [*] ut [-] c [*] u').
    assert (Hut' : norm2 ut' = 1).
    { unfold ut', norm2. inner_lin_all. rewrite (inner_sym u' ut), Hou. fold (norm2 ut) (norm2 u'). rewrite Hut, Hu'. lra. }
    assert (Hrx : rs x' = (sn * ph) [*] ut').
    { rewrite Hx', Hub. replace (1 - c * c) with (sn * sn) by lra. unfold ut'. replace beta with (sn * rho) by (unfold sn; field; lra). vfield. lra. }
    assert (Hadj : ladj B ut' = (- c) [*] vb).
    { unfold ut'. rewrite ladj_sub, !ladj_scal, Hat. unfold vb. replace (sn [*] (rh [*] v)) with ((c * beta) [*] v); [vring|].
      rewrite vscal_vscal. f_equal. unfold c, sn. field. lra. }
    rewrite !(odiv_some _ _ Hro). cbn [o1 o2]. fold c sn. rewrite ?(odiv_some _ _ Hro). cbn [o1 o2]. fold x'.
    destruct (Reqb_spec a' 0) as [[Hal Ea]|[Hal Ea]].
    + rewrite (ovdiv_nan _ _ Ea). cbn [o1 o2]. eexists. eexists. split; [reflexivity|]. split; [exists x, x', w; cbn [ls_x]; repeat split; auto|]. split; [|cbn [ls_z]; intro; apply (Hzz (Some _)); auto]. right.
      exists x'. cbn [ls_x ls_w]. split; auto. split; auto. rewrite Hrx, ladj_scal, Hadj.
      assert (vb = vzero) as -> by (apply norm_eq0; exact Hal). rewrite !vscal_zero. reflexivity.
    + rewrite (ovdiv_some _ _ Ea). cbn [o1 o2]. set (v' := / a' [*] vb).
      assert (Hap : 0 < a') by (apply norm_pos0; auto).
      assert (Hvb : vb = a' [*] v') by (unfold v'; vfield; auto).
      set (w' := v' [-] (sn * a' / rho) [*] w).
      eexists. eexists. split; [reflexivity|]. split; [exists x, x', w; cbn [ls_x]; repeat split; auto|]. split; [|cbn [ls_z]; intro; apply (Hzz (Some _)); auto]. left.
      exists x', u', v', w', a', (sn * ph), (- c * a'), ut'. eexists.
      split; [reflexivity|]. split; [exact Hu'|]. split; [apply norm_unit; auto|]. split; [exact Hap|].
      assert (Hsp : 0 < sn) by (unfold sn; apply Rdiv_lt_0_compat; auto).
      split; [apply Rmult_lt_0_compat; auto|]. split; [apply Rmult_integral_contrapositive_currified; lra|]. split; [exact Hut'|].
      split; [exact Hrx|]. split; [rewrite Hadj, Hvb; vring|]. split.
      * unfold ut'. rewrite inner_sub_r, !inner_scal_r, (inner_sym u' ut), Hou. fold (norm2 u'). rewrite Hu'. ring.
      * unfold w'. rewrite lapp_sub, lapp_scal, Hw. fold ub. rewrite Hub.
        replace rh with (c * rho) by (unfold c; field; lra).
        assert (Hbr : beta = sn * rho) by (unfold sn; field; lra). 
        replace ((sn * a' / rho) [*] ((c * rho) [*] ut [+] beta [*] u')) with ((sn * c * a') [*] ut [+] (sn * sn * a') [*] u').
        2: { rewrite Hbr. vfield. lra. }
        replace (sn * sn) with (1 - c * c) by lra. unfold ut'. vring.
Qed.

Lemma ls_dead Reg thr j (s : ls_state E G p) : ls_x s = None \/ ls_w s = None ->
  exists s', ls_body B Reg thr j s = Ok (s', false) /\ ls_x s' = None.
Proof.
  intro H. unfold ls_body. eexists. split; [|reflexivity || idtac].
  - assert (Hx : forall o, o2 vadd (ls_x s) (o2 vscal o (ls_w s)) = None).
    { intro o. destruct H as [-> | ->]; [reflexivity|]. destruct o, (ls_x s); reflexivity. }
    rewrite Hx. cbn [o1 o2 oltb]. reflexivity.
  - cbn [ls_x]. reflexivity.
Qed.

Lemma ls_dead_loop Reg thr n : forall i (s : ls_state E G p), ls_x s = None \/ ls_w s = None -> (0 < n)%nat ->
  exists s' k, for_loop (ls_body B Reg thr) n i s = Ok (s', k) /\ ls_x s' = None.
Proof.
  induction n as [|n IH]; intros i s H Hn; [lia|]. cbn [for_loop]. destruct (ls_dead Reg thr i s H) as [s' [-> Hs]]. cbn [bind snd fst].
  destruct n as [|n]; [exists s', (S i); split; auto|]. apply IH; [left; auto|lia].
Qed.

Lemma ls_init_good x0 z : ladj B (rs x0) <> vzero -> good (ls_init (p:=p) B (Some d) z (Some x0)).
Proof.
  intro H. unfold ls_init. cbn [o1 o2]. fold (rs x0).
  assert (Hn : norm (rs x0) <> 0). { intro Hn. apply H. rewrite (norm_eq0 _ Hn). apply ladj_zero. }
  apply Reqb_false in Hn as En. rewrite !(ovdiv_some _ _ En). cbn [o1]. set (u := / norm (rs x0) [*] rs x0). 
  assert (Ha : norm (ladj B u) <> 0).
  { intro Hz. apply norm_eq0 in Hz. apply H. unfold u in Hz. rewrite ladj_scal in Hz.
    replace (ladj B (rs x0)) with (norm (rs x0) [*] (/ norm (rs x0) [*] ladj B (rs x0))) by (vfield; auto). rewrite Hz. apply vscal_zero. }
  apply Reqb_false in Ha as Ea. rewrite !(ovdiv_some _ _ Ea). set (v := / norm (ladj B u) [*] ladj B u).
  assert (Hv : ladj B u = norm (ladj B u) [*] v) by (unfold v; vfield; auto).
  exists x0, u, v, v, (norm (ladj B u)), (norm (rs x0)), (norm (ladj B u)), u, z.
  split; [reflexivity|]. assert (Hu : norm2 u = 1) by (apply norm_unit; auto).
  split; [exact Hu|]. split; [apply norm_unit; auto|]. split; [apply norm_pos0; auto|]. split; [apply norm_pos0; auto|]. split; [auto|].
  split; [exact Hu|]. split; [unfold u; vfield; auto|]. split; [exact Hv|]. split; [fold (norm2 u); rewrite Hu; ring|]. vring.
Qed.
Lemma ls_init_bad x0 z : ladj B (rs x0) = vzero -> ls_w (ls_init (p:=p) B (Some d) z (Some x0)) = None.
Proof.
  intro H. unfold ls_init. cbn [o1 o2 ls_w]. fold (rs x0). unfold ovdiv. destruct (Reqb_spec (norm (rs x0)) 0) as [[_ ->]|[_ ->]]; [reflexivity|].
  cbn [o1]. rewrite ladj_scal, H, vscal_zero, norm_zero. destruct (Reqb_spec 0 0) as [[_ ->]|[? _]]; [reflexivity|lra].
Qed.

Lemma ls_run Reg thr n : forall i (s : ls_state E G p) x, good s -> ls_x s = Some x ->
  exists xs k r k', for_loop (ls_body B Reg thr) n i s = Ok (r, k') /\ (k <= n)%nat /\ (n <> 0%nat -> (0 < k)%nat) /\ xs 0%nat = x /\
    (forall j, (j < k)%nat -> lsq (xs (S j)) < lsq (xs j) /\ << rs (xs (S j)), lapp B (xs (S j) [-] xs j) >> = 0) /\
    (ls_x r = Some (xs k) \/ (ls_x r = None /\ (k < n)%nat /\ ladj B (rs (xs k)) = vzero)).
Proof.
  induction n as [|n IH]; intros i s x Hg Hx.
  - exists (fun _ => x), 0%nat, s, i. repeat split; auto; try lia.
  - cbn [for_loop]. destruct (ls_step Reg thr i s Hg) as [s' [b [-> [[x1 [x2 [wd [H1 [H2 [H3 [H3' _]]]]]]] [Hs' _]]]]]. cbn [bind fst snd].
    assert (x1 = x) as -> by congruence.
    set (one := fun j => match j with O => x | _ => x2 end).
    assert (Hone : forall j, (j < 1)%nat -> lsq (one (S j)) < lsq (one j) /\ << rs (one (S j)), lapp B (one (S j) [-] one j) >> = 0) by (intros j Hj; replace j with 0%nat by lia; split; [exact H3|exact H3']).
    destruct b.
    { exists one, 1%nat, s', (S i). split; auto. split; [lia|]. split; [lia|]. split; auto. }
    destruct Hs' as [Hs'|[x3 [Hd1 [Hd2 Hd3]]]].
    + destruct (IH (S i) s' x2 Hs' H2) as [xs [k [r [k' [E1 [Hk [_ [X0 [Hdec Hend]]]]]]]]].
      exists (fun j => match j with O => x | S j => xs j end), (S k), r, k'. split; auto. split; [lia|]. split; [lia|]. split; auto. split.
      * intros j Hj. destruct j as [|j]; [rewrite X0; auto|]. apply Hdec. lia.
      * destruct Hend as [Hend|[H4 [H5 H6]]]; [left; auto|right; split; auto; split; auto; lia].
    + assert (x3 = x2) as -> by congruence. destruct n as [|n].
      * exists one, 1%nat, s', (S i). split; [reflexivity|]. split; [lia|]. split; [lia|]. split; auto.
      * destruct (ls_dead_loop Reg thr (S n) (S i) s' (or_intror Hd2) ltac:(lia)) as [r [k' [E1 E2]]].
        exists one, 1%nat, r, k'. split; auto. split; [lia|]. split; [lia|]. split; auto. split; auto. right. split; auto. split; [lia|exact Hd3].
Qed.
End Lsqr.

(*! C69_lsqr : the inner LSQR of SR3, exact arithmetic, any operator B, data d, start x0 that is not already a least-squares solution,
   any iteration limit and stopping threshold: it never raises; its iterates strictly decrease |d - B x| at every pass, each by an exact line search (the new residual is orthogonal to the step's image); and it returns the
   last iterate, unless the result is NaN, which happens only after some pass had reached an exact least-squares solution *)
Lemma C69_lsqr_l : forall (E G : IPS) p (B : linop E G) (d : G) (Reg : E -> Vec p) n z x0 thr, ladj B (d [-] lapp B x0) <> vzero ->
  exists xs k r, lsqr B Reg (Some d) n z (Some x0) thr = Ok r /\ (k <= n)%nat /\ (n <> 0%nat -> (0 < k)%nat) /\ xs 0%nat = x0 /\
    (forall j, (j < k)%nat -> norm2 (d [-] lapp B (xs (S j))) < norm2 (d [-] lapp B (xs j)) /\
       << d [-] lapp B (xs (S j)), lapp B (xs (S j) [-] xs j) >> = 0) /\
    (r = Some (xs k) \/ (r = None /\ (k < n)%nat /\ is_min (etot (fun x => norm2 (d [-] lapp B x))) (xs k))).
Proof.
  intros E G p B d Reg n z x0 thr H. unfold lsqr.
  destruct (ls_run (p:=p) B d Reg thr n 0 (ls_init B (Some d) z (Some x0)) x0 (ls_init_good B d x0 z H) eq_refl) as [xs [k [r [k' [-> [Hk [Hk0 [X0 [Hdec Hend]]]]]]]]].
  exists xs, k, (ls_x r). cbn [bind fst]. split; auto. split; auto. split; auto. split; auto. split; [exact Hdec|].
  destruct Hend as [Hend|[H1 [H2 H3]]]; [left; auto|right]. split; auto. split; auto. apply lsq_min. exact H3.
Qed.

(*! C69_exact_start_refuted : a start that already is a least-squares solution is not kept: one pass or more always returns NaN *)
Lemma C69_exact_start_refuted_l : forall (E G : IPS) p (B : linop E G) (d : G) (Reg : E -> Vec p) n z x0 thr,
  ladj B (d [-] lapp B x0) = vzero -> lsqr B Reg (Some d) (S n) z (Some x0) thr = Ok None.
Proof.
  intros E G p B d Reg n z x0 thr H. unfold lsqr.
  destruct (ls_dead_loop (p:=p) B Reg thr (S n) 0 (ls_init B (Some d) z (Some x0)) (or_intror (ls_init_bad B d x0 z H)) ltac:(lia)) as [r [k [-> Hr]]].
  cbn [bind fst]. rewrite Hr. reflexivity.
Qed.
