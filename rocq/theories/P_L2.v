(** * Proofs about L2 (M_L2.v) *)
From Verif Require Import Base Space Spec ConvexFacts M_ProxOp SpecOps P_ProxOp M_L2.
From Coq Require Import Psatz.
From Verif Require Export S_L2.
Open Scope result_scope.


(** Its gradient. *)
Definition l2_dfun {E F : IPS} (d : l2_data E F) (q : option E) (sigma alpha : R) (x : E) : E :=
  match d with
  | WithOp A _ b => sigma [*] ladj A (A x [-] b)
  | OnlyB b => sigma [*] (x [-] b)
  | NoB _ => sigma [*] x
  end [+] match q with Some q => alpha [*] q | None => vzero end.


Lemma l2_expand {E F : IPS} (d : l2_data E F) q sigma alpha (x h : E) :
  l2_fun d q sigma alpha (x [+] h) =
  l2_fun d q sigma alpha x + << l2_dfun d q sigma alpha x, h >> +
  sigma / 2 * match d with WithOp A _ _ => norm2 (A h) | _ => norm2 h end.
Proof.
  unfold l2_fun, l2_dfun.
  assert (Hq : match q with Some q => alpha * << q, x [+] h >> | None => 0 end =
    match q with Some q => alpha * << q, x >> | None => 0 end +
    << match q with Some q => alpha [*] q | None => vzero end, h >>).
  { destruct q; inner_lin_all; ring. }
  rewrite Hq, inner_add_l. destruct d as [A e b|b|o].
  - rewrite lapp_add, inner_scal_l, ladj_spec'.
    replace (A x [+] A h [-] b) with (A x [-] b [+] A h) by vring. rewrite norm2_add. field.
  - rewrite inner_scal_l. replace (x [+] h [-] b) with (x [-] b [+] h) by vring. rewrite norm2_add. field.
  - rewrite inner_scal_l, norm2_add. field.
Qed.

Lemma l2_quad_nonneg {E F : IPS} (d : l2_data E F) (h : E) :
  0 <= match d with WithOp A _ _ => norm2 (A h) | _ => norm2 h end.
Proof. destruct d; apply norm2_nonneg. Qed.

(** Any p solves the prox problem at the point shifted by its own residual. *)
Lemma l2_residual_prox {E F : IPS} (d : l2_data E F) q sigma alpha tau (p : E) :
  0 <= sigma -> 0 < tau ->
  is_prox (etot (l2_fun d q sigma alpha)) tau (p [+] tau [*] l2_dfun d q sigma alpha p) p.
Proof.
  intros Hs Ht. apply subgrad_prox; auto. split; [exact I|]. intros y _. cbn [eval etot].
  replace (/ tau [*] (p [+] tau [*] l2_dfun d q sigma alpha p [-] p)) with (l2_dfun d q sigma alpha p)
    by (vfield; lra).
  replace y with (p [+] (y [-] p)) at 2 by vring. rewrite l2_expand.
  pose proof (l2_quad_nonneg d (y [-] p)). nra.
Qed.

(*! C13_l2_call : call evaluates sigma/2|Op x - b|^2 + alpha<q,x>, in every state; when b is missing Op is
   silently ignored: the function is sigma/2|x|^2 + alpha<q,x> *)
Lemma l2_call_spec : forall (E F : IPS) (ext : L2Ext E F) cfg (st : L2St ext) (x : E),
  l2_call ext cfg st x = l2_fun (l2_d cfg) (l2_q cfg) (st_sigma st) (l2_alpha cfg) x /\
  forall op, l2_d cfg = NoB op ->
    l2_call ext cfg st x =
    st_sigma st / 2 * norm2 x + match l2_q cfg with Some q => l2_alpha cfg * << q, x >> | None => 0 end.
Proof.
  intros E F ext cfg st x. unfold l2_call, l2_fun. split.
  - destruct (l2_d cfg); destruct (l2_q cfg); rewrite <- norm_sq; ring.
  - intros op ->. destruct (l2_q cfg); rewrite <- norm_sq; ring.
Qed.

Lemma sub_q_eq {E F : IPS} (cfg : L2Cfg E F) tau (y : E) :
  sub_q cfg tau y = y [-] tau [*] match l2_q cfg with Some q => l2_alpha cfg [*] q | None => vzero end.
Proof. unfold sub_q. destruct (l2_q cfg); vring. Qed.


Lemma l2_fresh_init {E F : IPS} (ext : L2Ext E F) cfg sigma x0 : l2_fresh cfg sigma (l2_init ext cfg sigma x0).
Proof. split; auto. intros A e b H. unfold l2_init; simpl. rewrite H. split; auto. lra. Qed.

Lemma l2_fresh_prox {E F : IPS} (ext : L2Ext E F) cfg sigma st x tau :
  l2_fresh cfg sigma st -> l2_fresh cfg sigma (fst (fst (l2_prox ext cfg st x tau))).
Proof.
  intros [Hs Hc]. unfold l2_prox. destruct (Rleb tau 0); [split; auto|].
  destruct (l2_d cfg) as [A e b|b|o] eqn:Hd.
  - destruct (Hc A e b eq_refl) as [H1 H2].
    assert (Hgen : forall st' : L2St ext, st_sigma st' = sigma -> st_OpTb st' = sigma [*] ladj A b ->
      (st_tausigma st' <> 0 -> st_cl st' = Some (x_cho_factor ext (fun v => v [+] st_tausigma st' [*] ladj A (A v)))) ->
      l2_fresh cfg sigma st').
    { intros st' G1 G2 G3; split; auto. intros A' e' b' Hd'. rewrite Hd in Hd'. injection Hd' as <- <- <-. auto. }
    destruct e; [destruct (l2_dns cfg)|destruct (l2_solv cfg)]; simpl; try (apply Hgen; simpl; auto; fail).
    destruct (Reqb (st_tausigma st) (tau * st_sigma st)) eqn:Hq; simpl.
    + destruct (st_cl st) eqn:Hcl; simpl; apply Hgen; simpl; auto.
    + apply Hgen; simpl; auto. 
  - split; auto. intros A e b' H; rewrite Hd in H; discriminate.
  - split; auto. intros A e b' H; rewrite Hd in H; discriminate.
Qed.

(** The core: in a fresh state, with exact solvers, one prox call. *)
Lemma l2_prox_step {E F : IPS} (ext : L2Ext E F) cfg sigma (st : L2St ext) (x : E) tau :
  l2_exact ext -> 0 < sigma -> 0 < tau -> l2_fresh cfg sigma st ->
  exists p, snd (l2_prox ext cfg st x tau) = Ok p /\
    p [+] tau [*] l2_dfun (l2_d cfg) (l2_q cfg) sigma (l2_alpha cfg) p = x.
Proof.
  intros [Hex1 Hex2] Hs Ht [Hsg Hc]. unfold l2_prox.
  destruct (Rleb_spec tau 0) as [[? ?]|[_ ->]]; [lra|].
  cbn [st_count st_x0 st_sigma st_tausigma st_cl st_OpTb]. rewrite Hsg.
  assert (Hts : 0 < tau * sigma) by nra. unfold l2_dfun.
  set (qq := match l2_q cfg with Some q => l2_alpha cfg [*] q | None => vzero end).
  destruct (l2_d cfg) as [A e b|b|o] eqn:Hd.
  - destruct (Hc A e b eq_refl) as [HOpTb Hcl]. rewrite HOpTb.
    rewrite (sub_q_eq cfg). fold qq.
    set (M := fun v => v [+] (tau * sigma) [*] ladj A (A v)).
    set (y := x [+] tau [*] (sigma [*] ladj A b) [-] tau [*] qq).
    assert (Hfin : forall p, M p = y -> p [+] tau [*] (sigma [*] ladj A (A p [-] b) [+] qq) = x).
    { intros p Hp. unfold M, y in Hp. rewrite ladj_sub.
      replace x with (x [+] tau [*] (sigma [*] ladj A b) [-] tau [*] qq [-] tau [*] (sigma [*] ladj A b) [+] tau [*] qq)
        by vring. rewrite <- Hp. vring. }
    destruct (Hex1 A (tau * sigma) y ltac:(lra)) as [Hd1 [Hd2 Hd3]]. fold M in Hd1, Hd2, Hd3.
    destruct e.
    + destruct (l2_dns cfg); simpl; fold M.
      * eexists; split; [reflexivity|]. apply Hfin, Hd1.
      * eexists; split; [reflexivity|]. apply Hfin, Hd1.
      * destruct (Reqb (st_tausigma st) (tau * sigma)) eqn:Hq.
        -- apply Reqb_true in Hq. rewrite Hq in Hcl. rewrite Hcl by lra. fold M. simpl.
           eexists; split; [reflexivity|]. apply Hfin, Hd2.
        -- simpl. eexists; split; [reflexivity|]. apply Hfin, Hd2.
    + destruct (l2_solv cfg); simpl; fold M.
      * eexists; split; [reflexivity|]. apply Hfin, Hd3.
      * eexists; split; [reflexivity|]. apply Hfin, Hd3.
      * eexists; split; [reflexivity|]. rewrite (sub_q_eq cfg); fold qq.
        set (k := sqrt (tau * sigma)).
        set (B := comp_linop (scal_linop F k) A).
        set (p := x_reginv ext B _ _ _ _).
        pose proof (Hex2 B (k [*] b) (x [-] tau [*] qq) (l2_niter cfg (S (st_count st))) (st_x0 st)) as H.
        cbv zeta in H. fold p in H.
        assert (Hk : k * k = tau * sigma) by (apply sqrt_sqrt; lra).
        assert (HB : ladj B (B p [-] k [*] b) = (tau * sigma) [*] ladj A (A p [-] b)).
        { unfold B; simpl. replace (k [*] (k [*] A p [-] k [*] b)) with ((k * k) [*] (A p [-] b)) by vring.
          rewrite Hk, ladj_scal. reflexivity. }
        rewrite HB in H.
        replace (p [+] tau [*] (sigma [*] ladj A (A p [-] b) [+] qq))
          with ((tau * sigma) [*] ladj A (A p [-] b) [+] (p [-] (x [-] tau [*] qq)) [+] x) by vring.
        rewrite H. vring.
  - eexists; split; [reflexivity|]. rewrite (sub_q_eq cfg); fold qq. vfield. lra.
  - eexists; split; [reflexivity|]. rewrite (sub_q_eq cfg); fold qq. vfield. lra.
Qed.

Lemma l2_session_fresh {E F : IPS} (ext : L2Ext E F) cfg sigma :
  l2_exact ext -> 0 < sigma ->
  forall (calls : list (E * R)) (st : L2St ext), l2_fresh cfg sigma st ->
  Forall (fun c => 0 < snd c) calls ->
  Forall2 (fun c r => exists p, r = Ok p /\
      is_prox (etot (l2_fun (l2_d cfg) (l2_q cfg) sigma (l2_alpha cfg))) (snd c) (fst c) p)
    calls (l2_session ext cfg st (map (fun c => ActProx (fst c) (snd c)) calls)).
Proof.
  intros Hex Hs calls; induction calls as [|[x tau] calls IH]; intros st Hst Hpos; simpl; [constructor|].
  inversion Hpos as [|? ? Ht Hpos']; subst. simpl in Ht.
  destruct (l2_prox ext cfg st x tau) as [[st' x'] r] eqn:Hp.
  pose proof (l2_fresh_prox ext cfg sigma st x tau Hst) as Hf. rewrite Hp in Hf; simpl in Hf.
  destruct (l2_prox_step ext cfg sigma st x tau Hex Hs Ht Hst) as [p [Hr Heq]]. rewrite Hp in Hr; simpl in Hr.
  constructor; [|apply IH; auto]. simpl. exists p; split; auto.
  rewrite <- Heq. apply l2_residual_prox; lra.
Qed.

(*! C13_l2_prox : with exact inner solvers, every prox call in every sequence of calls on one L2 object
   returns the exact proximal point of sigma/2|Op x - b|^2 + alpha<q,x>, for every
   configuration: Op explicit (default or named dense solver, or cached factorisation), Op with an
   iterative solver (normal equations or cgls), b only, or neither; with or without q;
   whatever the warm-start state and call counter *)
Lemma l2_prox_correct : forall (E F : IPS) (ext : L2Ext E F) (cfg : L2Cfg E F) sigma x0 (calls : list (E * R)),
  l2_exact ext -> 0 < sigma -> Forall (fun c => 0 < snd c) calls ->
  Forall2 (fun c r => exists p, r = Ok p /\
      is_prox (etot (l2_fun (l2_d cfg) (l2_q cfg) sigma (l2_alpha cfg))) (snd c) (fst c) p)
    calls
    (l2_session ext cfg (l2_init ext cfg sigma x0) (map (fun c => ActProx (fst c) (snd c)) calls)).
Proof. intros. apply l2_session_fresh; auto. apply l2_fresh_init. Qed.

Lemma l2_fun_convex {E F : IPS} (d : l2_data E F) q sigma alpha : 0 <= sigma -> convex (etot (l2_fun d q sigma alpha)).
Proof.
  intros Hs x y t _ _ Ht; split; [exact I|]. cbn [eval etot].
  set (z := (1 - t) [*] x [+] t [*] y).
  pose proof (l2_expand d q sigma alpha z (t [*] (x [-] y))) as Hx.
  pose proof (l2_expand d q sigma alpha z ((t - 1) [*] (x [-] y))) as Hy.
  replace (z [+] t [*] (x [-] y)) with x in Hx by (unfold z; vring).
  replace (z [+] (t - 1) [*] (x [-] y)) with y in Hy by (unfold z; vring).
  rewrite Hx, Hy, !inner_scal_r.
  assert (Hh : forall c, match d with WithOp A _ _ => norm2 (A (c [*] (x [-] y))) | _ => norm2 (c [*] (x [-] y)) end
     = c * c * match d with WithOp A _ _ => norm2 (A (x [-] y)) | _ => norm2 (x [-] y) end).
  { intro c; destruct d; rewrite ?lapp_scal, norm2_scal; auto. }
  rewrite !Hh. pose proof (l2_quad_nonneg d (x [-] y)) as Hn.
  set (N := match d with WithOp A _ _ => norm2 (A (x [-] y)) | _ => norm2 (x [-] y) end) in *.
  set (G := << l2_dfun d q sigma alpha z, x [-] y >>). set (f0 := l2_fun d q sigma alpha z).
  assert (0 <= t * (1 - t) * (sigma / 2 * N)) by (apply Rmult_le_pos; nra). nra.
Qed.

(*! C13_l2_inexact : no assumption on the iterative solver: whatever it returns, the error of prox to the true
   proximal point is at most the norm of the residual M p - y the solver left in the linear system
   it was handed, so the iteration budget only costs accuracy through that residual *)
Lemma l2_inexact : forall (E F : IPS) (ext : L2Ext E F) (cfg : L2Cfg E F) (st : L2St ext) A b sigma x pstar tau,
  0 <= sigma -> 0 < tau -> l2_fresh cfg sigma st ->
  l2_d cfg = WithOp A false b -> l2_solv cfg <> Cgls ->
  is_prox (etot (l2_fun (l2_d cfg) (l2_q cfg) sigma (l2_alpha cfg))) tau x pstar ->
  exists M y p,
    p = x_iter ext M y (l2_niter cfg (S (st_count st))) (st_x0 st) /\
    snd (l2_prox ext cfg st x tau) = Ok p /\
    norm (p [-] pstar) <= norm (M p [-] y).
Proof.
  intros E F ext cfg st A b sigma x pstar tau Hs Ht [Hsg Hf] Hd Hsol Hstar.
  destruct (Hf A false b Hd) as [HOpTb _].
  exists (fun v => v [+] (tau * st_sigma st) [*] ladj A (A v)), (sub_q cfg tau (x [+] tau [*] st_OpTb st)).
  eexists; split; [reflexivity|]. split.
  - unfold l2_prox. destruct (Rleb_spec tau 0) as [[? ?]|[_ ->]]; [lra|]. rewrite Hd.
    destruct (l2_solv cfg); try reflexivity. congruence.
  - match goal with |- norm (?q [-] _) <= _ => set (p := q) end. cbv beta.
    rewrite Hsg, HOpTb, sub_q_eq.
    replace (p [+] (tau * sigma) [*] ladj A (A p) [-]
      (x [+] tau [*] (sigma [*] ladj A b) [-] tau [*] match l2_q cfg with Some q => l2_alpha cfg [*] q | None => vzero end))
      with (p [+] tau [*] l2_dfun (l2_d cfg) (l2_q cfg) sigma (l2_alpha cfg) p [-] x).
    + exact (prox_nonexp _ tau _ _ _ _ (l2_fun_convex (l2_d cfg) (l2_q cfg) sigma (l2_alpha cfg) Hs) Ht
       (l2_residual_prox (l2_d cfg) (l2_q cfg) sigma (l2_alpha cfg) tau p Hs Ht) Hstar).
    + unfold l2_dfun. rewrite Hd, ladj_sub. vring.
Qed.

(*! C13_l2_grad : grad is the gradient of call when qgrad is True (or there is no q), and of call without the
   q-term when qgrad is False; Op is any bounded linear operator *)
Lemma l2_grad_correct : forall (E F : IPS) (ext : L2Ext E F) (cfg : L2Cfg E F) (st : L2St ext) (C : R),
  (forall A e b, l2_d cfg = WithOp A e b -> forall v, norm2 (A v) <= C * norm2 v) ->
  forall x, is_grad (l2_fun (l2_d cfg) (if l2_qgrad cfg then l2_q cfg else None) (st_sigma st) (l2_alpha cfg))
              x (l2_grad ext cfg st x).
Proof.
  intros E F ext cfg st C HC x.
  replace (l2_grad ext cfg st x) with
    (l2_dfun (l2_d cfg) (if l2_qgrad cfg then l2_q cfg else None) (st_sigma st) (l2_alpha cfg) x).
  2:{ unfold l2_dfun, l2_grad. destruct (l2_q cfg), (l2_qgrad cfg), (l2_d cfg); vring. }
  set (q := if l2_qgrad cfg then l2_q cfg else None). set (s := st_sigma st).
  set (K := Rabs s / 2 * (Rabs C + 1) + 1).
  assert (HK : 0 < K). { unfold K. pose proof (Rabs_pos s). pose proof (Rabs_pos C). nra. }
  intros eps He. exists (eps / K). split; [apply Rdiv_lt_0_compat; auto|]. intros h Hh.
  rewrite l2_expand.
  match goal with |- context [s / 2 * ?X] => set (N := X) end.
  assert (HN : 0 <= N <= (Rabs C + 1) * norm2 h).
  { pose proof (norm2_nonneg h). pose proof (Rle_abs C). pose proof (Rabs_pos C).
    split; [apply l2_quad_nonneg|]. unfold N. destruct (l2_d cfg) as [A e b|b|o].
    - specialize (HC A e b eq_refl h). nra.
    - nra.
    - nra. }
  replace (l2_fun (l2_d cfg) q s (l2_alpha cfg) x + << l2_dfun (l2_d cfg) q s (l2_alpha cfg) x, h >> +
    s / 2 * N - l2_fun (l2_d cfg) q s (l2_alpha cfg) x - << l2_dfun (l2_d cfg) q s (l2_alpha cfg) x, h >>)
    with (s / 2 * N) by ring.
  rewrite Rabs_mult, (Rabs_pos_eq N) by lra.
  replace (Rabs (s / 2)) with (Rabs s / 2) by (unfold Rdiv; rewrite Rabs_mult, (Rabs_pos_eq (/ 2)); lra).
  pose proof (Rabs_pos s). pose proof (norm_nonneg h) as Hn0.
  apply Rle_trans with (K * (norm h * norm h)).
  - rewrite norm_sq. unfold K. pose proof (norm2_nonneg h).
    apply Rle_trans with (Rabs s / 2 * ((Rabs C + 1) * norm2 h)); [apply Rmult_le_compat_l; lra | nra].
  - apply Rle_trans with (K * (eps / K * norm h)).
    + apply Rmult_le_compat_l; [lra|]. apply Rmult_le_compat_r; auto.
    + apply Req_le. field. lra.
Qed.

(** ** C14: the cached factorisation *)

Lemma IsATA_inj {E F : IPS} (A : linop E F) s (u v : E) : 0 <= s ->
  u [+] s [*] ladj A (A u) = v [+] s [*] ladj A (A v) -> u = v.
Proof.
  intros Hs H. apply norm2_sub_eq0.
  assert (H0 : (u [-] v) [+] s [*] ladj A (A (u [-] v)) = vzero).
  { rewrite lapp_sub, ladj_sub.
    replace (u [-] v [+] s [*] (ladj A (A u) [-] ladj A (A v)))
      with ((u [+] s [*] ladj A (A u)) [-] (v [+] s [*] ladj A (A v))) by vring.
    rewrite H. vring. }
  assert (H1 : << (u [-] v) [+] s [*] ladj A (A (u [-] v)), u [-] v >> = 0) by (rewrite H0; apply inner_zero_l).
  rewrite inner_add_l, inner_scal_l, ladj_spec' in H1. fold (norm2 (u [-] v)) in H1.
  fold (norm2 (A (u [-] v))) in H1.
  pose proof (norm2_nonneg (A (u [-] v))). pose proof (norm2_nonneg (u [-] v)). nra.
Qed.


Lemma l2_coherent_gen {E F : IPS} (ext : L2Ext E F) cfg : l2_exact ext ->
  forall (h : list l2_action) (sf sd : L2St ext),
  Forall (fun a => match a with ActSigma s => 0 < s | _ => True end) h ->
  0 < st_sigma sf ->
  st_count sf = st_count sd -> st_x0 sf = st_x0 sd -> st_sigma sf = st_sigma sd -> st_OpTb sf = st_OpTb sd ->
  (forall A e b, l2_d cfg = WithOp A e b -> st_tausigma sf <> 0 ->
     st_cl sf = Some (x_cho_factor ext (fun v => v [+] st_tausigma sf [*] ladj A (A v)))) ->
  l2_session ext (with_dense cfg Factorize) sf h = l2_session ext (with_dense cfg DenseDefault) sd h.
Proof.
  intros [Hex _] h; induction h as [|a h IH]; intros sf sd Hpos Hsp Hcn Hx0 Hsg Htb Hcl; [reflexivity|].
  inversion Hpos as [|? ? Ha Hpos']; subst.
  destruct a as [x tau|s].
  - cbn [l2_session].
    assert (Hstep : exists st1 st2 x' r,
      l2_prox ext (with_dense cfg Factorize) sf x tau = (st1, x', r) /\
      l2_prox ext (with_dense cfg DenseDefault) sd x tau = (st2, x', r) /\
      0 < st_sigma st1 /\
      st_count st1 = st_count st2 /\ st_x0 st1 = st_x0 st2 /\ st_sigma st1 = st_sigma st2 /\ st_OpTb st1 = st_OpTb st2 /\
      (forall A e b, l2_d cfg = WithOp A e b -> st_tausigma st1 <> 0 ->
         st_cl st1 = Some (x_cho_factor ext (fun v => v [+] st_tausigma st1 [*] ladj A (A v))))).
    { unfold l2_prox. destruct (Rleb_spec tau 0) as [[? ->]|[Ht ->]].
      { eexists _, _, _, _; split; [reflexivity|]; split; [reflexivity|]. simpl. rewrite Hcn. repeat split; auto. }
      cbn [st_count st_x0 st_sigma st_tausigma st_cl st_OpTb].
      change (l2_d (with_dense cfg Factorize)) with (l2_d cfg).
      change (l2_d (with_dense cfg DenseDefault)) with (l2_d cfg).
      change (l2_solv (with_dense cfg Factorize)) with (l2_solv cfg).
      change (l2_solv (with_dense cfg DenseDefault)) with (l2_solv cfg).
      change (l2_warm (with_dense cfg Factorize)) with (l2_warm cfg).
      change (l2_warm (with_dense cfg DenseDefault)) with (l2_warm cfg).
      change (l2_niter (with_dense cfg Factorize)) with (l2_niter cfg).
      change (l2_niter (with_dense cfg DenseDefault)) with (l2_niter cfg).
      change (sub_q (with_dense cfg Factorize)) with (sub_q cfg).
      change (sub_q (with_dense cfg DenseDefault)) with (sub_q cfg).
      cbn [l2_dns with_dense].
      rewrite <- Hsg, <- Htb, <- Hcn, <- Hx0.
      assert (Hts : 0 < tau * st_sigma sf) by nra.
      destruct (l2_d cfg) as [A e b|b|o] eqn:Hd.
      - destruct e.
        + set (M := fun v => v [+] (tau * st_sigma sf) [*] ladj A (A v)).
          set (y := sub_q cfg tau (x [+] tau [*] st_OpTb sf)).
          assert (Hsame : x_cho_solve ext (x_cho_factor ext M) y = x_div ext M y).
          { destruct (Hex A (tau * st_sigma sf) y ltac:(lra)) as [D1 [D2 _]]. fold M in D1, D2.
            apply (IsATA_inj A (tau * st_sigma sf)); [lra|]. unfold M in D1, D2 at 1. 
            etransitivity; [exact D2 | symmetry; exact D1]. }
          destruct (Reqb (st_tausigma sf) (tau * st_sigma sf)) eqn:Hq.
          * apply Reqb_true in Hq.
            assert (Hc1 : st_cl sf = Some (x_cho_factor ext M)).
            { rewrite (Hcl A true b eq_refl) by lra. rewrite Hq. reflexivity. }
            cbn [st_cl]. rewrite Hc1. cbv zeta. rewrite Hsame.
            eexists _, _, _, _; split; [reflexivity|]; split; [reflexivity|]. simpl.
            repeat split; auto. intros A' e' b' Hd' Hne. injection Hd' as <- <- <-. unfold M. rewrite <- Hq. reflexivity.
          * cbn [st_cl]. cbv zeta. fold M. rewrite Hsame.
            eexists _, _, _, _; split; [reflexivity|]; split; [reflexivity|]. simpl.
            repeat split; auto. intros A' e' b' Hd' Hne. injection Hd' as <- <- <-. reflexivity.
        + destruct (l2_solv cfg); eexists _, _, _, _; (split; [reflexivity|]; split; [reflexivity|]);
            simpl; repeat split; auto.
      - eexists _, _, _, _; split; [reflexivity|]; split; [reflexivity|]. simpl. repeat split; auto.
      - eexists _, _, _, _; split; [reflexivity|]; split; [reflexivity|]. simpl. repeat split; auto. }
    destruct Hstep as [st1 [st2 [x' [r [E1 [E2 [G0 [G1 [G2 [G3 [G4 G5]]]]]]]]]]].
    rewrite E1, E2. f_equal. apply IH; auto.
  - cbn [l2_session]. apply IH; simpl; auto.
Qed.

(*! C14_cache_coherent : for every session (any sequence of prox calls with any steps, rejected ones included,
   interleaved with assignments of positive values to the public attribute sigma), the object using the cached
   Cholesky factor and the object solving afresh every time return exactly the same results *)
Lemma cache_coherent : forall (E F : IPS) (ext : L2Ext E F) (cfg : L2Cfg E F) sigma x0 (h : list l2_action),
  l2_exact ext -> 0 < sigma ->
  Forall (fun a => match a with ActSigma s => 0 < s | _ => True end) h ->
  l2_session ext (with_dense cfg Factorize) (l2_init ext (with_dense cfg Factorize) sigma x0) h =
  l2_session ext (with_dense cfg DenseDefault) (l2_init ext (with_dense cfg DenseDefault) sigma x0) h.
Proof.
  intros. apply l2_coherent_gen; auto. intros A e b _ Hne. simpl in Hne. lra.
Qed.


Lemma R_lin (A : linop R_IPS R_IPS) (v : R) : (A v : R) = v * (A 1 : R).
Proof. pose proof (lapp_scal A v (1 : R_IPS)) as H. simpl in H. rewrite Rmult_1_r in H. exact H. Qed.
Lemma R_adj (A : linop R_IPS R_IPS) (v : R) : (ladj A v : R) = v * (A 1 : R).
Proof. pose proof (ladj_spec' A (1 : R_IPS) (v : R_IPS)) as H. simpl in H. rewrite Rmult_1_r in H. exact H. Qed.

(*!ex C13_example : exact solvers exist: on the real line plain division solves all the systems *)
Lemma C13_example_l : l2_exact R_ext.
Proof.
  split.
  - intros A s y Hs M. unfold M; simpl.
    assert (Hp : 0 < 1 + s * ((A 1 : R) * (A 1 : R))) by nra.
    assert (Hx : (ladj A (A 1) : R) = (A 1 : R) * (A 1 : R)) by apply R_adj.
    assert (H : forall u : R, u = y / (1 + s * ladj A (A 1)) -> u + s * ladj A (A u) = y).
    { intros u Hu. rewrite (R_adj A (A u)), (R_lin A u). rewrite Hx in Hu. rewrite Hu. field. lra. }
    split; [|split]; try (intros n w); apply H; reflexivity.
  - intros B c y n w r.
    assert (Hr : (r : R) = ((ladj B c : R) + y) / (1 + (ladj B (B 1) : R))) by reflexivity.
    unfold vsub; simpl.
    assert (Hx : (ladj B (B 1) : R) = (B 1 : R) * (B 1 : R)) by apply R_adj.
    rewrite (R_adj B ((B r : R) + -1 * c)), (R_lin B r), Hr, Hx, (R_adj B c). field. nra.
Qed.

(*! C14_sigma_change_refuted : assigning a new value to the public attribute sigma between calls is *not*
   honoured: the data term Op'b was scaled with the old sigma in the constructor, so the result is
   the prox of neither the old nor the new function *)
Lemma sigma_change_refuted :
  exists (cfg : L2Cfg R_IPS R_IPS) (p : R),
    l2_session R_ext cfg (l2_init R_ext cfg 1 None) [ActSigma 3; ActProx (0 : R_IPS) 1] = [Ok (p : R_IPS)] /\
    l2_exact R_ext /\
    ~ is_prox (etot (l2_fun (l2_d cfg) (l2_q cfg) 3 (l2_alpha cfg))) 1 (0 : R_IPS) (p : R_IPS) /\
    ~ is_prox (etot (l2_fun (l2_d cfg) (l2_q cfg) 1 (l2_alpha cfg))) 1 (0 : R_IPS) (p : R_IPS).
Proof.
  exists (mkL2 (WithOp (id_linop R_IPS) true (1 : R_IPS)) None 1 true (fun _ => 10%nat) true Legacy DenseDefault), (1 / 4).
  split; [|split; [exact C13_example_l|]].
  - simpl. unfold l2_prox; simpl. destruct (Rleb_spec 1 0) as [[? ?]|[_ ->]]; [lra|].
    simpl. do 2 f_equal. unfold sub_q; simpl. field.
  - split; intros [_ H]; cbn [eval etot l2_d l2_q l2_alpha] in H; unfold l2_fun, norm2, vsub in H; simpl in H.
    + specialize (H (3 / 4) I). lra.
    + specialize (H (1 / 2) I). lra.
Qed.

(*! C14_sigma_zero_refuted : with sigma = 0 the cached mode always fails (no factor was ever computed because
   the initial key 0.0 equals tau*sigma), while the uncached mode returns *)
Lemma sigma_zero_refuted : forall (E F : IPS) (ext : L2Ext E F) (A : linop E F) (b : F) x tau,
  0 < tau ->
  let cfg d := mkL2 (WithOp A true b) None 1 true (fun _ => 10%nat) true Legacy d in
  snd (l2_prox ext (cfg Factorize) (l2_init ext (cfg Factorize) 0 None) x tau) = Err AttributeError /\
  exists p, snd (l2_prox ext (cfg DenseDefault) (l2_init ext (cfg DenseDefault) 0 None) x tau) = Ok p.
Proof.
  intros E F ext A b x tau Ht cfg. unfold l2_prox; simpl.
  destruct (Rleb_spec tau 0) as [[? ?]|[_ ->]]; [lra|]. simpl. rewrite Rmult_0_r.
  split; [|eexists; reflexivity].
  destruct (Reqb 0 0) eqn:H; [reflexivity|]. apply Reqb_false in H; lra.
Qed.

(** ** C34 (L2 part): the caller's array *)

(*! C34_l2_mutates_refuted : L2 with a q-term overwrites the caller's array x in two configurations (neither Op
   nor b; and the cgls solver): after the call x holds x - tau*alpha*q, which differs from x
   whenever alpha*q is not 0 *)
Lemma l2_mutates : forall (E F : IPS) (ext : L2Ext E F) (cfg : L2Cfg E F) (st : L2St ext) (q x : E) tau,
  0 < tau -> l2_q cfg = Some q -> l2_alpha cfg <> 0 -> q <> vzero ->
  (exists o, l2_d cfg = NoB o) \/ (exists A b, l2_d cfg = WithOp A false b /\ l2_solv cfg = Cgls) ->
  let x_after := snd (fst (l2_prox ext cfg st x tau)) in
  x_after = x [-] (tau * l2_alpha cfg) [*] q /\ x_after <> x.
Proof.
  intros E F ext cfg st q x tau Ht Hq Ha Hq0 Hcase x_after.
  assert (Heq : x_after = x [-] (tau * l2_alpha cfg) [*] q).
  { unfold x_after, l2_prox. destruct (Rleb_spec tau 0) as [[? ?]|[_ ->]]; [lra|].
    destruct Hcase as [[o Hd]|[A [b [Hd Hs]]]]; rewrite Hd; [|rewrite Hs]; simpl; unfold sub_q; rewrite Hq; auto. }
  split; auto. rewrite Heq. intro H. apply Hq0.
  assert (H0 : (tau * l2_alpha cfg) [*] q = vzero).
  { replace ((tau * l2_alpha cfg) [*] q) with (x [-] (x [-] (tau * l2_alpha cfg) [*] q)) by vring.
    rewrite H. vring. }
  replace q with (/ (tau * l2_alpha cfg) [*] ((tau * l2_alpha cfg) [*] q)) by (vfield; split; [auto | lra]).
  rewrite H0. vring.
Qed.

(*! C34_l2_preserves : in every other configuration, and always when there is no q-term, prox leaves the caller's
   array untouched, also when it raises *)
Lemma l2_preserves : forall (E F : IPS) (ext : L2Ext E F) (cfg : L2Cfg E F) (st : L2St ext) (x : E) tau,
  l2_q cfg = None \/ (exists b, l2_d cfg = OnlyB b) \/ (exists A b, l2_d cfg = WithOp A true b) \/
  (exists A b, l2_d cfg = WithOp A false b /\ l2_solv cfg <> Cgls) ->
  snd (fst (l2_prox ext cfg st x tau)) = x.
Proof.
  intros E F ext cfg st x tau H. unfold l2_prox. destruct (Rleb tau 0); [reflexivity|]. simpl.
  destruct H as [H|[[b H]|[[A [b H]]|[A [b [H Hs]]]]]].
  - destruct (l2_d cfg) as [A e b|b|o].
    + destruct e.
      * destruct (l2_dns cfg); try reflexivity. 
        destruct (Reqb (st_tausigma st) (tau * st_sigma st)); simpl; [destruct (st_cl st)|]; reflexivity.
      * destruct (l2_solv cfg); simpl; try reflexivity. unfold sub_q; rewrite H; reflexivity.
    + reflexivity.
    + simpl. unfold sub_q; rewrite H; reflexivity.
  - rewrite H; reflexivity.
  - rewrite H. destruct (l2_dns cfg); try reflexivity. 
    destruct (Reqb (st_tausigma st) (tau * st_sigma st)); simpl; [destruct (st_cl st)|]; reflexivity.
  - rewrite H. destruct (l2_solv cfg); try reflexivity. congruence.
Qed.
