(** * The solvers with operators whose parameter depends on the number of calls (M_Count.v) *)
From Coq Require Import String Psatz.
From Verif Require Import Base Space Spec Sep Cplx ConvexFacts Smooth VSum MatFacts M_ProxOp SpecOps P_ProxOp M_Norms P_Norms M_L1 M_L0 M_Pen S_L1 P_L1 M_Loop LoopFacts SeqFacts M_PG M_Split M_PD SplitMath P_PG P_PG2 P_PG3 P_Split2 S_Seq Compact Fejer IterMath S_Iter P_Iter S_Inexact InexactMath M_Objs S_Lasso P_Lasso S_L0 P_L0 S_Sparse M_Count CountMath.
From Verif Require Export S_Count.
Open Scope result_scope.
Open Scope R_scope.

(** ** operators without counter *)
Lemma loop_sim {S C} (b1 : nat -> S -> result (S * bool)) (b2 : nat -> S * C -> result ((S * C) * bool)) c n :
  (forall j s, b2 j (s, c) = match b1 j s with Ok p => Ok ((fst p, c), snd p) | Err e => Err e end) ->
  forall i s, for_loop b2 n i (s, c) = match for_loop b1 n i s with Ok r => Ok ((fst r, c), snd r) | Err e => Err e end.
Proof.
  intro H. induction n as [|n IH]; intros i s; cbn [for_loop]; [reflexivity|]. rewrite H. destruct (b1 i s) as [[s' b]|e]; cbn [bind fst snd]; [|reflexivity].
  destruct b; [reflexivity|]. apply IH.
Qed.
Lemma bt_sim {E : IPS} (x : E) (f g : Op E) epsg beta n c : forall tau z,
  cbt_loop x f (plain g) epsg beta n tau z c = match bt_loop x f g epsg beta n tau z with Ok r => Ok (r, c) | Err e => Err e end.
Proof.
  induction n as [|n IH]; intros tau z; cbn [cbt_loop bt_loop]; [destruct z; reflexivity|]. destruct (get_grad f x) as [gr|]; cbn [bind]; [|reflexivity].
  unfold call, plain. cbn [c_prox snd fst]. destruct (o_prox g (x [-] tau [*] gr) (epsg * tau)) as [p|]; cbn [bind fst snd]; [|reflexivity].
  destruct (ftilde f p x tau) as [ft|]; cbn [bind]; [|reflexivity]. destruct (get_val f p) as [v|]; cbn [bind]; [|reflexivity]. destruct (Rleb v ft); [reflexivity|]. apply IH.
Qed.
Ltac brk := repeat (match goal with |- context [bind ?r _] => lazymatch r with bind _ _ => fail | Ok _ => fail | Err _ => fail | _ => destruct r as [?|?]; cbn [bind fst snd]; try reflexivity end end).

(*! C100_plain : with operators that do not count (every class but L1, L0, L0Ball, L10Ball and compositions of them) the solvers
   with counters return exactly what the solvers of the other properties return, exceptions included, and leave the counters alone *)
Lemma C100_plain_l : forall (E F : IPS) (f g : Op E) (h : Op F) (A : linop E F) alias cf cg niter gfirst,
  (forall x0 tau, cProximalPoint (plain f) cf x0 tau niter = match ProximalPoint f x0 tau niter None with Ok (x, tr) => Ok (x, cf, tr) | Err e => Err e end) /\
  (forall x0 epsg tau bt beta eta nb accel tol, cProximalGradient f (plain g) cg x0 epsg tau bt beta eta niter nb accel tol =
     match ProximalGradient f g x0 epsg tau bt beta eta niter nb accel tol with Ok r => Ok (r, cg) | Err e => Err e end) /\
  (forall x0 tau z0, cHQS (plain f) (plain g) cf cg x0 tau niter z0 gfirst = with_counters (HQS f g x0 tau niter z0 gfirst) (cf, cg)) /\
  (forall x0 tau z0, cADMM (plain f) (plain g) cf cg x0 tau niter z0 gfirst = with_counters (ADMM f g x0 tau niter z0 gfirst) (cf, cg)) /\
  (forall x0 tau eta, cDouglasRachford (plain f) (plain g) cf cg x0 tau eta niter gfirst = with_counters (DouglasRachford f g x0 tau eta niter gfirst) (cf, cg)) /\
  (forall x0 tau mu z0, cLinearizedADMM (plain f) (plain h) cf cg A x0 tau mu niter z0 = with_counters (LinearizedADMM f h A x0 tau mu niter z0) (cf, cg)) /\
  (forall x0 tau mu y0 z theta, cPrimalDual (plain f) (plain h) cf cg A alias x0 tau mu y0 z theta niter gfirst = with_counters (PrimalDual f h A alias x0 tau mu y0 z theta niter gfirst) (cf, cg)).
Proof.
  intros E F f g h A alias cf cg niter gfirst. split; [|split; [|split; [|split; [|split; [|split]]]]].
  - intros x0 tau. unfold cProximalPoint, ProximalPoint.
    assert (G : forall n i x pf tr, for_loop (cpp_body (plain f) tau) n i (x, cf, tr) = match for_loop (pp_body f tau None) n i (PP x pf tr) with Ok r => Ok (pp_x (fst r), cf, pp_tr (fst r), snd r) | Err e => Err e end).
    { induction n as [|n IH]; intros i x pf tr; cbn [for_loop]; [reflexivity|]. unfold cpp_body at 1, pp_body at 1, call, plain. cbn [c_prox snd fst pp_x pp_tr pp_pf]. destruct (o_prox f x tau) as [p|]; cbn [bind fst snd]; [|reflexivity]. apply (IH _ p pf). }
    rewrite (G niter 0%nat x0 None []). destruct (for_loop (pp_body f tau None) niter 0 (PP x0 None [])) as [[s k]|]; reflexivity.
  - intros x0 epsg tau bt beta eta nb accel tol. unfold cProximalGradient, ProximalGradient. destruct (pg_epsg epsg niter) as [es|]; cbn [bind]; [|reflexivity]. destruct (accel_known accel); [|reflexivity].
    set (bt' := match tau with None => true | Some _ => bt end). set (t0 := match tau with None => 1 | Some t => t end).
    rewrite (loop_sim (pg_body f g es bt' beta eta nb accel tol)).
    + destruct (for_loop (pg_body f g es bt' beta eta nb accel tol) niter 0 (PG x0 x0 1 t0 None [])) as [[s k]|]; reflexivity.
    + intros j s. unfold cpg_body, pg_body. destruct (getitem es j) as [e|]; cbn [bind]; [|reflexivity].
      assert (G : cpg_prox_step f (plain g) bt' beta eta nb e (pg_x s) (pg_y s) (pg_tau s) cg = match pg_prox_step f g bt' beta eta nb e (pg_x s) (pg_y s) (pg_tau s) with Ok r => Ok (r, cg) | Err er => Err er end).
      { unfold cpg_prox_step, pg_prox_step, backtracking. rewrite bt_sim. unfold call, plain. cbn [c_prox snd fst]. destruct bt'; [|destruct (Reqb eta 1); brk].
        destruct (bt_loop (pg_y s) f g e beta nb (pg_tau s) None) as [[z t]|]; cbn [bind fst snd]; [|reflexivity]. destruct (Reqb eta 1); [reflexivity|]. brk. }
      rewrite G. destruct (pg_prox_step f g bt' beta eta nb e (pg_x s) (pg_y s) (pg_tau s)) as [[x t]|]; cbn [bind fst snd]; [|reflexivity]. destruct tol as [tol|]; [|reflexivity].
      destruct (get_val f x) as [v|]; cbn [bind]; [|reflexivity]. unfold get_val. cbn [c_call plain]. destruct (o_call g x) as [v'|]; cbn [bind]; [|reflexivity].
      destruct (rel_stop false tol (v + e * as_num v') (pg_pfg s)); reflexivity.
  - intros x0 tau z0. unfold cHQS, HQS. destruct (x0z0_init x0 z0) as [[x z]|]; cbn [bind fst snd]; [|reflexivity].
    rewrite (loop_sim (hqs_body f g (hqs_taus tau niter) gfirst)).
    + destruct (for_loop (hqs_body f g (hqs_taus tau niter) gfirst) niter 0 (HQ x z [])) as [[s k]|]; reflexivity.
    + intros j s. unfold chqs_body, hqs_body, call, plain. cbn [c_prox snd fst]. destruct gfirst; brk.
  - intros x0 tau z0. unfold cADMM, ADMM. destruct (x0z0_init x0 z0) as [[x z]|]; cbn [bind fst snd]; [|reflexivity].
    rewrite (loop_sim (admm_body f g tau gfirst)).
    + destruct (for_loop (admm_body f g tau gfirst) niter 0 (AD x z vzero [])) as [[s k]|]; reflexivity.
    + intros j s. unfold cadmm_body, admm_body, call, plain. cbn [c_prox snd fst]. destruct gfirst; brk.
  - intros x0 tau eta. unfold cDouglasRachford, DouglasRachford. rewrite (loop_sim (dr_body f g tau eta gfirst)).
    + destruct (for_loop (dr_body f g tau eta gfirst) niter 0 (DR None x0 [])) as [[s k]|]; cbn [bind fst snd]; [|reflexivity]. destruct (d_x s); reflexivity.
    + intros j s. unfold cdr_body, dr_body, call, plain. cbn [c_prox snd fst]. destruct gfirst; brk.
  - intros x0 tau mu z0. unfold cLinearizedADMM, LinearizedADMM. destruct (x0z0_initA (lapp A) x0 z0) as [[x z]|]; cbn [bind fst snd]; [|reflexivity].
    rewrite (loop_sim (la_body f h A tau mu)).
    + match goal with |- context [for_loop ?b ?n ?i ?s] => destruct (for_loop b n i s) as [[? ?]|]; reflexivity end.
    + intros j s. unfold cla_body, la_body, call, plain. cbn [c_prox snd fst]. brk.
  - intros x0 tau mu y0 z theta. unfold cPrimalDual, PrimalDual. rewrite (loop_sim (pd_body f h A alias z theta gfirst (steps_arr tau niter) (steps_arr mu niter))).
    + match goal with |- context [for_loop ?b ?n ?i ?s] => destruct (for_loop b n i s) as [[? ?]|]; reflexivity end.
    + intros j s. unfold cpd_body, pd_body, call, plain. cbn [c_prox c_dual snd fst]. destruct gfirst.
      * destruct (getitem (steps_arr mu niter) j) as [m|]; cbn [bind]; [|reflexivity]. destruct (o_proxdual h (pd_y s [+] m [*] A (pd_hat s)) m) as [y|]; cbn [bind fst snd]; [|reflexivity]. destruct (rmatvec_plus A alias z y) as [aty y']. brk.
      * destruct (rmatvec_plus A alias z (pd_y s)) as [aty y']. brk.
Qed.

(** ** which value of the parameter an iteration uses *)
Lemma call_ticks {E : IPS} {o : COp E} {d at_} (H : ticks o d at_) c x t : 0 < t -> call (c_prox o c x t) = (a <- at_ (d + c)%nat x t ;; Ok (a, (d + c)%nat)).
Proof. intro Ht. unfold call. rewrite (H c x t Ht). reflexivity. Qed.
Lemma nth_error_snoc {A} (l : list A) a k b : nth_error (l ++ [a]) k = Some b -> (nth_error l k = Some b /\ (k < List.length l)%nat) \/ (k = List.length l /\ a = b).
Proof.
  intro H. destruct (Nat.lt_ge_cases k (List.length l)) as [Hk|Hk].
  - left. rewrite nth_error_app1 in H by exact Hk. auto.
  - right. assert (Hl : (k < List.length (l ++ [a]))%nat) by (apply nth_error_Some; congruence). rewrite app_length in Hl. cbn [List.length] in Hl. assert (k = List.length l) by lia. subst k. rewrite nth_error_app2, Nat.sub_diag in H by lia. cbn in H. injection H. auto.
Qed.
(*! C100_index : an operator that counts (d = 1; d = 0 for one that does not) inside HQS, ADMM, DouglasRachfordSplitting or
   ProximalGradient with a fixed step (eta = 1, any acceleration and tolerance): it is called exactly once per iteration. The
   operator whose counter is c when the solver starts uses in iteration k = 0, 1, ... the parameter of index c + k + 1, so
   sigma(0) is never used by a new object; at the end the counter is c + the number of iterations *)
Lemma C100_index_l : forall (E : IPS) (f g : COp E) df dg atf atg cf cg, ticks f df atf -> ticks g dg atg ->
  (forall x0 tau n z0 gfirst x z tr c, 0 < tau -> cHQS f g cf cg x0 [tau] n z0 gfirst = Ok (x, z, tr, c) ->
     c = (n * df + cf, n * dg + cg)%nat /\ List.length tr = n /\
     forall k xk zk, nth_error tr k = Some (xk, zk) -> exists u v, atf (S k * df + cf)%nat u tau = Ok xk /\ atg (S k * dg + cg)%nat v tau = Ok zk) /\
  (forall x0 tau n z0 gfirst x z tr c, 0 < tau -> cADMM f g cf cg x0 tau n z0 gfirst = Ok (x, z, tr, c) ->
     c = (n * df + cf, n * dg + cg)%nat /\ List.length tr = n /\
     forall k xk zk, nth_error tr k = Some (xk, zk) -> exists u v, atf (S k * df + cf)%nat u tau = Ok xk /\ atg (S k * dg + cg)%nat v tau = Ok zk) /\
  (forall x0 tau eta n gfirst x y tr c, 0 < tau -> cDouglasRachford f g cf cg x0 tau eta n gfirst = Ok (x, y, tr, c) ->
     c = (n * df + cf, n * dg + cg)%nat /\ List.length tr = n /\
     forall k xk yk, nth_error tr k = Some (xk, yk) -> exists y v p, yk = y [+] eta [*] (p [-] xk) /\
       if gfirst then atg (S k * dg + cg)%nat y tau = Ok xk /\ atf (S k * df + cf)%nat v tau = Ok p
       else atf (S k * df + cf)%nat y tau = Ok xk /\ atg (S k * dg + cg)%nat v tau = Ok p) /\
  (forall pf x0 e tau beta n nb accel tol x tr c, 0 < e -> 0 < tau -> cProximalGradient pf g cg x0 [e] (Some tau) false beta 1 n nb accel tol = Ok (x, tr, c) ->
     c = (List.length tr * dg + cg)%nat /\ (1 <= List.length tr <= n)%nat /\
     forall k xk, nth_error tr k = Some xk -> exists v, atg (S k * dg + cg)%nat v (e * tau) = Ok xk).
Proof.
  intros E f g df dg atf atg cf cg Hf Hg. split; [|split; [|split]].
  - intros x0 tau n z0 gfirst x z tr c Ht H. unfold cHQS in H. destruct (x0z0_init x0 z0) as [[x1 z1]|]; cbn [bind fst snd] in H; [|discriminate].
    destruct (for_loop (chqs_body f g (hqs_taus [tau] n) gfirst) n 0 (HQ x1 z1 [], (cf, cg))) as [[[s cs] k]|] eqn:El; cbn [bind fst] in H; [|discriminate]. injection H as <- <- <- <-.
    assert (Hstep : forall j s s' b, chqs_body f g (hqs_taus [tau] n) gfirst j s = Ok (s', b) -> b = false /\ exists xk zk u v, h_tr (fst s') = h_tr (fst s) ++ [(xk, zk)] /\
       snd s' = (df + fst (snd s), dg + snd (snd s))%nat /\ atf (df + fst (snd s))%nat u tau = Ok xk /\ atg (dg + snd (snd s))%nat v tau = Ok zk).
    { intros j [s0 [a b0]] s' b Hb. unfold chqs_body in Hb. destruct (getitem (hqs_taus [tau] n) j) as [t|] eqn:Et; cbn [bind] in Hb; [|discriminate].
      assert (t = tau). { unfold getitem, hqs_taus in Et. destruct (nth_error (repeat tau n) j) as [t'|] eqn:En; [|discriminate]. injection Et as <-. apply nth_error_In, repeat_spec in En. exact En. }
      subst t. cbn [fst snd]. destruct gfirst; rewrite ?(call_ticks Hg), ?(call_ticks Hf) in Hb by exact Ht; cbn [fst snd] in Hb.
      - destruct (atg (dg + b0)%nat (h_x s0) tau) as [zk|] eqn:E1; cbn [bind fst snd] in Hb; [|discriminate]. rewrite (call_ticks Hf) in Hb by exact Ht. cbn [fst snd] in Hb. destruct (atf (df + a)%nat zk tau) as [xk|] eqn:E2; cbn [bind fst snd] in Hb; [|discriminate].
        injection Hb as <- <-. split; [reflexivity|]. exists xk, zk, zk, (h_x s0). cbn [h_tr fst snd]. auto.
      - destruct (atf (df + a)%nat (h_z s0) tau) as [xk|] eqn:E1; cbn [bind fst snd] in Hb; [|discriminate]. rewrite (call_ticks Hg) in Hb by exact Ht. cbn [fst snd] in Hb. destruct (atg (dg + b0)%nat xk tau) as [zk|] eqn:E2; cbn [bind fst snd] in Hb; [|discriminate].
        injection Hb as <- <-. split; [reflexivity|]. exists xk, zk, (h_z s0), xk. cbn [h_tr fst snd]. auto. }
    pose proof (for_loop_count _ n 0 _ _ _ (fun j s s' b Hb => proj1 (Hstep j s s' b Hb)) El) as Hk. cbn [Nat.add] in Hk. subst k.
    apply (for_loop_inv _ (fun j s => snd s = (j * df + cf, j * dg + cg)%nat /\ List.length (h_tr (fst s)) = j /\
      forall k xk zk, nth_error (h_tr (fst s)) k = Some (xk, zk) -> exists u v, atf (S k * df + cf)%nat u tau = Ok xk /\ atg (S k * dg + cg)%nat v tau = Ok zk)) in El.
    + exact (proj1 El).
    + intros j s0 s' b (Hc & Hl & Hn) Hb. destruct (Hstep _ _ _ _ Hb) as (_ & xk & zk & u & v & Htr & Hcs & A1 & A2). rewrite Hc in Hcs, A1, A2. cbn [fst snd] in Hcs, A1, A2. split; [rewrite Hcs; f_equal; lia|]. split; [rewrite Htr, app_length, Hl; cbn [List.length]; lia|].
      rewrite Htr. intros k a b1 Hnk. apply nth_error_snoc in Hnk as [[Hnk _]|[Hk Heq]]; [apply Hn; exact Hnk|]. injection Heq as <- <-. rewrite Hl in Hk. subst k. exists u, v.
      replace (S j * df + cf)%nat with (df + (j * df + cf))%nat by lia. replace (S j * dg + cg)%nat with (dg + (j * dg + cg))%nat by lia. auto.
    + cbn [fst snd h_tr List.length]. split; [f_equal; lia|]. split; [reflexivity|]. intros k a b1 Hnk. destruct k; discriminate Hnk.
  - intros x0 tau n z0 gfirst x z tr c Ht H. unfold cADMM in H. destruct (x0z0_init x0 z0) as [[x1 z1]|]; cbn [bind fst snd] in H; [|discriminate].
    destruct (for_loop (cadmm_body f g tau gfirst) n 0 (AD x1 z1 vzero [], (cf, cg))) as [[[s cs] k]|] eqn:El; cbn [bind fst] in H; [|discriminate]. injection H as <- <- <- <-.
    assert (Hstep : forall j s s' b, cadmm_body f g tau gfirst j s = Ok (s', b) -> b = false /\ exists xk zk u v, a_tr (fst s') = a_tr (fst s) ++ [(xk, zk)] /\
       snd s' = (df + fst (snd s), dg + snd (snd s))%nat /\ atf (df + fst (snd s))%nat u tau = Ok xk /\ atg (dg + snd (snd s))%nat v tau = Ok zk).
    { intros j [s0 [a b0]] s' b Hb. unfold cadmm_body in Hb. cbn [fst snd]. destruct gfirst; rewrite ?(call_ticks Hg), ?(call_ticks Hf) in Hb by exact Ht; cbn [fst snd] in Hb.
      - destruct (atg (dg + b0)%nat (a_x s0 [+] a_u s0) tau) as [zk|] eqn:E1; cbn [bind fst snd] in Hb; [|discriminate]. rewrite (call_ticks Hf) in Hb by exact Ht. cbn [fst snd] in Hb. destruct (atf (df + a)%nat (zk [-] a_u s0) tau) as [xk|] eqn:E2; cbn [bind fst snd] in Hb; [|discriminate].
        injection Hb as <- <-. split; [reflexivity|]. exists xk, zk, (zk [-] a_u s0), (a_x s0 [+] a_u s0). cbn [a_tr fst snd]. auto.
      - destruct (atf (df + a)%nat (a_z s0 [-] a_u s0) tau) as [xk|] eqn:E1; cbn [bind fst snd] in Hb; [|discriminate]. rewrite (call_ticks Hg) in Hb by exact Ht. cbn [fst snd] in Hb. destruct (atg (dg + b0)%nat (xk [+] a_u s0) tau) as [zk|] eqn:E2; cbn [bind fst snd] in Hb; [|discriminate].
        injection Hb as <- <-. split; [reflexivity|]. exists xk, zk, (a_z s0 [-] a_u s0), (xk [+] a_u s0). cbn [a_tr fst snd]. auto. }
    pose proof (for_loop_count _ n 0 _ _ _ (fun j s s' b Hb => proj1 (Hstep j s s' b Hb)) El) as Hk. cbn [Nat.add] in Hk. subst k.
    apply (for_loop_inv _ (fun j s => snd s = (j * df + cf, j * dg + cg)%nat /\ List.length (a_tr (fst s)) = j /\
      forall k xk zk, nth_error (a_tr (fst s)) k = Some (xk, zk) -> exists u v, atf (S k * df + cf)%nat u tau = Ok xk /\ atg (S k * dg + cg)%nat v tau = Ok zk)) in El.
    + exact (proj1 El).
    + intros j s0 s' b (Hc & Hl & Hn) Hb. destruct (Hstep _ _ _ _ Hb) as (_ & xk & zk & u & v & Htr & Hcs & A1 & A2). rewrite Hc in Hcs, A1, A2. cbn [fst snd] in Hcs, A1, A2. split; [rewrite Hcs; f_equal; lia|]. split; [rewrite Htr, app_length, Hl; cbn [List.length]; lia|].
      rewrite Htr. intros k a b1 Hnk. apply nth_error_snoc in Hnk as [[Hnk _]|[Hk Heq]]; [apply Hn; exact Hnk|]. injection Heq as <- <-. rewrite Hl in Hk. subst k. exists u, v.
      replace (S j * df + cf)%nat with (df + (j * df + cf))%nat by lia. replace (S j * dg + cg)%nat with (dg + (j * dg + cg))%nat by lia. auto.
    + cbn [fst snd a_tr List.length]. split; [f_equal; lia|]. split; [reflexivity|]. intros k a b1 Hnk. destruct k; discriminate Hnk.
  - intros x0 tau eta n gfirst x y tr c Ht H. unfold cDouglasRachford in H.
    destruct (for_loop (cdr_body f g tau eta gfirst) n 0 (DR None x0 [], (cf, cg))) as [[[s cs] k]|] eqn:El; cbn [bind fst] in H; [|discriminate]. destruct (d_x s) as [xr|]; [|discriminate]. injection H as <- <- <- <-.
    set (Q := fun a b (xk yk : E) => exists y v p, yk = y [+] eta [*] (p [-] xk) /\ if gfirst then atg b y tau = Ok xk /\ atf a v tau = Ok p else atf a y tau = Ok xk /\ atg b v tau = Ok p).
    assert (Hstep : forall j s s' b, cdr_body f g tau eta gfirst j s = Ok (s', b) -> b = false /\ exists xk yk, d_tr (fst s') = d_tr (fst s) ++ [(xk, yk)] /\
       snd s' = (df + fst (snd s), dg + snd (snd s))%nat /\ Q (df + fst (snd s))%nat (dg + snd (snd s))%nat xk yk).
    { intros j [s0 [a b0]] s' b Hb. unfold cdr_body in Hb. cbn [fst snd]. unfold Q. destruct gfirst; rewrite ?(call_ticks Hg), ?(call_ticks Hf) in Hb by exact Ht; cbn [fst snd] in Hb.
      - destruct (atg (dg + b0)%nat (d_y s0) tau) as [xk|] eqn:E1; cbn [bind fst snd] in Hb; [|discriminate]. rewrite (call_ticks Hf) in Hb by exact Ht. cbn [fst snd] in Hb. destruct (atf (df + a)%nat (2 [*] xk [-] d_y s0) tau) as [p|] eqn:E2; cbn [bind fst snd] in Hb; [|discriminate].
        injection Hb as <- <-. split; [reflexivity|]. exists xk, (d_y s0 [+] eta [*] (p [-] xk)). cbn [d_tr fst snd]. split; [reflexivity|]. split; [reflexivity|]. exists (d_y s0), (2 [*] xk [-] d_y s0), p. auto.
      - destruct (atf (df + a)%nat (d_y s0) tau) as [xk|] eqn:E1; cbn [bind fst snd] in Hb; [|discriminate]. rewrite (call_ticks Hg) in Hb by exact Ht. cbn [fst snd] in Hb. destruct (atg (dg + b0)%nat (2 [*] xk [-] d_y s0) tau) as [p|] eqn:E2; cbn [bind fst snd] in Hb; [|discriminate].
        injection Hb as <- <-. split; [reflexivity|]. exists xk, (d_y s0 [+] eta [*] (p [-] xk)). cbn [d_tr fst snd]. split; [reflexivity|]. split; [reflexivity|]. exists (d_y s0), (2 [*] xk [-] d_y s0), p. auto. }
    pose proof (for_loop_count _ n 0 _ _ _ (fun j s s' b Hb => proj1 (Hstep j s s' b Hb)) El) as Hk. cbn [Nat.add] in Hk. subst k.
    apply (for_loop_inv _ (fun j s => snd s = (j * df + cf, j * dg + cg)%nat /\ List.length (d_tr (fst s)) = j /\
      forall k xk zk, nth_error (d_tr (fst s)) k = Some (xk, zk) -> Q (S k * df + cf)%nat (S k * dg + cg)%nat xk zk)) in El.
    + exact (proj1 El).
    + intros j s0 s' b (Hc & Hl & Hn) Hb. destruct (Hstep _ _ _ _ Hb) as (_ & xk & zk & Htr & Hcs & A1). rewrite Hc in Hcs, A1. cbn [fst snd] in Hcs, A1. split; [rewrite Hcs; f_equal; lia|]. split; [rewrite Htr, app_length, Hl; cbn [List.length]; lia|].
      rewrite Htr. intros k a b1 Hnk. apply nth_error_snoc in Hnk as [[Hnk _]|[Hk Heq]]; [apply Hn; exact Hnk|]. injection Heq as <- <-. rewrite Hl in Hk. subst k.
      replace (S j * df + cf)%nat with (df + (j * df + cf))%nat by lia. replace (S j * dg + cg)%nat with (dg + (j * dg + cg))%nat by lia. exact A1.
    + cbn [fst snd d_tr List.length]. split; [f_equal; lia|]. split; [reflexivity|]. intros k a b1 Hnk. destruct k; discriminate Hnk.
  - intros pf x0 e tau beta n nb accel tol x tr c He Ht H. unfold cProximalGradient in H. assert (Hn : n <> 0%nat) by (intros ->; discriminate H).
    assert (Hes : pg_epsg [e] n = Ok (repeat e n)) by (destruct n; [contradiction|reflexivity]). rewrite Hes in H. cbn [bind] in H. destruct (accel_known accel); [|discriminate].
    destruct (for_loop (cpg_body pf g (repeat e n) false beta 1 nb accel tol) n 0 (PG x0 x0 1 tau None [], cg)) as [[[s cs] k]|] eqn:El; cbn [bind fst snd] in H; [|discriminate]. injection H as <- <- <-.
    assert (Het : 0 < e * tau) by (apply Rmult_lt_0_compat; assumption).
    apply (for_loop_inv _ (fun j s => snd s = (List.length (pg_tr (fst s)) * dg + cg)%nat /\ List.length (pg_tr (fst s)) = j /\ pg_tau (fst s) = tau /\
      forall k xk, nth_error (pg_tr (fst s)) k = Some xk -> exists v, atg (S k * dg + cg)%nat v (e * tau) = Ok xk)) in El.
    + destruct El as ((A1 & A2 & _ & A3) & A4 & A5). cbn [fst snd] in *. split; [exact A1|]. split; [specialize (A5 Hn); lia|exact A3].
    + intros j [s0 c0] s' b (Hc & Hl & Hta & Hnn) Hb. cbn [fst snd] in *. unfold cpg_body in Hb. destruct (getitem (repeat e n) j) as [t|] eqn:Et; cbn [bind] in Hb; [|discriminate].
      assert (t = e). { unfold getitem in Et. destruct (nth_error (repeat e n) j) as [t'|] eqn:En; [|discriminate]. injection Et as <-. apply nth_error_In, repeat_spec in En. exact En. }
      subst t. unfold cpg_prox_step in Hb. destruct (Reqb_spec 1 1) as [[_ Hr]|[Hr _]]; [|contradiction Hr; reflexivity]. rewrite Hr in Hb. rewrite Hta in Hb. destruct (get_grad pf (pg_y s0)) as [gr|]; cbn [bind] in Hb; [|discriminate].
      rewrite (call_ticks Hg) in Hb by exact Het. cbn [fst snd] in Hb. destruct (atg (dg + c0)%nat (pg_y s0 [-] tau [*] gr) (e * tau)) as [p|] eqn:Ep; cbn [bind fst snd] in Hb; [|discriminate].
      assert (G : exists y t' pfg, s' = (PG p y t' tau pfg (pg_tr s0 ++ [p]), (dg + c0)%nat)).
      { destruct tol as [tol|]; [|injection Hb as <- _; eauto]. destruct (get_val pf p) as [v|]; cbn [bind] in Hb; [|discriminate]. destruct (c_call g (dg + c0)%nat p) as [v'|]; cbn [bind] in Hb; [|discriminate].
        destruct (rel_stop false tol (v + e * as_num v') (pg_pfg s0)) as [st|]; cbn [bind] in Hb; [|discriminate]. injection Hb as <- _. eauto. }
      destruct G as (y & t' & pfg & ->). cbn [fst snd pg_tr pg_tau]. rewrite app_length, Hl. cbn [List.length]. split; [rewrite Hc, Hl; lia|]. split; [lia|]. split; [reflexivity|].
      intros k' xk Hnk. apply nth_error_snoc in Hnk as [[Hnk _]|[Hk Heq]]; [apply Hnn; exact Hnk|]. subst xk. rewrite Hl in Hk. subst k'. exists (pg_y s0 [-] tau [*] gr).
      replace (S j * dg + cg)%nat with (dg + c0)%nat by (rewrite Hc, Hl; lia). exact Ep.
    + cbn [fst snd pg_tr List.length pg_tau]. split; [lia|]. split; [reflexivity|]. split; [reflexivity|]. intros k' xk Hnk. destruct k'; discriminate Hnk.
Qed.

(** ** convergence when the parameter settles *)
Lemma call_ok {E : IPS} (o : COp E) c x t c' p : c_prox o c x t = (c', Ok p) -> call (c_prox o c x t) = Ok (p, c').
Proof. intro H. unfold call. rewrite H. reflexivity. Qed.

(*! C100_proximal_gradient : f convex with L-Lipschitz gradient, g convex, eps > 0, 0 < eta < 2 - tau L/2, fixed step, no
   acceleration, f + eps g has a minimiser, finite dimension. The operator for g may change from call to call: its k-th call
   returns the proximal point of g only up to an error e k. If the errors have a finite sum, the vectors returned by
   ProximalGradient with niter = 1, 2, ... still converge to a minimiser of f + eps g; the counter ends at cnt niter *)
Lemma C100_proximal_gradient_l : forall (E : IPS) (proxf : Op E) (proxg : COp E) f df L g cnt e eps x0 tau beta eta niterback accel, bw E ->
  smooth_op proxf f df L -> serves proxg cnt e (eps * tau) g -> summable e -> convex g -> 0 < eps -> 0 < tau -> 0 < eta < 2 - tau * L / 2 -> unaccelerated accel eta ->
  (exists m, is_min (eadd (etot f) (escal eps g)) m) ->
  exists xs l, xs 0%nat = x0 /\ (forall n, cProximalGradient proxf proxg (cnt 0%nat) x0 [eps] (Some tau) false beta eta (S n) niterback accel None = Ok (xs (S n), map xs (seq 1 (S n)), cnt (S n))) /\
    is_min (eadd (etot f) (escal eps g)) l /\ vcv xs l.
Proof.
  intros E proxf proxg f df L g cnt e eps x0 tau beta eta niterback accel HB [_ [Hgr [Hcv [HL Hsm]]]] (P & HP & Hp) He0 Hg He Ht Hn Ha Hm.
  assert (Het : 0 < eps * tau) by (apply Rmult_lt_0_compat; assumption).
  set (body := fun (j : nat) (sc : pg_state E * nat) => let (s, c) := sc in
     xt <- cpg_prox_step proxf proxg false beta eta niterback eps (pg_x s) (pg_y s) (pg_tau s) c ;;
     let '(x, tau, c) := xt in
     let t' := if accel_is accel "fista" then (1 + sqrt (1 + 4 * (pg_t s * pg_t s))) / 2 else pg_t s in
     let omega := if accel_is accel "vandenberghe" then INR j / (INR j + 3) else if accel_is accel "fista" then (pg_t s - 1) / t' else 0 in
     let y := x [+] omega [*] (x [-] pg_x s) in
     Ok ((PG x y t' tau (pg_pfg s) (pg_tr s ++ [x]), c), false)).
  destruct (loop_seq body (fun j s => pg_tau (fst s) = tau /\ (eta = 1 -> pg_y (fst s) = pg_x (fst s)) /\ snd s = cnt j)
     (fun j s s' => (exists p, norm (p [-] P (pg_x (fst s) [-] tau [*] df (pg_x (fst s)))) <= e j /\ pg_x (fst s') = pg_x (fst s) [+] eta [*] (p [-] pg_x (fst s))) /\ pg_tr (fst s') = pg_tr (fst s) ++ [pg_x (fst s')])
     (PG x0 x0 1 tau None [], cnt 0%nat)) as (st & S0 & Hrun & HI & HR); [auto| |].
  { intros j [s c] (Hta & Hy & Hc). cbn [fst snd] in *. subst c. destruct (Hp j (pg_x s [-] tau [*] df (pg_x s))) as (p & Ep & Hpp). apply call_ok in Ep. unfold body, cpg_prox_step, get_grad.
    destruct (Reqb_spec eta 1) as [[H1 ->]|[H1 ->]].
    - rewrite (Hy H1), Hta, Hgr. cbn [bind]. rewrite Ep. cbn [bind fst snd]. eexists. split; [reflexivity|]. cbn [fst snd pg_x pg_tr pg_tau pg_y]. split; [split; [|reflexivity]|split; [reflexivity|split; [|reflexivity]]].
      + exists p. split; [exact Hpp|]. rewrite H1. vring.
      + intros _. assert (Hno : accel = None \/ accel = Some "None"%string) by (destruct Ha as [Ha|[Ha|[Ha _]]]; tauto). destruct Hno as [->| ->]; cbn [accel_is]; [vring|]. cbn. vring.
    - rewrite Hta, Hgr. cbn [bind]. rewrite Ep. cbn [bind fst snd]. eexists. split; [reflexivity|]. cbn [fst snd pg_x pg_tr pg_tau pg_y]. split; [split; [|reflexivity]|split; [reflexivity|split; [tauto|reflexivity]]].
      exists p. split; [exact Hpp|]. reflexivity. }
  destruct (pg_pert HB f df L g eps tau eta P (fun k => pg_x (fst (st k))) (fun k => eta * e k)) as (l & Hl & Hc); auto.
  { apply summable_scal; [lra|exact He0]. }
  { intro j. destruct (HR j) as ((p & A & B) & _). rewrite B. set (q := P (pg_x (fst (st j)) [-] tau [*] df (pg_x (fst (st j))))) in *. replace (pg_x (fst (st j)) [+] eta [*] (p [-] pg_x (fst (st j))) [-] (pg_x (fst (st j)) [+] eta [*] (q [-] pg_x (fst (st j))))) with (eta [*] (p [-] q)) by vring.
    rewrite norm_scal, Rabs_right by lra. apply Rmult_le_compat_l; [lra|exact A]. }
  exists (fun k => pg_x (fst (st k))), l. split; [rewrite S0; reflexivity|]. split; [|auto]. intro n. unfold cProximalGradient. cbn [pg_epsg bind].
  assert (Hk : accel_known accel = true) by (destruct Ha as [->|[->|[_ [->| ->]]]]; reflexivity). rewrite Hk.
  rewrite (for_loop_ext _ body); [|intros j [s c] Hj; unfold cpg_body, getitem; rewrite nth_error_repeat by lia; reflexivity].
  rewrite Hrun. cbn [bind fst snd]. destruct (HI (S n)) as (_ & _ & ->). do 2 f_equal.
  rewrite (trace_seq st (fun s => pg_tr (fst s)) (fun k => pg_x (fst (st (S k))))); [|rewrite S0; reflexivity|intro j; apply HR]. rewrite <- seq_shift, map_map. reflexivity.
Qed.

(*! C100_douglas_rachford : f, g convex, 0 < eta < 2, tau > 0, any start and either order, finite dimension, and some point is a
   solution with a multiplier. Both operators may change from call to call, the k-th call being exact up to ef k and eg k. If
   the errors have a finite sum, the x returned by DouglasRachfordSplitting with niter = 1, 2, ... still converges to a
   minimiser l of f + g, and the auxiliary vector y to l - tau u (gfirst) or l + tau u for a multiplier u *)
Lemma C100_douglas_rachford_l : forall (E : IPS) (proxf proxg : COp E) f g cf cg ef eg x0 tau eta (gfirst : bool), bw E ->
  serves proxf cf ef tau f -> serves proxg cg eg tau g -> summable ef -> summable eg -> convex f -> convex g -> 0 < tau -> 0 < eta < 2 -> (exists x u, kkt f g x u) ->
  exists xs ys l u, (forall n, exists tr, cDouglasRachford proxf proxg (cf 0%nat) (cg 0%nat) x0 tau eta (S n) gfirst = Ok (xs n, ys n, tr, (cf (S n), cg (S n)))) /\
    kkt f g l u /\ is_min (eadd f g) l /\ vcv xs l /\ vcv ys (if gfirst then l [-] tau [*] u else l [+] tau [*] u).
Proof.
  intros E proxf proxg f g cf cg ef eg x0 tau eta gfirst HB (Pf & HPf & Hpf) (Pg & HPg & Hpg) Sf Sg Hf Hg Ht He Hk.
  set (P1 := if gfirst then Pg else Pf). set (P2 := if gfirst then Pf else Pg). set (e1 := if gfirst then eg else ef). set (e2 := if gfirst then ef else eg).
  destruct (loop_seq (cdr_body proxf proxg tau eta gfirst) (fun j s => snd s = (cf j, cg j))
     (fun j s s' => exists x p, d_x (fst s') = Some x /\ norm (x [-] P1 (d_y (fst s))) <= e1 j /\ norm (p [-] P2 (2 [*] x [-] d_y (fst s))) <= e2 j /\ d_y (fst s') = d_y (fst s) [+] eta [*] (p [-] x)) (DR None x0 [], (cf 0%nat, cg 0%nat))) as (st & S0 & Hrun & HI & HR); [reflexivity| |].
  { intros j [s c] Hc. cbn [fst snd] in *. subst c. unfold cdr_body, P1, P2, e1, e2. destruct gfirst.
    - destruct (Hpg j (d_y s)) as (x & Ex & Hx). rewrite (call_ok _ _ _ _ _ _ Ex). cbn [bind fst snd]. destruct (Hpf j (2 [*] x [-] d_y s)) as (p & Ep & Hp). rewrite (call_ok _ _ _ _ _ _ Ep). cbn [bind fst snd].
      eexists. split; [reflexivity|]. cbn [fst snd d_x d_y]. split; [exists x, p; auto|reflexivity].
    - destruct (Hpf j (d_y s)) as (x & Ex & Hx). rewrite (call_ok _ _ _ _ _ _ Ex). cbn [bind fst snd]. destruct (Hpg j (2 [*] x [-] d_y s)) as (p & Ep & Hp). rewrite (call_ok _ _ _ _ _ _ Ep). cbn [bind fst snd].
      eexists. split; [reflexivity|]. cbn [fst snd d_x d_y]. split; [exists x, p; auto|reflexivity]. }
  set (X := fun k => match d_x (fst (st (S k))) with Some x => x | None => vzero end).
  set (Q := fun k => X k [+] / eta [*] (d_y (fst (st (S k))) [-] d_y (fst (st k)))).
  assert (HQ : forall j, d_x (fst (st (S j))) = Some (X j) /\ norm (X j [-] P1 (d_y (fst (st j)))) <= e1 j /\ norm (Q j [-] P2 (2 [*] X j [-] d_y (fst (st j)))) <= e2 j /\ d_y (fst (st (S j))) = d_y (fst (st j)) [+] eta [*] (Q j [-] X j)).
  { intro j. destruct (HR j) as (x & p & A1 & A2 & A3 & A4). unfold Q, X. rewrite A1. assert (Hq : x [+] / eta [*] (d_y (fst (st (S j))) [-] d_y (fst (st j))) = p) by (rewrite A4; vext w; field; lra). rewrite Hq. auto. }
  assert (Hk' : exists x u, kkt (if gfirst then f else g) (if gfirst then g else f) x u). { destruct gfirst; [exact Hk|]. destruct Hk as (x & u & Hk). exists x, (vopp u). apply kkt_swap. exact Hk. }
  destruct (dr_pert HB (if gfirst then f else g) (if gfirst then g else f) tau eta P2 P1 X Q (fun k => d_y (fst (st k))) e1 e2) as (l & u & Kl & Lx & _ & Ly); auto; try (unfold P1, P2, e1, e2; destruct gfirst; assumption).
  { intro j. apply HQ. }
  exists X, (fun k => d_y (fst (st (S k)))), l, (if gfirst then u else vopp u).
  assert (Kl' : kkt f g l (if gfirst then u else vopp u)). { destruct gfirst; [exact Kl|]. apply kkt_swap. exact Kl. }
  split; [|split; [exact Kl'|split; [apply (kkt_min f g l _ Kl')|split; [exact Lx|]]]].
  - intro n. exists (d_tr (fst (st (S n)))). unfold cDouglasRachford. rewrite Hrun. cbn [bind fst snd]. destruct (HQ n) as [A _]. specialize (HI (S n)). destruct (st (S n)) as [s c]. cbn [fst snd] in *. subst c. rewrite A. reflexivity.
  - apply (vcv_shift (fun k => d_y (fst (st k)))). destruct gfirst; [exact Ly|]. replace (l [+] tau [*] vopp u) with (l [-] tau [*] u) by vring. exact Ly.
Qed.

(*! C100_admm : f, g convex, tau > 0, any start and either order, finite dimension, and some point is a solution with a
   multiplier. Both operators may change from call to call, the k-th call being exact up to ef k and eg k. If the errors have a
   finite sum, the two vectors returned by ADMM with niter = 0, 1, 2, ... still converge to one and the same minimiser of
   f + g *)
Lemma C100_admm_l : forall (E : IPS) (proxf proxg : COp E) f g cf cg ef eg x0 z0 x z tau (gfirst : bool), bw E ->
  serves proxf cf ef tau f -> serves proxg cg eg tau g -> summable ef -> summable eg -> convex f -> convex g -> 0 < tau -> x0z0_init x0 z0 = Ok (x, z) -> (exists x u, kkt f g x u) ->
  exists xs zs l, (forall n, exists tr, cADMM proxf proxg (cf 0%nat) (cg 0%nat) x0 tau n z0 gfirst = Ok (xs n, zs n, tr, (cf n, cg n))) /\ is_min (eadd f g) l /\ vcv xs l /\ vcv zs l.
Proof.
  intros E proxf proxg f g cf cg ef eg x0 z0 x z tau gfirst HB (Pf & HPf & Hpf) (Pg & HPg & Hpg) Sf Sg Hf Hg Ht Hi Hk.
  destruct (loop_seq (cadmm_body proxf proxg tau gfirst) (fun j s => snd s = (cf j, cg j))
     (fun j s s' => a_u (fst s') = a_u (fst s) [+] a_x (fst s') [-] a_z (fst s') /\
     if gfirst then norm (a_z (fst s') [-] Pg (a_x (fst s) [+] a_u (fst s))) <= eg j /\ norm (a_x (fst s') [-] Pf (a_z (fst s') [-] a_u (fst s))) <= ef j
     else norm (a_x (fst s') [-] Pf (a_z (fst s) [-] a_u (fst s))) <= ef j /\ norm (a_z (fst s') [-] Pg (a_x (fst s') [+] a_u (fst s))) <= eg j) (AD x z vzero [], (cf 0%nat, cg 0%nat))) as (st & S0 & Hrun & HI & HR); [reflexivity| |].
  { intros j [s c] Hc. cbn [fst snd] in *. subst c. unfold cadmm_body. destruct gfirst.
    - destruct (Hpg j (a_x s [+] a_u s)) as (q & Eq & Hq). rewrite (call_ok _ _ _ _ _ _ Eq). cbn [bind fst snd]. destruct (Hpf j (q [-] a_u s)) as (p & Ep & Hp). rewrite (call_ok _ _ _ _ _ _ Ep). cbn [bind fst snd].
      eexists. split; [reflexivity|]. cbn [fst snd a_x a_z a_u]. auto.
    - destruct (Hpf j (a_z s [-] a_u s)) as (p & Ep & Hp). rewrite (call_ok _ _ _ _ _ _ Ep). cbn [bind fst snd]. destruct (Hpg j (p [+] a_u s)) as (q & Eq & Hq). rewrite (call_ok _ _ _ _ _ _ Eq). cbn [bind fst snd].
      eexists. split; [reflexivity|]. cbn [fst snd a_x a_z a_u]. auto. }
  assert (Hret : forall n, exists tr, cADMM proxf proxg (cf 0%nat) (cg 0%nat) x0 tau n z0 gfirst = Ok (a_x (fst (st n)), a_z (fst (st n)), tr, (cf n, cg n))).
  { intro n. exists (a_tr (fst (st n))). unfold cADMM. rewrite Hi. cbn [bind fst snd]. rewrite Hrun. cbn [bind fst]. specialize (HI n). destruct (st n) as [s c]. cbn [fst snd] in *. subst c. reflexivity. }
  exists (fun k => a_x (fst (st k))), (fun k => a_z (fst (st k))). destruct gfirst.
  - set (zz := fun k => a_z (fst (st k))) in *. set (xx := fun k => a_x (fst (st k))) in *. set (uu := fun k => a_u (fst (st k))) in *.
    destruct (dr_pert HB g f tau 1 Pg Pf (fun k => xx (S k)) (fun k => zz (S (S k))) (fun k => zz (S k) [-] uu k) ef (fun k => eg (S k))) as (l & u & Kl & Lx & Lz & _); auto; try lra.
    + apply summable_shift. exact Sg.
    + intro j. destruct (HR j) as (H3 & H1 & H2). destruct (HR (S j)) as (G3 & G1 & G2). fold (zz (S j)) (xx (S j)) (uu (S j)) (zz j) (xx j) (uu j) (zz (S (S j))) (xx (S (S j))) in *. split; [exact H2|].
      assert (Ea : 2 [*] xx (S j) [-] (zz (S j) [-] uu j) = xx (S j) [+] uu (S j)) by (rewrite H3; vring). rewrite Ea. split; [exact G1|]. rewrite H3. vring.
    + destruct Hk as (a & b & Hk). exists a, (vopp b). apply kkt_swap. exact Hk.
    + exists l. split; [exact Hret|]. split; [apply (kkt_min f g l (vopp u)); apply kkt_swap; exact Kl|]. split; [apply vcv_unshift; exact Lx|]. apply vcv_unshift, vcv_unshift. exact Lz.
  - set (zz := fun k => a_z (fst (st k))) in *. set (xx := fun k => a_x (fst (st k))) in *. set (uu := fun k => a_u (fst (st k))) in *.
    destruct (dr_pert HB f g tau 1 Pf Pg (fun k => zz (S k)) (fun k => xx (S (S k))) (fun k => xx (S k) [+] uu k) eg (fun k => ef (S k))) as (l & u & Kl & Lz & Lx & _); auto; try lra.
    + apply summable_shift. exact Sf.
    + intro j. destruct (HR j) as (H3 & H1 & H2). destruct (HR (S j)) as (G3 & G1 & G2). fold (zz (S j)) (xx (S j)) (uu (S j)) (zz j) (xx j) (uu j) (zz (S (S j))) (xx (S (S j))) in *. split; [exact H2|].
      assert (Ea : 2 [*] zz (S j) [-] (xx (S j) [+] uu j) = zz (S j) [-] uu (S j)) by (rewrite H3; vring). rewrite Ea. split; [exact G1|]. rewrite H3. vring.
    + exists l. split; [exact Hret|]. split; [apply (kkt_min f g l u); exact Kl|]. split; [apply vcv_unshift, vcv_unshift; exact Lx|]. apply vcv_unshift. exact Lz.
Qed.

(*! C100_hqs : f, g convex, one fixed tau > 0, any start and either order, finite dimension, and the penalised problem min over
   (w, v) of f(w) + g(v) + |w-v|^2/(2 tau) has a solution. Both operators may change from call to call, the k-th call being
   exact up to ef k and eg k. If the errors have a finite sum, the pair returned by HQS with niter = 0, 1, 2, ... still
   converges to a solution of that problem *)
Lemma C100_hqs_l : forall (E : IPS) (proxf proxg : COp E) f g cf cg ef eg x0 z0 x z tau (gfirst : bool), bw E ->
  serves proxf cf ef tau f -> serves proxg cg eg tau g -> summable ef -> summable eg -> convex f -> convex g -> 0 < tau -> x0z0_init x0 z0 = Ok (x, z) ->
  let J := mkEfun (E := Prod_IPS E E) (fun p => edom f (fst p) /\ edom g (snd p)) (fun p => eval f (fst p) + eval g (snd p) + / (2 * tau) * norm2 (fst p [-] snd p)) in
  (exists p, is_min J p) ->
  exists xs zs xl zl, (forall n, exists tr, cHQS proxf proxg (cf 0%nat) (cg 0%nat) x0 [tau] n z0 gfirst = Ok (xs n, zs n, tr, (cf n, cg n))) /\ is_min J (xl, zl) /\ vcv xs xl /\ vcv zs zl.
Proof.
  intros E proxf proxg f g cf cg ef eg x0 z0 x z tau gfirst HB (Pf & HPf & Hpf) (Pg & HPg & Hpg) Sf Sg Hf Hg Ht Hi J Hm.
  assert (HJ : forall a b, is_min J (a, b) <-> hqs_min f g tau a b).
  { intros a b. unfold is_min, hqs_min, J. cbn [edom eval fst snd]. split.
    - intros [[H1 H2] H3]. split; [auto|]. split; [auto|]. intros w v Hw Hv. apply (H3 (w, v)). auto.
    - intros (H1 & H2 & H3). split; [auto|]. intros [w v] [Hw Hv]. apply H3; auto. }
  assert (Hsw : forall a b, hqs_min f g tau a b <-> hqs_min g f tau b a).
  { intros a b. unfold hqs_min. split; intros (H1 & H2 & H3); (split; [auto|]); (split; [auto|]); intros w v Hw Hv; specialize (H3 v w Hv Hw); rewrite (norm2_sub_sym b a) || rewrite (norm2_sub_sym a b); rewrite (norm2_sub_sym w v); lra. }
  set (body := fun (j : nat) (sc : hqs_state E * (nat * nat)) => let '(s, (cf, cg)) := sc in
    r <- (if gfirst then
           z <- call (c_prox proxg cg (h_x s) tau) ;;
           x <- call (c_prox proxf cf (fst z) tau) ;; Ok (x, z)
         else
           x <- call (c_prox proxf cf (h_z s) tau) ;;
           z <- call (c_prox proxg cg (fst x) tau) ;; Ok (x, z)) ;;
    let '((x, cf), (z, cg)) := r in
    Ok ((HQ x z (h_tr s ++ [(x, z)]), (cf, cg)), false)).
  destruct (loop_seq body (fun j s => snd s = (cf j, cg j)) (fun j s s' => if gfirst then norm (h_z (fst s') [-] Pg (h_x (fst s))) <= eg j /\ norm (h_x (fst s') [-] Pf (h_z (fst s'))) <= ef j
     else norm (h_x (fst s') [-] Pf (h_z (fst s))) <= ef j /\ norm (h_z (fst s') [-] Pg (h_x (fst s'))) <= eg j) (HQ x z [], (cf 0%nat, cg 0%nat))) as (st & S0 & Hrun & HI & HR); [reflexivity| |].
  { intros j [s c] Hc. cbn [fst snd] in *. subst c. unfold body. destruct gfirst.
    - destruct (Hpg j (h_x s)) as (q & Eq & Hq). rewrite (call_ok _ _ _ _ _ _ Eq). cbn [bind fst snd]. destruct (Hpf j q) as (p & Ep & Hp). rewrite (call_ok _ _ _ _ _ _ Ep). cbn [bind fst snd].
      eexists. split; [reflexivity|]. cbn [fst snd h_x h_z]. auto.
    - destruct (Hpf j (h_z s)) as (p & Ep & Hp). rewrite (call_ok _ _ _ _ _ _ Ep). cbn [bind fst snd]. destruct (Hpg j p) as (q & Eq & Hq). rewrite (call_ok _ _ _ _ _ _ Eq). cbn [bind fst snd].
      eexists. split; [reflexivity|]. cbn [fst snd h_x h_z]. auto. }
  assert (Hret : forall n, exists tr, cHQS proxf proxg (cf 0%nat) (cg 0%nat) x0 [tau] n z0 gfirst = Ok (h_x (fst (st n)), h_z (fst (st n)), tr, (cf n, cg n))).
  { intro n. exists (h_tr (fst (st n))). unfold cHQS. rewrite Hi. cbn [bind fst snd].
    rewrite (for_loop_ext _ body); [|intros j [s [a b]] Hj; unfold chqs_body, getitem; rewrite hqs_taus_scalar by lia; reflexivity]. rewrite Hrun. cbn [bind fst]. specialize (HI n). destruct (st n) as [s c]. cbn [fst snd] in *. subst c. reflexivity. }
  exists (fun k => h_x (fst (st k))), (fun k => h_z (fst (st k))). destruct Hm as [[mx mz] Hm]. apply HJ in Hm. destruct gfirst.
  - destruct (hqs_pert HB f g tau Pf Pg (fun k => h_x (fst (st k))) (fun k => h_z (fst (st k))) eg ef) as (a & b & Hab & La & Lb); auto; [eauto|].
    exists a, b. split; [exact Hret|]. split; [apply HJ; exact Hab|auto].
  - destruct (hqs_pert HB g f tau Pg Pf (fun k => h_z (fst (st k))) (fun k => h_x (fst (st k))) ef eg) as (b & a & Hab & Lb & La); auto; [exists mz, mx; apply Hsw; exact Hm|].
    exists a, b. split; [exact Hret|]. split; [apply HJ, Hsw; exact Hab|auto].
Qed.

(** ** the classes *)
Lemma ticks_l1 {n} (sig : nat -> nlist R n) g : ticks (l1_cop sig g) 1 (fun k x t => Ok ((vzip (fun s a => soft (t * s) a) (sig k) (x [-] gvec g) : Vec n) [+] gvec g)).
Proof. intros c x t Ht. cbn [c_prox l1_cop]. rewrite l1_prox_ok by exact Ht. reflexivity. Qed.
Lemma ticks_l0 {n} (sig : nat -> R) : ticks (l0_cop sig) 1 (fun k (x : Vec n) t => Ok (vmap (l0_pr (sig k) t) x)).
Proof. intros c x t Ht. cbn [c_prox l0_cop]. unfold l0_prox. destruct (Rleb_spec t 0) as [[H _]|[_ ->]]; [lra|reflexivity]. Qed.
Lemma ticks_orth {E F : IPS} (f : COp F) (Q : linop E F) partial b alpha d at_ : 0 < alpha -> ticks f d at_ ->
  ticks (orth_cop f Q partial b alpha) d (fun k x t => o_prox (obj 2 (orth_body (mkOp (fun _ => Err NotImplementedError) (at_ k) (at_ k) (fun _ => Err NotImplementedError) false) Q partial b alpha)) x t).
Proof.
  intros Ha H c x t Ht. cbn [c_prox orth_cop]. unfold orth_prox. destruct (Rleb_spec t 0) as [[Hq _]|[_ ->]]; [lra|]. unfold obj, o_prox. cbn [d_prox b_prox orth_body]. rewrite check_tau_pos by exact Ht.
  destruct partial.
  - rewrite (H c (Q x [+] b) (alpha * t)) by (apply Rmult_lt_0_compat; assumption). cbn [o_prox]; destruct (at_ _ _ _); reflexivity.
  - rewrite (H c (Q x [+] b) t Ht). cbn [o_prox]; destruct (at_ _ _ _); reflexivity.
Qed.
Lemma get_hard n (sig t : R) (x : Vec n) i : (i < n)%nat -> get (vmap (l0_pr sig t) x) i = if Rleb (Rabs (get x i)) (t * sig) then 0 else get x i.
Proof.
  intro Hi. unfold vmap, get, lst, nthr. cbn [proj1_sig]. rewrite (map_nth_lt _ _ i 0 0); [reflexivity|]. change (i < List.length (lst x))%nat. rewrite lst_length. exact Hi.
Qed.

(*! C100_classes : which classes count. L1 with a callable sigma: every prox call with tau > 0 adds 1 and is the exact proximal point
   for the weights sigma(new count). L0 with a callable sigma: adds 1 and keeps the entries with |x_i| > tau sigma(new count).
   L0Ball with a callable radius: adds 1 and is a projection on the vectors with radius(new count) non-zeros. Orthogonal: adds what
   the operator inside adds, and is the exact proximal point of h(Q x + b) if the inner call is one of h (under the
   hypotheses on Q of the mode). Every other operator: adds nothing *)
Lemma C100_classes_l :
  (forall n (sig : nat -> nlist R n) g, exists at_, ticks (l1_cop sig g) 1 at_ /\
     forall k x t, 0 < t -> nonneg_list (sig k) -> exists p, at_ k x t = Ok p /\ is_prox (etot (wl1 (sig k) (gvec g))) t x p) /\
  (forall n (sig : nat -> R), exists at_, ticks (l0_cop (n:=n) sig) 1 at_ /\
     forall k x t, 0 < t -> exists p, at_ k x t = Ok p /\ forall i, (i < n)%nat -> (Rabs (get x i) <= t * sig k -> get p i = 0) /\ (t * sig k < Rabs (get x i) -> get p i = get x i)) /\
  (forall argsort n (rad : nat -> Z), argsort_ok argsort -> exists at_, ticks (l0ball_cop argsort (n:=n) rad) 1 at_ /\
     forall k x t, 0 < t -> (0 < rad k)%Z -> exists p, at_ k x t = Ok p /\ is_proj (l0_ball (Z.to_nat (rad k))) x p) /\
  (forall (E : IPS) (o : Op E), ticks (plain o) 0 (fun _ x t => o_prox o x t)) /\
  (forall (E F : IPS) (f : COp F) (Q : linop E F) partial b alpha d at_, 0 < alpha -> ticks f d at_ -> exists at', ticks (orth_cop f Q partial b alpha) d at' /\
     forall k h, (forall y t, 0 < t -> exists p, at_ k y t = Ok p /\ is_prox h t y p) ->
       (if partial then forall y, Q (ladj Q y) = alpha [*] y else (forall y, Q (ladj Q y) = y) /\ forall x, ladj Q (Q x) = x) ->
       forall x t, 0 < t -> exists p, at' k x t = Ok p /\ is_prox (epre h (fun x => Q x [+] b)) t x p).
Proof.
  split; [|split; [|split; [|split]]].
  - intros n sig g. eexists. split; [apply ticks_l1|]. intros k x t Ht Hw. eexists. split; [reflexivity|]. apply wl1_prox; assumption.
  - intros n sig. eexists. split; [apply ticks_l0|]. intros k x t Ht. eexists. split; [reflexivity|]. intros i Hi. rewrite get_hard by exact Hi.
    destruct (Rleb_spec (Rabs (get x i)) (t * sig k)) as [[H ->]|[H ->]]; split; intro H'; try reflexivity; lra.
  - intros argsort n rad Ha. exists (fun k x t => Ok (l0_proj argsort (rad k) x)). split.
    + intros c x t Ht. cbn [c_prox l0ball_cop]. unfold l0ball_prox. destruct (Rleb_spec t 0) as [[Hq _]|[_ ->]]; [lra|reflexivity].
    + intros k x t Ht Hr. eexists. split; [reflexivity|]. rewrite <- (Z2Nat.id (rad k)) at 2 by lia. apply l0_proj_exact; [exact Ha|lia].
  - intros E o c x t Ht. reflexivity.
  - intros E F f Q partial b alpha d at_ Ha H. eexists. split; [apply ticks_orth; eassumption|]. intros k h Hk HQ x t Ht. destruct partial.
    + apply (proj1 (orthogonal_partial_mode E F 1 (mkOp (fun _ => Err NotImplementedError) (at_ k) (at_ k) (fun _ => Err NotImplementedError) false) h Q b alpha Ha HQ Hk)). exact Ht.
    + apply (orthogonal_full_mode E F 1 (mkOp (fun _ => Err NotImplementedError) (at_ k) (at_ k) (fun _ => Err NotImplementedError) false) h Q b alpha (proj1 HQ) (proj2 HQ) Hk). exact Ht.
Qed.

Lemma soft_lip_t a b x : 0 <= a -> 0 <= b -> Rabs (soft a x - soft b x) <= Rabs (a - b).
Proof.
  intros Ha Hb. destruct (soft_cases a x Ha) as [[H1 ->]|[[H1 ->]|[H1 ->]]]; destruct (soft_cases b x Hb) as [[H2 ->]|[[H2 ->]|[H2 ->]]]; unfold Rabs in *; repeat destruct (Rcase_abs _); lra.
Qed.
Lemma get_vzip n (f : R -> R -> R) (w : nlist R n) (x : Vec n) i : (i < n)%nat -> get (vzip f w x : Vec n) i = f (nth i (proj1_sig w) 0) (get x i).
Proof.
  intro Hi. destruct w as [w Hw], x as [x Hx]. unfold get, lst, vzip. cbn [proj1_sig]. assert (H : (i < List.length w)%nat /\ List.length w = List.length x) by (split; [rewrite Hw; exact Hi|rewrite Hw; symmetry; exact Hx]).
  clear Hi Hw Hx. revert x i H. induction w as [|a w IH]; intros x i [H1 H2]; [cbn in H1; lia|]. destruct x as [|b x]; [discriminate H2|]. destruct i as [|i]; cbn [map2 nth]; [reflexivity|].
  apply IH. split; [apply Nat.succ_lt_mono; exact H1|]. injection H2 as H2. exact H2.
Qed.
Lemma nonneg_nth {n} (w : nlist R n) i : nonneg_list w -> 0 <= nth i (proj1_sig w) 0.
Proof.
  intro H. destruct (Nat.lt_ge_cases i (List.length (proj1_sig w))) as [Hi|Hi]; [|rewrite nth_overflow by exact Hi; lra]. unfold nonneg_list in H. rewrite Forall_forall in H. apply H, nth_In, Hi.
Qed.
Lemma l1_param n (v w : nlist R n) (g x : Vec n) t : nonneg_list v -> nonneg_list w -> 0 < t ->
  norm (((vzip (fun s a => soft (t * s) a) v (x [-] g) : Vec n) [+] g) [-] ((vzip (fun s a => soft (t * s) a) w (x [-] g) : Vec n) [+] g)) <= t * wdist v w.
Proof.
  intros Hv Hw Ht. apply norm_le_of_sq; [apply Rmult_le_pos; [lra|apply sqrt_pos]|]. rewrite vec_norm2. unfold wdist.
  match goal with |- context [sqrt ?a] => set (S := a); assert (HS : 0 <= S) by (apply RS_nonneg; intros; apply Rle_0_sqr) end.
  replace (t * sqrt S * (t * sqrt S)) with (t * t * (sqrt S * sqrt S)) by ring. rewrite sqrt_sqrt by exact HS. unfold S. rewrite <- RS_scal. apply RS_le. intros i Hi.
  rewrite get_sub, !get_add, !get_vzip by exact Hi. set (a := get (x [-] g) i). set (vi := nth i (proj1_sig v) 0). set (wi := nth i (proj1_sig w) 0).
  assert (H := soft_lip_t (t * vi) (t * wi) a ltac:(apply Rmult_le_pos; [lra|apply nonneg_nth; exact Hv]) ltac:(apply Rmult_le_pos; [lra|apply nonneg_nth; exact Hw])).
  replace (soft (t * vi) a + get g i - (soft (t * wi) a + get g i)) with (soft (t * vi) a - soft (t * wi) a) by ring.
  replace (t * t * ((vi - wi) * (vi - wi))) with ((t * vi - t * wi) * (t * vi - t * wi)) by ring. apply Rsqr_le_abs_1 in H. unfold Rsqr in H. exact H.
Qed.
Lemma serves_plain {E : IPS} (o : Op E) g c t : impl_prox o g -> 0 < t -> serves (plain o) (fun _ => c) (fun _ => 0) t g.
Proof.
  intros H Ht. exists (fun x => match o_prox o x t with Ok p => p | Err _ => x end). split.
  - intro x. destruct (H x t Ht) as (p & -> & Hp). exact Hp.
  - intros k x. destruct (H x t Ht) as (p & Ep & Hp). exists p. cbn [c_prox plain]. rewrite Ep. split; [reflexivity|]. replace (p [-] p) with (vzero : E) by vring. rewrite norm_zero. lra.
Qed.
Lemma serves_l1 {n} (sig : nat -> nlist R n) (s : nlist R n) g c t : (forall k, nonneg_list (sig k)) -> nonneg_list s -> 0 < t ->
  serves (l1_cop sig g) (fun k => (k + c)%nat) (fun k => t * wdist (sig (S (k + c))) s) t (etot (wl1 s (gvec g))).
Proof.
  intros Hs Hn Ht. exists (fun x => (vzip (fun s a => soft (t * s) a) s (x [-] gvec g) : Vec n) [+] gvec g). split.
  - intro x. apply wl1_prox; assumption.
  - intros k x. eexists. split; [apply (ticks_l1 sig g (k + c)%nat x t Ht)|]. apply (l1_param n (sig (1 + (k + c))%nat) s (gvec g) x t (Hs _) Hn Ht).
Qed.

(*! C100_serves : an operator that does not count and implements the prox of g serves without error; L1 with callable sigma, used
   with step t, serves for the weights s with the error t |sigma(k) - s| in its call number k, whatever the offset g *)
Lemma C100_serves_l :
  (forall (E : IPS) (o : Op E) g c t, impl_prox o g -> 0 < t -> serves (plain o) (fun _ => c) (fun _ => 0) t g) /\
  (forall n (sig : nat -> nlist R n) (s : nlist R n) g c t, (forall k, nonneg_list (sig k)) -> nonneg_list s -> 0 < t ->
     serves (l1_cop sig g) (fun k => (k + c)%nat) (fun k => t * wdist (sig (S (k + c))) s) t (etot (wl1 s (gvec g)))).
Proof. split; [intros; apply serves_plain; assumption|intros; apply serves_l1; assumption]. Qed.

Lemma wdist_const n a b : wdist (const_sigma n a) (const_sigma n b) = sqrt (INR n) * Rabs (a - b).
Proof.
  unfold wdist. rewrite (RS_ext n _ (fun _ => (a - b) * (a - b))).
  - rewrite RS_const, sqrt_mult by (try apply pos_INR; apply Rle_0_sqr). f_equal. apply sqrt_Rsqr_abs.
  - intros i Hi. unfold const_sigma. cbn [proj1_sig]. rewrite !(nth_indep (repeat _ n) 0 a) by (rewrite repeat_length; exact Hi). rewrite nth_repeat. rewrite (nth_indep (repeat b n) a b) by (rewrite repeat_length; exact Hi). rewrite nth_repeat. reflexivity.
Qed.
Lemma is_prox_l1n n lam t x (p : Vec n) : is_prox (etot (wl1 (const_sigma n lam) (gvec None))) t x p -> is_prox (etot (l1n lam)) t x p.
Proof. apply is_prox_ext; [intro y; cbn; tauto|intros y _; cbn [eval etot]; apply wl1_const]. Qed.
Lemma serves_l1_const n (w : nat -> R) lam c t : (forall k, 0 <= w k) -> 0 <= lam -> 0 < t -> summable (fun k => Rabs (w k - lam)) ->
  exists e, summable e /\ serves (l1_cop (fun k => const_sigma n (w k)) None) (fun k => (k + c)%nat) e t (etot (l1n lam)).
Proof.
  intros Hw Hl Ht Hs. exists (fun k => t * wdist (const_sigma n (w (S (k + c)))) (const_sigma n lam)). split.
  - apply summable_scal; [lra|]. apply (summable_le (fun k => sqrt (INR n) * Rabs (w (S (k + c)) - lam))).
    + intro k. rewrite wdist_const. split; [apply Rmult_le_pos; [apply sqrt_pos|apply Rabs_pos]|lra].
    + apply summable_scal; [apply sqrt_pos|]. assert (Hm : forall d, summable (fun k => Rabs (w (k + d)%nat - lam))).
      { induction d as [|d IH].
        - apply (summable_le (fun k => Rabs (w k - lam))); [|exact Hs]. intro k. rewrite Nat.add_0_r. split; [apply Rabs_pos|apply Rle_refl].
        - apply summable_shift in IH. apply (summable_le (fun k => Rabs (w (S k + d)%nat - lam))); [|exact IH]. intro k. rewrite Nat.add_succ_r. split; [apply Rabs_pos|apply Rle_refl]. }
      apply (summable_le (fun k => Rabs (w (S k + c)%nat - lam))); [|exact (summable_shift _ (Hm c))]. intro k. split; [apply Rabs_pos|apply Rle_refl].
  - destruct (serves_l1 (fun k => const_sigma n (w k)) (const_sigma n lam) None c t) as (P & HP & H); [intro k; apply const_nonneg, Hw|apply const_nonneg, Hl|exact Ht|].
    exists P. split; [intro x; apply is_prox_l1n, HP|exact H].
Qed.

(*! C100_lasso : LASSO with a moving weight. f = L2(Op=A, b=b, sigma=s), g = L1(sigma=w) with a callable w >= 0 whose values approach
   lam > 0 so fast that the sum of |w(k) - lam| is finite, g's counter at any value c. ProximalGradient (fixed step 0 < tau < 2/L,
   s|Av|^2 <= L|v|^2, no acceleration), ADMM and DouglasRachfordSplitting (any tau > 0, 0 < eta < 2, either order) never raise, and
   what they return with niter = 1, 2, ... converges to a solution of the LASSO with the limit weight (epsg lam for
   ProximalGradient); the counter ends at c + niter *)
Lemma C100_lasso_l : forall n m (f : Op (Vec n)) (A : linop (Vec n) (Vec m)) b s (w : nat -> R) lam c x0,
  is_L2 f A b s -> 0 < s -> 0 < lam -> (forall k, 0 <= w k) -> summable (fun k => Rabs (w k - lam)) -> let g := l1_cop (fun k => const_sigma n (w k)) None in
  (forall e L tau beta niterback accel, 0 < e -> 0 < L -> (forall v, s * norm2 (A v) <= L * norm2 v) -> 0 < tau < 2 / L -> accel = None \/ accel = Some "None"%string ->
     exists xs l, (forall k, exists tr, cProximalGradient f g c x0 [e] (Some tau) false beta 1 (S k) niterback accel None = Ok (xs k, tr, (S k + c)%nat)) /\ is_min (etot (lasso A b s (e * lam))) l /\ vcv xs l) /\
  (forall cf tau gfirst, 0 < tau -> exists xs zs l, (forall k, exists tr, cADMM (plain f) g cf c (Some x0) tau k None gfirst = Ok (xs k, zs k, tr, (cf, (k + c)%nat))) /\ is_min (etot (lasso A b s lam)) l /\ vcv xs l /\ vcv zs l) /\
  (forall cf tau eta gfirst, 0 < tau -> 0 < eta < 2 -> exists xs ys l, (forall k, exists tr, cDouglasRachford (plain f) g cf c x0 tau eta (S k) gfirst = Ok (xs k, ys k, tr, (cf, (S k + c)%nat))) /\ is_min (etot (lasso A b s lam)) l /\ vcv xs l).
Proof.
  intros n m f A b s w lam c x0 Hf Hs Hl Hw Hsm g. pose proof (l1n_convex n lam ltac:(lra)) as Hcv. pose proof (proj1 (proj2 C75_arrays_l) n) as HB.
  destruct (L2_facts f A b s Hs Hf) as (Hpf & _ & _). pose proof (sfit_convex A b s ltac:(lra)) as Hcf. destruct (lasso_kkt n (Vec m) A b s lam Hs Hl) as (kx & ku & Hk).
  split; [|split].
  - intros e L tau beta nb accel He HL HA Ht Hac. destruct (serves_l1_const n w lam c (e * tau)) as (er & He1 & Hse); auto; [lra|apply Rmult_lt_0_compat; lra|].
    destruct (C100_proximal_gradient_l (Vec n) f g (sfit A b s) (dsfit A b s) L (etot (l1n lam)) (fun k => (k + c)%nat) er e x0 tau beta 1 nb accel) as (xs & l & _ & Hr & Hm & Hc); auto.
    + apply L2_smooth_op; auto.
    + lra.
    + split; [lra|]. assert (tau * L < 2); [|lra]. replace 2 with (2 / L * L) by (field; lra). apply Rmult_lt_compat_r; lra.
    + destruct Hac as [-> | ->]; [left; reflexivity|right; left; reflexivity].
    + destruct (C78_solution_l n (Vec m) A b s (e * lam) Hs (Rmult_lt_0_compat _ _ He Hl)) as [z Hz]. exists z. apply lasso_ext. exact Hz.
    + exists (fun k => xs (S k)), l. split; [intro k; eexists; apply Hr|]. split; [apply lasso_ext, Hm|apply vcv_shift, Hc].
  - intros cf tau gfirst Ht. destruct (serves_l1_const n w lam c tau) as (er & He1 & Hse); auto; [lra|].
    destruct (C100_admm_l (Vec n) (plain f) g (etot (sfit A b s)) (etot (l1n lam)) (fun _ => cf) (fun k => (k + c)%nat) (fun _ => 0) er (Some x0) None x0 x0 tau gfirst) as (xs & zs & l & Hr & Hm & H1 & H2); auto.
    + apply serves_plain; assumption.
    + apply summable_zero.
    + eauto.
    + exists xs, zs, l. split; [exact Hr|]. split; [apply lasso_ext1, Hm|auto].
  - intros cf tau eta gfirst Ht He. destruct (serves_l1_const n w lam c tau) as (er & He1 & Hse); auto; [lra|].
    destruct (C100_douglas_rachford_l (Vec n) (plain f) g (etot (sfit A b s)) (etot (l1n lam)) (fun _ => cf) (fun k => (k + c)%nat) (fun _ => 0) er x0 tau eta gfirst) as (xs & ys & l & u & Hr & _ & Hm & H1 & _); auto.
    + apply serves_plain; assumption.
    + apply summable_zero.
    + eauto.
    + exists xs, ys, l. split; [exact Hr|]. split; [apply lasso_ext1, Hm|exact H1].
Qed.

(** ** what goes wrong *)
Lemma soft_pos t a : 0 <= t -> t <= a -> soft t a = a - t.
Proof. intros Ht Ha. destruct (soft_cases t a Ht) as [[H ->]|[[H ->]|[H ->]]]; lra. Qed.
(*! C100_rerun_refuted : a solver run is not a function of its arguments: for every n >= 1 there are an L1 operator with a callable sigma and
   a start such that running ProximalPoint for n iterations twice, with the same object and the same arguments, returns two different
   vectors, because the counter is not reset *)
Lemma C100_rerun_refuted_l : forall niter, (1 <= niter)%nat -> exists (sig : nat -> nlist R 1) (x0 : Vec 1) x1 c1 t1 x2 c2 t2,
  (forall k, nonneg_list (sig k)) /\
  cProximalPoint (l1_cop sig None) 0 x0 1 niter = Ok (x1, c1, t1) /\ cProximalPoint (l1_cop sig None) c1 x0 1 niter = Ok (x2, c2, t2) /\ x1 <> x2.
Proof.
  intros niter Hn. set (sig := fun k => const_sigma 1 (if Nat.leb k niter then 0 else 1)). set (x0 := vtab 1 (fun _ => INR niter)).
  assert (Hrun : forall c v m, (forall j, (j < m)%nat -> (if Nat.leb (S (j + c)) niter then 0 else 1) = v) -> 0 <= v <= 1 -> (m <= niter)%nat -> forall i tr y, INR m * v <= y -> exists tr' q, for_loop (cpp_body (l1_cop sig None) 1) m i (vtab 1 (fun _ => y), c, tr) = Ok ((vtab 1 (fun _ => y - INR m * v), (m + c)%nat, tr'), q)).
  { intros c v m. revert c. induction m as [|m IH]; intros c Hc Hv Hm i tr y Hy.
    - exists tr, i. cbn [for_loop]. replace (y - INR 0 * v) with y by (cbn [INR]; ring). reflexivity.
    - rewrite S_INR in Hy. pose proof (pos_INR m) as Hp. assert (Hmv : 0 <= INR m * v) by (apply Rmult_le_pos; lra). destruct (IH (S c)) with (i := S i) (tr := tr ++ [vtab 1 (fun _ => y - v)]) (y := y - v) as (tr' & q & Ht'); [intros j Hj; replace (j + S c)%nat with (S j + c)%nat by lia; apply Hc; lia|exact Hv|lia|lra|].
      exists tr', q. cbn [for_loop]. unfold cpp_body at 1. cbn [c_prox l1_cop]. unfold call. rewrite l1_prox_ok by lra. cbn [bind snd fst]. 
      assert (Eq : ((vzip (fun s a => soft (1 * s) a) (sig (S c)) (vtab 1 (fun _ => y) [-] gvec None) : Vec 1) [+] gvec None) = vtab 1 (fun _ => y - v)).
      { apply vec_ext. intros j Hj. rewrite get_add, get_vzip, get_sub, !get_vtab by exact Hj. cbn [gvec]. rewrite get_zero. assert (j = 0)%nat by lia. subst j. unfold sig, const_sigma. cbn [proj1_sig repeat nth]. pose proof (Hc 0%nat ltac:(lia)) as Hc0. cbn [Nat.add] in Hc0. rewrite Hc0. rewrite soft_pos; lra. }
      rewrite Eq. rewrite Ht'. rewrite Nat.add_succ_r. cbn [Nat.add]. do 4 f_equal. apply vec_ext. intros j Hj. rewrite !get_vtab by exact Hj. rewrite S_INR. ring. }
  destruct (Hrun 0%nat 0 niter) with (i := 0%nat) (tr := @nil (Vec 1)) (y := INR niter) as (t1 & q1 & H1); [intros j Hj; rewrite (proj2 (Nat.leb_le (S (j + 0)) niter)) by lia; reflexivity|lra|lia|pose proof (pos_INR niter); lra|].
  destruct (Hrun (niter + 0)%nat 1 niter) with (i := 0%nat) (tr := @nil (Vec 1)) (y := INR niter) as (t2 & q2 & H2); [intros j Hj; rewrite (proj2 (Nat.leb_gt (S (j + (niter + 0))) niter)) by lia; reflexivity|lra|lia|lra|].
  exists sig, x0. do 6 eexists. split; [|split; [|split]].
  - intro k. apply const_nonneg. destruct (Nat.leb k niter); lra.
  - unfold cProximalPoint, x0. rewrite H1. cbn [bind fst]. reflexivity.
  - unfold cProximalPoint, x0. rewrite H2. cbn [bind fst]. reflexivity.
  - intro E. assert (E0 : get (vtab 1 (fun _ => INR niter - INR niter * 0)) 0 = get (vtab 1 (fun _ => INR niter - INR niter * 1)) 0) by (rewrite E; reflexivity). rewrite !get_vtab in E0 by lia.
    pose proof (le_INR 1 niter Hn) as Hq. cbn [INR] in Hq. lra.
Qed.

Lemma cbt_count {E : IPS} (x : E) f (g : COp E) d at_ e beta nb : ticks g d at_ -> 0 < e -> 0 < beta -> forall tau z c p t c', 0 < tau -> z <> None \/ (1 <= nb)%nat ->
  cbt_loop x f g e beta nb tau z c = Ok (p, t, c') -> 0 < t /\ exists k, (k <= nb)%nat /\ (z = None -> (1 <= k)%nat) /\ c' = (k * d + c)%nat.
Proof.
  intros Hg He Hb. induction nb as [|nb IH]; intros tau z c p t c' Ht Hz H; cbn [cbt_loop] in H.
  - destruct z as [z|]; [|discriminate]. injection H as _ <- <-. split; [exact Ht|]. exists 0%nat. split; [lia|]. split; [discriminate|reflexivity].
  - destruct (get_grad f x) as [gr|]; cbn [bind] in H; [|discriminate]. rewrite (call_ticks Hg) in H by (apply Rmult_lt_0_compat; assumption). destruct (at_ _ _ _) as [q|]; cbn [bind fst snd] in H; [|discriminate].
    destruct (ftilde f q x tau) as [ft|]; cbn [bind] in H; [|discriminate]. destruct (get_val f q) as [fz|]; cbn [bind] in H; [|discriminate]. destruct (Rleb fz ft).
    + injection H as _ <- <-. split; [exact Ht|]. exists 1%nat. split; [lia|]. split; [lia|lia].
    + apply IH in H as (H1 & k & H2 & _ & H3); [|apply Rmult_lt_0_compat; assumption|left; discriminate]. split; [exact H1|]. exists (S k). split; [lia|]. split; [lia|]. rewrite H3. lia.
Qed.
(*! C100_backtracking : ProximalGradient with backtracking (eta = 1, any acceleration and tolerance) calls an operator that counts at
   least once and at most niterback times per iteration: after n iterations its counter lies between c + n and c + n niterback, so
   sigma(k) is in general not the parameter of iteration k *)
Lemma C100_backtracking_l : forall (E : IPS) (pf : Op E) (g : COp E) at_ c x0 e tau beta n nb accel tol x tr c', ticks g 1 at_ -> 0 < e -> 0 < beta -> match tau with Some t => 0 < t | None => True end -> (1 <= nb)%nat ->
  cProximalGradient pf g c x0 [e] tau true beta 1 n nb accel tol = Ok (x, tr, c') -> (List.length tr + c <= c' <= List.length tr * nb + c)%nat /\ (tol = None -> List.length tr = n).
Proof.
  intros E pf g at_ c x0 e tau beta n nb accel tol x tr c' Hg He Hb Ht Hnb H. unfold cProximalGradient in H. destruct n as [|n]; [cbn [pg_epsg bind for_loop] in H|].
  { discriminate H. }
  cbn [pg_epsg bind] in H. destruct (accel_known accel); [|discriminate].
  set (t0 := match tau with None => 1 | Some t => t end) in *. assert (Ht0 : 0 < t0) by (unfold t0; destruct tau; [exact Ht|lra]). replace (match tau with None => true | Some _ => true end) with true in H by (destruct tau; reflexivity).
  assert (G : forall k i s cc r, (forall j, (i <= j < i + k)%nat -> getitem (repeat e (S n)) j = Ok e) -> 0 < pg_tau s -> for_loop (cpg_body pf g (repeat e (S n)) true beta 1 nb accel tol) k i (s, cc) = Ok r ->
     exists m, List.length (pg_tr (fst (fst r))) = (m + List.length (pg_tr s))%nat /\ (m + cc <= snd (fst r) <= m * nb + cc)%nat /\ (tol = None -> m = k)).
  { induction k as [|k IH]; intros i s cc r Hit Hs Hr; cbn [for_loop] in Hr.
    - injection Hr as <-. exists 0%nat. cbn. split; [reflexivity|]. split; [lia|auto].
    - unfold cpg_body at 1 in Hr. rewrite Hit in Hr by lia. cbn [bind] in Hr. unfold cpg_prox_step in Hr.
      destruct (cbt_loop (pg_y s) pf g e beta nb (pg_tau s) None cc) as [[[z t] c1]|] eqn:Eb; cbn [bind] in Hr; [|discriminate].
      apply (cbt_count _ _ _ 1 at_) in Eb as (Htt & q & Q1 & Q2 & Q3); auto. specialize (Q2 eq_refl). destruct (Reqb_spec 1 1) as [[_ E1]|[E1 _]]; [|lra]. rewrite E1 in Hr. cbn [bind] in Hr.
      destruct tol as [tol|].
      + destruct (get_val pf z) as [vf|]; cbn [bind] in Hr; [|discriminate]. destruct (c_call g c1 z) as [vg|]; cbn [bind] in Hr; [|discriminate]. destruct (rel_stop _ _ _ _) as [st|]; cbn [bind] in Hr; [|discriminate]. destruct st.
        * injection Hr as <-. exists 1%nat. cbn [fst snd pg_tr]. rewrite app_length. cbn [List.length]. split; [lia|]. split; [lia|discriminate].
        * apply IH in Hr as (m & M1 & M2 & M3); [|intros j Hj; apply Hit; lia|exact Htt]. exists (S m). cbn [pg_tr] in M1. rewrite app_length in M1. cbn [List.length] in M1. split; [lia|]. split; [nia|discriminate].
      + apply IH in Hr as (m & M1 & M2 & M3); [|intros j Hj; apply Hit; lia|exact Htt]. exists (S m). cbn [pg_tr] in M1. rewrite app_length in M1. cbn [List.length] in M1. split; [lia|]. split; [nia|]. intros _. rewrite (M3 eq_refl). reflexivity. }
  destruct (for_loop _ _ _ _) as [r|] eqn:Er; cbn [bind] in H; [|discriminate]. apply G in Er as (m & M1 & M2 & M3); [|intros j Hj; unfold getitem; rewrite nth_error_repeat by lia; reflexivity|exact Ht0].
  injection H as _ <- <-. rewrite M1. cbn [pg_tr List.length]. rewrite Nat.add_0_r. split; [exact M2|exact M3].
Qed.

(*! C100_primal_dual_refuted : PrimalDual uses only proxdual of its second operator, and L1.proxdual without offset uses the box built with
   sigma(0) and does not count: as proxg of PrimalDual a callable sigma is no schedule. Two callables with the same value at 0 give the same
   run for every operator, step, start and number of iterations, and the counter of the L1 object stays where it was *)
Lemma C100_primal_dual_refuted_l : forall (E : IPS) n (f : COp E) (sig sig' : nat -> nlist R n) (A : linop E (Vec n)) alias x0 tau mu y0 z theta niter gfirst cf cg, sig 0%nat = sig' 0%nat ->
  let run s := cPrimalDual f (l1_cop s None) cf cg A alias x0 tau mu y0 z theta niter gfirst in
  run sig = run sig' /\ (forall x y tr c, run sig = Ok (x, y, tr, c) -> snd c = cg).
Proof.
  intros E n f sig sig' A alias x0 tau mu y0 z theta niter gfirst cf cg H0 run. split.
  - unfold run, cPrimalDual. f_equal. apply for_loop_ext. intros j [s [a b]] _. unfold cpd_body. cbn [c_dual l1_cop]. unfold l1_proxdual. rewrite H0. reflexivity.
  - intros x y tr c H. unfold run, cPrimalDual in H. set (y1 := match y0 with Some y => y | None => vzero end) in *.
    assert (G : forall k i s a r, for_loop (cpd_body f (l1_cop sig None) A alias z theta gfirst (steps_arr tau niter) (steps_arr mu niter)) k i (s, (a, cg)) = Ok r -> snd (snd (fst r)) = cg).
    { induction k as [|k IH]; intros i s a r Hr; cbn [for_loop] in Hr; [injection Hr as <-; reflexivity|]. unfold cpd_body at 1 in Hr. destruct gfirst.
      - destruct (getitem (steps_arr mu niter) i) as [m|]; cbn [bind] in Hr; [|discriminate]. cbn [c_dual l1_cop] in Hr. unfold l1_proxdual, call in Hr. destruct (Rleb m 0); cbn [bind fst snd] in Hr; [discriminate|].
        destruct (rmatvec_plus _ _ _ _) as [aty yy]. destruct (getitem (steps_arr tau niter) i) as [t|]; cbn [bind] in Hr; [|discriminate]. destruct (c_prox f a _ t) as [a' [p|]]; cbn [bind fst snd] in Hr; [|discriminate]. apply IH in Hr. exact Hr.
      - destruct (rmatvec_plus _ _ _ _) as [aty yy]. destruct (getitem (steps_arr tau niter) i) as [t|]; cbn [bind] in Hr; [|discriminate]. unfold call in Hr. destruct (c_prox f a _ t) as [a' [p|]]; cbn [bind fst snd] in Hr; [|discriminate].
        destruct (getitem (steps_arr mu niter) i) as [m|]; cbn [bind] in Hr; [|discriminate]. cbn [c_dual l1_cop] in Hr. unfold l1_proxdual in Hr. destruct (Rleb m 0); cbn [bind fst snd] in Hr; [discriminate|]. apply IH in Hr. exact Hr. }
    destruct (for_loop _ _ _ _) as [[[s cs] k]|] eqn:Er; cbn [bind fst] in H; [|discriminate]. injection H as _ _ _ <-. apply G in Er. exact Er.
Qed.

(** ** deblending *)
Lemma hard_near n sig t (x : Vec n) : 0 <= t * sig -> norm (vmap (l0_pr sig t) x [-] x) <= t * sig * sqrt (INR n).
Proof.
  intro H. apply norm_le_of_sq; [apply Rmult_le_pos; [exact H|apply sqrt_pos]|]. rewrite vec_norm2. replace (t * sig * sqrt (INR n) * (t * sig * sqrt (INR n))) with (sqrt (INR n) * sqrt (INR n) * (t * sig * (t * sig))) by ring.
  rewrite sqrt_sqrt by apply pos_INR. rewrite <- RS_const. apply RS_le. intros i Hi. rewrite get_sub, get_hard by exact Hi. destruct (Rleb_spec (Rabs (get x i)) (t * sig)) as [[Hx ->]|[Hx ->]]; [|nra].
  replace ((0 - get x i) * (0 - get x i)) with (Rabs (get x i) * Rabs (get x i)) by (rewrite <- Rabs_mult, Rabs_right by (apply Rle_ge, Rle_0_sqr); ring). pose proof (Rabs_pos (get x i)). apply Rmult_le_compat; assumption.
Qed.
Lemma adj_contr {E F : IPS} (Q : linop E F) y : (forall x, ladj Q (Q x) = x) -> norm (ladj Q y) <= norm y.
Proof.
  intro H. assert (Hi : forall x, norm2 (Q x) = norm2 x) by (intro x; unfold norm2; rewrite ladj_spec, H; reflexivity).
  apply norm_le_of_sq; [apply norm_nonneg|]. rewrite norm_sq. pose proof (norm2_nonneg (y [-] Q (ladj Q y))) as G. rewrite norm2_sub, Hi, <- ladj_spec' in G. fold (norm2 (ladj Q y)) in G. lra.
Qed.
Lemma RS_from e : forall n k, RS (n + k) e = RS k e + RS n (fun j => e (j + k)%nat).
Proof. induction n as [|n IH]; intro k; [cbn [Nat.add RS]; ring|]. cbn [Nat.add]. rewrite !RS_S, IH. ring. Qed.
(*! C100_deblending : the deblending tutorial. f = AffineSet(A, d) (inner solver exact), g = Orthogonal(L0(sigma), Q) with Q^T Q = I (for
   instance the adjoint of a tight patched transform, real arrays, N coefficients), sigma callable and >= 0 with finite sum (for instance
   s 0.9^k), HQS with gfirst=False, any tau > 0, start and offset b. No exception. From the first iteration on x fits the data exactly
   (A x = d); the first x is the projection of the start on the data-fitting set, that is its minimum-norm element when the start is zero.
   Iteration k moves x by at most tau sigma sqrt N, and z stays that close to x. So x and z converge to one point l with A l = d, and l
   is no further from the x of iteration k than tau sqrt N times the sum of the remaining thresholds: the start and the first
   thresholds decide the result. The counter of the L0 object ends at c + niter *)
Lemma C100_deblending_l : forall (E F : IPS) n (f : Op E) (A : linop E F) d (Q : linop E (Vec n)) (sig : nat -> R) b alpha x0 z0 x z tau cf c, bw E ->
  is_affine f A d -> (forall v, ladj Q (Q v) = v) -> summable (fun k => sig (S (k + c))) -> 0 < alpha -> 0 < tau -> x0z0_init x0 z0 = Ok (x, z) ->
  exists xs zs l, (forall k, exists tr, cHQS (plain f) (orth_cop (l0_cop sig) Q false b alpha) cf c x0 [tau] k z0 false = Ok (xs k, zs k, tr, (cf, (k + c)%nat))) /\
    (forall k, A (xs (S k)) = d) /\ zs 0%nat = z /\ (forall k, is_proj (fun v => A v = d) (zs k) (xs (S k))) /\
    (forall k, norm (zs (S k) [-] xs (S k)) <= tau * sig (S (k + c)) * sqrt (INR n) /\ norm (xs (S (S k)) [-] xs (S k)) <= tau * sig (S (k + c)) * sqrt (INR n)) /\
    A l = d /\ vcv xs l /\ vcv zs l /\ forall k B, (forall m, RS m (fun j => sig (S (j + (k + c)))) <= B) -> norm (l [-] xs (S k)) <= tau * B * sqrt (INR n).
Proof.
  intros E F n f A d Q sig b alpha x0 z0 x z tau cf c HB Hf HQQ Hs Ha Ht Hi. destruct Hf as (close & cg & Hc & Ef).
  set (P := fun v : E => v [-] ladj A (cg (fun v => A (ladj A v)) (A v [-] d))). set (D := fun v : E => A v = d). set (g := orth_cop (l0_cop sig) Q false b alpha).
  assert (HP : forall v, o_prox f v tau = Ok (P v) /\ is_proj D v (P v) /\ is_prox (indic D) tau v (P v)).
  { intro v. assert (E0 : o_prox f v tau = Ok (P v)) by (rewrite Ef; unfold obj, o_prox; cbn [d_prox b_prox affine_body]; rewrite check_tau_pos by exact Ht; reflexivity).
    assert (Hfe : A (P v) = d) by (unfold P; rewrite lapp_sub, Hc; vring). assert (Hpr : is_proj D v (P v)).
    { apply vi_proj; [exact Hfe|]. intros y Hy. replace (v [-] P v) with (ladj A (cg (fun v => A (ladj A v)) (A v [-] d))) by (unfold P; vring). rewrite ladj_spec', lapp_sub, Hy, Hfe, vsub_diag, inner_zero_r. lra. }
    split; [exact E0|]. split; [exact Hpr|]. apply proj_prox; auto. }
  assert (HD : convex_set D).
  { intros u v t Hu Hv Ht'. unfold D in *. rewrite ?lapp_add, ?lapp_scal, ?lapp_sub, Hu, Hv. vring. }
  assert (Hne : nonexp P) by (apply (prox_ne (indic D) tau P (indic_convex D HD) Ht); intro v; apply HP).
  assert (Hid : forall v, A v = d -> P v = v) by (intros v Hv; apply (proj_unique D v); [exact HD|apply HP|apply proj_id; exact Hv]).
  set (e := fun k => tau * sig (S (k + c)) * sqrt (INR n)).
  assert (He : summable e). { apply (summable_le (fun k => tau * sqrt (INR n) * sig (S (k + c)))); [intro k; pose proof (proj1 Hs k) as H0; cbv beta in H0; unfold e; split; [apply Rmult_le_pos; [apply Rmult_le_pos; lra|apply sqrt_pos]|apply Req_le; ring]|]. apply (summable_scal (tau * sqrt (INR n)) (fun k => sig (S (k + c)))); [apply Rmult_le_pos; [lra|apply sqrt_pos]|exact Hs]. }
  set (body := fun (j : nat) (sc : hqs_state E * (nat * nat)) => let '(s, (cf, cg)) := sc in
    r <- (x <- call (c_prox (plain f) cf (h_z s) tau) ;;
          z <- call (c_prox g cg (fst x) tau) ;; Ok (x, z)) ;;
    let '((x, cf), (z, cg)) := r in
    Ok ((HQ x z (h_tr s ++ [(x, z)]), (cf, cg)), false)).
  destruct (loop_seq body (fun j s => snd s = (cf, (j + c)%nat)) (fun j s s' => h_x (fst s') = P (h_z (fst s)) /\ norm (h_z (fst s') [-] h_x (fst s')) <= e j) (HQ x z [], (cf, c))) as (st & S0 & Hrun & HI & HR); [reflexivity| |].
  { intros j [s cc] Hcc. cbn [fst snd] in *. subst cc. unfold body. assert (E1 : c_prox (plain f) cf (h_z s) tau = (cf, Ok (P (h_z s)))) by (cbn [plain c_prox]; rewrite (proj1 (HP _)); reflexivity).
    rewrite (call_ok _ _ _ _ _ _ E1). cbn [bind fst snd]. pose proof (ticks_orth (l0_cop sig) Q false b alpha 1 _ Ha (ticks_l0 sig) (j + c)%nat (P (h_z s)) tau Ht) as E2.
    unfold obj, o_prox in E2. cbn [d_prox b_prox orth_body] in E2. rewrite check_tau_pos in E2 by exact Ht. cbn [bind o_prox] in E2. fold g in E2. rewrite (call_ok _ _ _ _ _ _ E2). cbn [bind fst snd].
    eexists. split; [reflexivity|]. cbn [fst snd h_x h_z]. split; [|reflexivity]. split; [reflexivity|]. set (v := P (h_z s)).
    assert (Ev : v = ladj Q ((Q v [+] b) [-] b)) by (replace (Q v [+] b [-] b) with (Q v) by vring; symmetry; apply HQQ). rewrite Ev at 2. rewrite <- ladj_sub.
    eapply Rle_trans; [apply adj_contr; exact HQQ|]. match goal with |- norm (?p [-] b [-] (?q [-] b)) <= _ => replace (p [-] b [-] (q [-] b)) with (p [-] q) by vring end. apply hard_near. apply Rmult_le_pos; [lra|apply (proj1 Hs j)]. }
  set (xs := fun k => h_x (fst (st k))). set (zs := fun k => h_z (fst (st k))).
  assert (Hx : forall k, xs (S k) = P (zs k)) by (intro k; apply HR). assert (Hz : forall k, norm (zs (S k) [-] xs (S k)) <= e k) by (intro k; apply HR).
  assert (Hf : forall k, A (xs (S k)) = d) by (intro k; rewrite Hx; apply HP).
  assert (Hst : forall k, norm (xs (S (S k)) [-] xs (S k)) <= e k) by (intro k; rewrite (Hx (S k)), <- (Hid (xs (S k)) (Hf k)) at 1; eapply Rle_trans; [apply Hne|apply Hz]).
  destruct (perturbed_cv HB P (fun k => xs (S k)) e Hne) as (l & Fl & Hl).
  { intros us Hus. exists (us 1%nat). assert (H1 : P (us 1%nat) = us 1%nat) by (apply Hid; rewrite Hus; apply HP). split; [exact H1|]. apply vcv_unshift. apply (vcv_ext (fun _ => us 1%nat)); [|apply vcv_const].
    induction k as [|k IH]; [reflexivity|]. rewrite (Hus (S k)), <- IH. symmetry. exact H1. }
  { exact He. }
  { intro k. rewrite (Hid _ (Hf k)). apply Hst. }
  assert (Al : A l = d) by (rewrite <- Fl; apply HP). apply vcv_unshift in Hl.
  exists xs, zs, l. split; [|split; [exact Hf|split; [unfold zs; rewrite S0; reflexivity|split; [|split; [|split; [exact Al|split; [exact Hl|split]]]]]]].
  - intro k. exists (h_tr (fst (st k))). unfold cHQS. rewrite Hi. cbn [bind fst snd]. rewrite (for_loop_ext _ body); [|intros j [s [a a']] Hj; unfold chqs_body, getitem; rewrite hqs_taus_scalar by lia; reflexivity].
    rewrite Hrun. cbn [bind fst]. specialize (HI k). unfold xs, zs. destruct (st k) as [s cc]. cbn [fst snd] in *. subst cc. reflexivity.
  - intro k. rewrite Hx. apply HP.
  - intro k. split; [apply Hz|apply Hst].
  - apply vcv_unshift. apply vcv_shift in Hl. apply (vcv_close (fun k => xs (S k))); [exact Hl|]. pose proof (summable_cv e He) as Hcv. intros eps Heps. destruct (Hcv (sqrt eps)) as [N HN]; [apply sqrt_lt_R0; exact Heps|].
    exists N. intros k Hk. specialize (HN k Hk). unfold R_dist in *. rewrite Rminus_0_r in *. rewrite Rabs_right by (apply Rle_ge, norm2_nonneg). rewrite <- norm_sq. pose proof (Hz k) as Hzk. pose proof (norm_nonneg (zs (S k) [-] xs (S k))) as Hnn.
    rewrite Rabs_right in HN by (apply Rle_ge; apply (proj1 He)). rewrite <- (sqrt_sqrt eps) by lra. apply Rmult_le_0_lt_compat; try assumption; lra.
  - intros k B HBd. assert (Hd : forall m, norm (xs (S (m + k)) [-] xs (S k)) <= tau * sqrt (INR n) * RS m (fun j => sig (S (j + (k + c))))).
    { induction m as [|m IH]; [cbn [Nat.add RS]; replace (xs (S k) [-] xs (S k)) with (vzero : E) by vring; rewrite norm_zero; lra|]. rewrite RS_S. cbn [Nat.add].
      replace (xs (S (S (m + k))) [-] xs (S k)) with ((xs (S (S (m + k))) [-] xs (S (m + k))) [+] (xs (S (m + k)) [-] xs (S k))) by vring. eapply Rle_trans; [apply norm_triangle|]. pose proof (Hst (m + k)%nat) as G. unfold e in G. rewrite <- Nat.add_assoc in G. lra. }
    apply Rnot_lt_le. intro Hlt. assert (Hg : 0 < norm (l [-] xs (S k)) - tau * B * sqrt (INR n)) by lra. destruct (Hl _ Hg) as [N HN]. specialize (HN (S (N + k)) ltac:(lia)). specialize (Hd N).
    assert (G1 : norm (l [-] xs (S k)) <= norm (xs (S (N + k)) [-] l) + norm (xs (S (N + k)) [-] xs (S k))).
    { replace (l [-] xs (S k)) with ((-1) [*] (xs (S (N + k)) [-] l) [+] (xs (S (N + k)) [-] xs (S k))) by vring. eapply Rle_trans; [apply norm_triangle|]. rewrite norm_scal, Rabs_left by lra. lra. }
    assert (G2 : tau * sqrt (INR n) * RS N (fun j => sig (S (j + (k + c)))) <= tau * sqrt (INR n) * B) by (apply Rmult_le_compat_l; [apply Rmult_le_pos; [lra|apply sqrt_pos]|apply HBd]). lra.
Qed.

(*!ex C100_example : L1 with sigma(k) = 1 + 2^-k has finite total distance to the weight 1, and L0 with sigma(k) = s 0.9^k (deblending) a finite
   sum, at most 9 s from any later call on; the identity satisfies Q^T Q = I and AffineSet on x0 + x1 = 3 exists; with backtracking one
   iteration can count twice (f = |x|^2, tau = 1, beta = 1/2, x0 = 1, sigma = 0) *)
Lemma C100_example_l :
  summable (fun k => Rabs (1 + (/ 2) ^ k - 1)) /\ (forall s c, 0 <= s -> summable (fun k => s * (9 / 10) ^ (S (k + c))) /\ forall m, RS m (fun j => s * (9 / 10) ^ (S (j + c))) <= 9 * s) /\
  (forall (E : IPS) (v : E), ladj (id_linop E) (id_linop E v) = v) /\ (exists f : Op (Vec 2), is_affine f sumop (vtab 1 (fun _ => 3))) /\
  (let f : Op (Vec 1) := mkOp (fun x => Ok (VNum (norm2 x))) (fun x t => Ok x) (fun x t => Ok x) (fun x => Ok (Some (2 [*] x))) true in
   cProximalGradient f (l1_cop (fun _ => const_sigma 1 0) None) 0 (vtab 1 (fun _ => 1)) [1] (Some 1) true (/ 2) 1 1 10 None None = Ok (vzero, [vzero], 2%nat)).
Proof.
  split; [|split; [|split; [|split]]].
  - split; [intro k; apply Rabs_pos|]. exists 2. intro n. assert (H : RS n (fun k => Rabs (1 + (/ 2) ^ k - 1)) = 2 - 2 * (/ 2) ^ n).
    { induction n as [|n IH]; [cbn [RS pow]; ring|]. rewrite RS_S, IH. replace (1 + (/ 2) ^ n - 1) with ((/ 2) ^ n) by ring. rewrite Rabs_right by (apply Rle_ge, pow_le; lra). cbn [pow]. field. }
    rewrite H. pose proof (pow_le (/ 2) n ltac:(lra)). lra.
  - intros s c Hs. assert (H : forall m, RS m (fun j => s * (9 / 10) ^ (S (j + c))) <= 9 * s).
    { intro m. assert (H : RS m (fun j => s * (9 / 10) ^ (S (j + c))) = 9 * s * (9 / 10) ^ c * (1 - (9 / 10) ^ m)).
      { induction m as [|m IH]; [cbn [RS pow]; ring|]. rewrite RS_S, IH. cbn [pow]. rewrite pow_add. field. }
      rewrite H. assert (0 <= (9 / 10) ^ c <= 1) by (split; [apply pow_le; lra|rewrite <- (pow1 c); apply pow_incr; lra]). pose proof (pow_le (9 / 10) m ltac:(lra)).
      assert (0 <= s * (9 / 10) ^ c) by (apply Rmult_le_pos; lra). assert (0 <= s * (9 / 10) ^ c * (9 / 10) ^ m) by (apply Rmult_le_pos; lra). assert (s * (9 / 10) ^ c <= s * 1) by (apply Rmult_le_compat_l; lra). lra. }
    split; [|exact H]. split; [intro k; apply Rmult_le_pos; [exact Hs|apply pow_le; lra]|]. exists (9 * s). exact H.
  - intros E v. reflexivity.
  - eexists. exists (fun _ _ => true), (fun _ y => / 2 [*] y). split; [|reflexivity]. intro x. apply vec_ext. intros i Hi. assert (i = 0)%nat by lia. subst i. cbn [sumop lapp ladj]. rewrite !get_vtab by lia. rewrite !get_scal by lia. field.
  - intro f. assert (Hp : forall c (x : Vec 1) t, 0 < t -> call (c_prox (l1_cop (fun _ => const_sigma 1 0) None) c x t) = Ok (x, S c)).
    { intros c x t Ht. unfold call. cbn [c_prox l1_cop]. rewrite l1_prox_ok by exact Ht. cbn [bind snd fst]. do 2 f_equal. apply vec_ext. intros i Hi. rewrite get_add, get_vzip, get_sub by exact Hi. cbn [gvec]. rewrite get_zero.
      assert (i = 0)%nat by lia. subst i. unfold const_sigma. cbn [proj1_sig repeat nth]. destruct (soft_cases (t * 0) (get x 0 - 0) ltac:(lra)) as [[H ->]|[[H ->]|[H ->]]]; lra. }
    set (x1 := vtab 1 (fun _ => 1) : Vec 1). assert (N1 : norm2 x1 = 1) by (rewrite vec_norm2; cbn [RS]; unfold x1; rewrite get_vtab by lia; ring).
    assert (B : cbt_loop x1 f (l1_cop (fun _ => const_sigma 1 0) None) 1 (/ 2) 10 1 None 0 = Ok (vzero, 1 * / 2, 2%nat)).
    { cbn [cbt_loop]. change (get_grad f x1) with (Ok (2 [*] x1)). cbn [bind]. rewrite Hp by lra. cbn [bind fst snd]. unfold ftilde at 1. change (get_grad f x1) with (Ok (2 [*] x1)). change (get_val f x1) with (Ok (norm2 x1)). cbn [bind].
      change (get_val f (x1 [-] 1 [*] (2 [*] x1))) with (Ok (norm2 (x1 [-] 1 [*] (2 [*] x1)))). cbn [bind]. replace (x1 [-] 1 [*] (2 [*] x1)) with ((-1) [*] x1) by vring.
      replace ((-1) [*] x1 [-] x1) with ((-2) [*] x1) by vring. rewrite !norm2_scal, inner_scal_l, inner_scal_r. change (<< x1, x1 >>) with (norm2 x1). rewrite N1.
      match goal with |- context [Rleb ?a ?b] => destruct (Rleb_spec a b) as [[Hq _]|[_ ->]]; [exfalso; lra|] end. rewrite Hp by lra. cbn [bind fst snd]. unfold ftilde at 1. change (get_grad f x1) with (Ok (2 [*] x1)). change (get_val f x1) with (Ok (norm2 x1)). cbn [bind].
      replace (x1 [-] (1 * / 2) [*] (2 [*] x1)) with (vzero : Vec 1) by (vext w; field). change (get_val f vzero) with (Ok (norm2 (vzero : Vec 1))). cbn [bind].
      replace (vzero [-] x1) with ((-1) [*] x1) by vring. rewrite norm2_scal, inner_scal_l, inner_scal_r, norm2_zero. change (<< x1, x1 >>) with (norm2 x1). rewrite N1.
      match goal with |- context [Rleb ?a ?b] => destruct (Rleb_spec a b) as [[_ ->]|[Hq _]]; [reflexivity|exfalso; lra] end. }
    unfold cProximalGradient. cbn [pg_epsg bind repeat accel_known for_loop]. unfold cpg_body at 1, cpg_prox_step. cbn [getitem nth_error bind pg_x pg_y pg_tau]. rewrite B. cbn [bind]. destruct (Reqb_spec 1 1) as [[_ ->]|[Hq _]]; [|lra]. cbn [bind fst snd pg_x pg_tr app]. reflexivity.
Qed.
