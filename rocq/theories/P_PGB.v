(** * ProximalGradient with a BilinearOperator: proofs *)
From Coq Require Import String Psatz.
From Verif Require Import Base Space Spec ConvexFacts Smooth M_ProxOp SpecOps P_ProxOp M_Loop LoopFacts Trace SeqFacts M_PG M_Norms P_Norms P_PG P_PG2 VSum MatFacts M_Bilin P_Bilin P_Bilin2 M_PGB.
From Verif Require Export S_PGB.
Open Scope result_scope.
Open Scope R_scope.

(** ** Backtracking never increases the objective, convex or not *)
Lemma no_accel_known a : no_accel a -> accel_known a = true.
Proof. intros [->| ->]; reflexivity. Qed.
Lemma no_accel_omega a j : no_accel a -> omega_seq a j = 0.
Proof. intros [->| ->]; reflexivity. Qed.

Lemma trial_descent {E : IPS} (f : E -> R) df (g : efun E) e tau x z : 0 < e -> 0 < tau -> edom g x -> trial df g e tau x z -> test_ok f df tau x z ->
  f z + e * eval g z <= f x + e * eval g x.
Proof.
  intros He Ht Hd [Hz Hm] Hs. specialize (Hm x Hd). unfold test_ok in Hs.
  assert (E1 : norm2 (z [-] (x [-] tau [*] df x)) = norm2 (z [-] x) + 2 * tau * << df x, z [-] x >> + tau * tau * norm2 (df x)) by (unfold norm2; iexp; ring).
  assert (E2 : norm2 (x [-] (x [-] tau [*] df x)) = tau * tau * norm2 (df x)) by (unfold norm2; iexp; ring).
  rewrite E1, E2 in Hm.
  apply (Rmult_le_compat_l e) in Hm; [|lra]. rewrite !Rmult_plus_distr_l in Hm.
  assert (E3 : forall v, e * (/ (2 * (e * tau)) * v) = / (2 * tau) * v) by (intro; field; lra). rewrite !E3 in Hm.
  replace (/ (2 * tau) * (2 * tau * << df x, z [-] x >>)) with (<< df x, z [-] x >>) in Hm by (field; lra). lra.
Qed.

(*! C41_backtracking_nonconvex : ProximalGradient with backtracking, eta = 1 and no acceleration, for every f (convex or not, with any gradient
   routine), every g with a correct proximal operator, one epsg > 0, any first step, any beta > 0 and at least one trial per line search: it
   returns, and in every iteration either f + epsg g does not increase or all niterback trial steps of that line search failed their test *)
Lemma C41_backtracking_nonconvex_l : forall (E : IPS) (proxf proxg : Op E) f df g gv e x0 tau beta niter niterback accel tol,
  impl_call proxf (etot f) -> (forall x, o_grad proxf x = Ok (Some (df x))) -> impl_prox proxg g ->
  0 < e -> 0 < tau -> 0 < beta -> niterback <> 0%nat -> niter <> 0%nat -> no_accel accel -> edom g x0 ->
  (tol <> None -> forall x, edom g x -> get_val proxg x = Ok (gv x)) ->
  exists xs taus k, ProximalGradient proxf proxg x0 [e] (Some tau) true beta 1 niter niterback accel tol = Ok (xs k, map xs (seq 1 k)) /\
    xs 0%nat = x0 /\ taus 0%nat = tau /\ stops_at tol (fun j => f (xs j) + e * gv (xs j)) niter k /\
    forall j, (j < k)%nat -> edom g (xs (S j)) /\ 0 < taus (S j) /\
      (f (xs (S j)) + e * eval g (xs (S j)) <= f (xs j) + e * eval g (xs j) \/ search_failed f df g e beta niterback (taus j) (xs j)).
Proof.
  intros E proxf proxg f df g gv e x0 tau beta niter nb accel tol Hc Hg Hp He Ht Hb Hnb Hn Ha Hd Hv.
  assert (Hpw : forall t i, 0 < t -> 0 < t * beta ^ i) by (intros; apply Rmult_lt_0_compat; auto; apply pow_lt; auto).
  destruct (pg_run proxf proxg true beta 1 nb accel tol (fun _ => e) (repeat e niter) f gv
    (fun j x y t x' t' => edom g x' /\ 0 < t' /\ ((trial df g e t' y x' /\ test_ok f df t' y x') \/ search_failed f df g e beta nb t y))
    (fun _ t => 0 < t) niter x0 tau) as [s [k [xs [ys [taus [Er [Hx [Htr [H0 [H1 [H2 [HR [Hs Hk0]]]]]]]]]]]]].
  - intros j Hj. apply nth_error_repeat. auto.
  - auto.
  - intros j x y t Hj Htp. destruct (bt_gen proxf proxg f df g e beta Hc Hg Hp He Hb nb y t None Htp) as [[z [i [E1 [I1 [I2 [I3 _]]]]]]|[I1 I2]].
    + exists z, (t * beta ^ i). split; [|split; auto; split; [apply I2|auto]].
      unfold pg_prox_step, backtracking. rewrite E1. cbn [bind]. destruct (Reqb_spec 1 1) as [[_ ->]|[? _]]; [auto|lra].
    + destruct nb as [|nb']; [contradiction|]. destruct I2 as [z [E1 [I2 I3]]]. exists z, (t * beta ^ S nb'). split; [|split; auto; split; [apply I2|auto]].
      unfold pg_prox_step, backtracking. rewrite E1. cbn [bind]. destruct (Reqb_spec 1 1) as [[_ ->]|[? _]]; [auto|lra].
  - intros Ht' j x y t x' t' [Hr _]. split; [|auto]. unfold get_val. rewrite (Hc x' I). reflexivity.
  - exists xs, taus, k. split.
    { unfold ProximalGradient. replace (pg_epsg [e] niter) with (Ok (repeat e niter) : result (list R)) by (destruct niter; [contradiction|reflexivity]).
      cbn [bind]. rewrite (no_accel_known _ Ha), Er. cbn [bind fst]. rewrite Hx, Htr. reflexivity. }
    split; auto. split; auto. split; [exact Hs|].
    assert (Hxy : forall j, (j <= k)%nat -> ys j = xs j).
    { intros [|j] Hj; [congruence|]. destruct (HR j ltac:(lia)) as [_ ->]. rewrite no_accel_omega by auto. vring. }
    assert (HD : forall j, (j <= k)%nat -> edom g (xs j)) by (intros [|j] Hj; [congruence|apply (HR j); lia]).
    assert (HT : forall j, (j <= k)%nat -> 0 < taus j) by (intros [|j] Hj; [congruence|apply (HR j); lia]).
    intros j Hj. destruct (HR j Hj) as [[D [T [[A1 A2]|A]]] _]; (split; [auto|split; [auto|]]); rewrite (Hxy j) in * by lia; [left|right; auto].
    eapply trial_descent; eauto. apply HD. lia.
Qed.

(** ** A stateful f that follows the iterates behaves like its true value and gradient *)
Record follows {E : IPS} {St : Type} (S : SOp E St) (at_ : St -> E -> Prop) (F : E -> R) (dF : E -> E) : Prop := mkFollows {
  fo_call : forall st x z, at_ st x -> so_call S st z = Ok (F z);
  fo_grad : forall st x, at_ st x -> so_grad S st x = Ok (dF x);
  fo_upd : forall st x z, at_ st x -> at_ (so_upd S st z) z }.


Section Sim.
Context {E : IPS} {St : Type} (S : SOp E St) (at_ : St -> E -> Prop) (F : E -> R) (dF : E -> E) (HF : follows S at_ F dF).
Variables (proxg : Op E) (l : list R) (bt : bool) (beta eta : R) (nb : nat) (accel : option string) (tol : option R).

Lemma fr_val st x z : at_ st x -> get_val (frozen S st) z = get_val (ideal F dF) z.
Proof. intro H. unfold get_val. cbn [o_call frozen ideal]. rewrite (fo_call _ _ _ _ HF st x z H). reflexivity. Qed.
Lemma fr_grad st x : at_ st x -> get_grad (frozen S st) x = get_grad (ideal F dF) x.
Proof. intro H. unfold get_grad. cbn [o_grad frozen ideal]. rewrite (fo_grad _ _ _ _ HF st x H). reflexivity. Qed.
Lemma fr_bt st x e n : at_ st x -> forall tau z, bt_loop x (frozen S st) proxg e beta n tau z = bt_loop x (ideal F dF) proxg e beta n tau z.
Proof.
  intro H. induction n as [|n IH]; intros tau z; [reflexivity|]. cbn [bt_loop]. rewrite (fr_grad st x H).
  destruct (get_grad (ideal F dF) x) as [g|]; [|reflexivity]. cbn [bind].
  destruct (o_prox proxg _ _) as [w|]; [|reflexivity]. cbn [bind]. unfold ftilde. rewrite (fr_grad st x H), (fr_val st x x H), (fr_val st x w H).
  destruct (get_val (ideal F dF) x); [|reflexivity]. cbn [bind]. destruct (get_grad (ideal F dF) x); [|reflexivity]. cbn [bind].
  destruct (get_val (ideal F dF) w); [|reflexivity]. cbn [bind]. destruct (Rleb _ _); auto.
Qed.

(** The two situations in which every gradient is taken at the last iterate. *)
Definition plain : Prop := (eta = 1 /\ no_accel accel) \/ (eta <> 1 /\ bt = false).

Lemma fr_step st x y e tau : at_ st x -> (eta = 1 -> y = x) -> (eta = 1 \/ bt = false) ->
  pg_prox_step (frozen S st) proxg bt beta eta nb e x y tau = pg_prox_step (ideal F dF) proxg bt beta eta nb e x y tau.
Proof.
  intros H Hy Hp. unfold pg_prox_step. destruct (Reqb_spec eta 1) as [[E1 ->]|[E1 ->]].
  - rewrite (Hy E1). rewrite (fr_grad st x H). unfold backtracking. rewrite (fr_bt st x e nb H). reflexivity.
  - destruct Hp as [Hp| ->]; [contradiction|]. rewrite (fr_grad st x H). reflexivity.
Qed.

Lemma body_sim : plain -> forall i s st, at_ st (pg_x s) -> (eta = 1 -> pg_y s = pg_x s) ->
  match pgb_body S proxg l bt beta eta nb accel tol i (s, st) with
  | Ok r => pg_body (ideal F dF) proxg l bt beta eta nb accel tol i s = Ok (fst (fst r), snd r) /\ at_ (snd (fst r)) (pg_x (fst (fst r))) /\
            (eta = 1 -> pg_y (fst (fst r)) = pg_x (fst (fst r)))
  | Err e => pg_body (ideal F dF) proxg l bt beta eta nb accel tol i s = Err e
  end.
Proof.
  intros Hp i s st Ha Hy. unfold pgb_body, pg_body. cbn [fst snd]. destruct (getitem l i) as [e|e]; [|reflexivity]. cbn [bind].
  rewrite (fr_step st (pg_x s) (pg_y s) e (pg_tau s) Ha Hy) by (destruct Hp as [[? _]|[_ ?]]; auto).
  destruct (pg_prox_step (ideal F dF) proxg bt beta eta nb e (pg_x s) (pg_y s) (pg_tau s)) as [[x tau]|e']; [|reflexivity]. cbn [bind fst snd].
  set (t' := if accel_is accel "fista" then (1 + _) / 2 else pg_t s). set (om := if accel_is accel "vandenberghe" then _ else _).
  assert (Hy' : eta = 1 -> x [+] om [*] (x [-] pg_x s) = x).
  { intro E1. destruct Hp as [[_ Hn]|[Hn _]]; [|contradiction]. unfold om. assert (Ho : accel_is accel "vandenberghe" = false /\ accel_is accel "fista" = false) by (destruct Hn as [-> | ->]; auto).
    destruct Ho as [-> ->]. vring. }
  assert (Ha' : at_ (so_upd S st x) x) by (apply (fo_upd _ _ _ _ HF st (pg_x s)); auto).
  destruct tol as [t|].
  - rewrite (fr_val _ x x Ha'). destruct (get_val (ideal F dF) x) as [pf|]; [|reflexivity]. cbn [bind].
    destruct (get_val proxg x) as [pg|]; [|reflexivity]. cbn [bind]. destruct (rel_stop false t (pf + e * pg) (pg_pfg s)) as [b|]; [|reflexivity].
    cbn [bind fst snd pg_x pg_y]. auto.
  - cbn [fst snd pg_x pg_y]. auto.
Qed.

Lemma sim n : plain -> forall i s st, at_ st (pg_x s) -> (eta = 1 -> pg_y s = pg_x s) ->
  match for_loop (pgb_body S proxg l bt beta eta nb accel tol) n i (s, st) with
  | Ok r => for_loop (pg_body (ideal F dF) proxg l bt beta eta nb accel tol) n i s = Ok (fst (fst r), snd r) /\ at_ (snd (fst r)) (pg_x (fst (fst r)))
  | Err e => for_loop (pg_body (ideal F dF) proxg l bt beta eta nb accel tol) n i s = Err e
  end.
Proof.
  intro Hp. induction n as [|n IH]; intros i s st Ha Hy; [split; [reflexivity|auto]|]. cbn [for_loop].
  pose proof (body_sim Hp i s st Ha Hy) as H. destruct (pgb_body _ _ _ _ _ _ _ _ _ i (s, st)) as [[[s' st'] b]|e]; cbn [bind fst snd] in *.
  - destruct H as [-> [A1 A2]]. cbn [bind fst snd]. destruct b; [split; [reflexivity|auto]|]. apply IH; auto.
  - rewrite H. reflexivity.
Qed.
End Sim.

Lemma sim_run {E : IPS} {St} (S : SOp E St) at_ F dF st proxg x0 epsg tau bt beta eta n nb accel tol : follows S at_ F dF -> at_ st x0 ->
  (eta = 1 /\ no_accel accel) \/ (eta <> 1 /\ bt = false /\ tau <> None) ->
  drop (ProximalGradientB S st proxg x0 epsg tau bt beta eta n nb accel tol) = ProximalGradient (ideal F dF) proxg x0 epsg tau bt beta eta n nb accel tol.
Proof.
  intros HF Ha Hp. unfold ProximalGradientB, ProximalGradient, drop. destruct (pg_epsg epsg n) as [l|]; [|reflexivity]. cbn [bind].
  destruct (accel_known accel); [|reflexivity]. set (bt' := match tau with None => true | Some _ => bt end). set (t0 := match tau with None => 1 | Some t => t end).
  assert (Hp' : plain bt' eta accel). { destruct Hp as [H|[H1 [H2 H3]]]; [left; auto|right]. split; auto. unfold bt'. destruct tau; auto; contradiction. }
  pose proof (sim S at_ F dF HF proxg l bt' beta eta nb accel tol n Hp' 0%nat (PG x0 x0 1 t0 None []) st Ha (fun _ => eq_refl)) as H.
  destruct (for_loop (pgb_body _ _ _ _ _ _ _ _ _) n 0 _) as [[[s st'] k]|e]; cbn [bind fst snd] in *.
  - destruct H as [-> _]. reflexivity.
  - rewrite H. reflexivity.
Qed.

(** ** LowRankFactorizedMatrix *)
Lemma as_vec_lst n (x : Vec n) : as_vec n (lst x) = Ok x.
Proof. exact (to_vec_lst n x). Qed.

Lemma lr_follows n k m p (d : Vec p) (A : linop (Vec (n * m)) (Vec p)) :
  (exists H (X : Vec (n * k)) (Y : Vec (k * m)), lr_holds H X Y d A) ->
  exists dF, (forall v, is_grad (fit A d) v (dF v)) /\
    follows (lr_sop n k m) (fun H v => lr_holds H (vfst v : Vec (n * k)) (vsnd v : Vec (k * m)) d A) (fit A d) dF.
Proof.
  intros [H0 [X0 [Y0 HH0]]].
  set (H1 := fun v : Vec (n * k + k * m) => updatexy H0 (lst v)).
  exists (fun v => match so_grad (lr_sop n k m) (H1 v) v with Ok g => g | Err _ => v end).
  assert (Hup : forall H (X : Vec (n * k)) (Y : Vec (k * m)), lr_holds H X Y d A -> forall v : Vec (n * k + k * m),
    lr_holds (updatexy H (lst v)) (vfst v : Vec (n * k)) (vsnd v : Vec (k * m)) d A).
  { intros H X Y HH v. unfold updatexy. rewrite (holds_sizex _ _ _ _ _ _ _ _ _ HH), firstn_vfst, skipn_vsnd. apply holds_updatey with (Y := Y), holds_updatex with (X := X), HH. }
  assert (Hsame : forall H (v : Vec (n * k + k * m)), lr_holds H (vfst v : Vec (n * k)) (vsnd v : Vec (k * m)) d A ->
    exists g, so_grad (lr_sop n k m) H v = Ok g /\ is_grad (fit A d) v g).
  { intros H v HH. destruct (C61_grad_updated_l H n k m p _ _ d A HH v) as [g [Eg [_ Hg]]]. exists g. split; auto.
    cbn [so_grad lr_sop]. assert (E : updatexy H (lst v) = H).
    { unfold updatexy. rewrite (holds_sizex _ _ _ _ _ _ _ _ _ HH), firstn_vfst, skipn_vsnd. destruct HH as [A1 [A2 [A3 [A4 [A5 _]]]]]. destruct H as [h1 h2 h3 h4 h5 h6 h7]. cbn [lr_x lr_y] in A4, A5. rewrite <- A4, <- A5. reflexivity. }
    rewrite <- E, Eg. cbn [bind]. apply as_vec_lst. }
  split; [|constructor].
  - intro v. destruct (Hsame (H1 v) v (Hup _ _ _ HH0 v)) as [g [-> Hg]]. exact Hg.
  - intros H x z HH. cbn [so_call lr_sop]. destruct (C61_grad_updated_l H n k m p _ _ d A HH z) as [g [_ [Ec _]]]. rewrite Ec. reflexivity.
  - intros H v HH. destruct (Hsame H v HH) as [g [E1 G1]]. destruct (Hsame (H1 v) v (Hup _ _ _ HH0 v)) as [g' [E2 G2]]. rewrite E2, E1. f_equal.
    apply (grad_unique (fit A d) v); auto.
  - intros H x z HH. cbn [so_upd lr_sop]. apply (Hup _ _ _ HH z).
Qed.

(*! C72_recursion : LowRankFactorizedMatrix as f, any sizes, data and linear operator, stored factors equal to x0, any operator g and all other
   arguments, with eta = 1 and no acceleration, or with eta <> 1 and a fixed step: ProximalGradient with the stateful object returns (or raises)
   exactly what it does with the true value and the true gradient of 1/2 |d - Op(XY)|^2 in the concatenated factors *)
Lemma C72_recursion_l : forall H n k m p (d : Vec p) (A : linop (Vec (n * m)) (Vec p)) (x0 : Vec (n * k + k * m)),
  lr_holds H (vfst x0 : Vec (n * k)) (vsnd x0 : Vec (k * m)) d A ->
  exists dF, (forall v, is_grad (fit A d) v (dF v)) /\
    forall proxg epsg tau bt beta eta niter nb accel tol,
      (eta = 1 /\ no_accel accel) \/ (eta <> 1 /\ bt = false /\ tau <> None) ->
      drop (ProximalGradientB (lr_sop n k m) H proxg x0 epsg tau bt beta eta niter nb accel tol) =
      ProximalGradient (ideal (fit A d) dF) proxg x0 epsg tau bt beta eta niter nb accel tol.
Proof.
  intros H n k m p d A x0 HH. destruct (lr_follows n k m p d A) as [dF [HG HF]]; [eauto|]. exists dF. split; auto.
  intros. eapply sim_run; eauto.
Qed.

(*! C72_descent : same object and start, backtracking, eta = 1, no acceleration, any g with a correct proximal operator and x0 in its domain, one
   epsg > 0, any first step and beta > 0, at least one trial: the run returns, and every iteration either does not increase
   1/2 |d - Op(XY)|^2 + epsg g or all its trial steps failed the test *)
Lemma C72_descent_l : forall H n k m p (d : Vec p) (A : linop (Vec (n * m)) (Vec p)) (x0 : Vec (n * k + k * m)),
  lr_holds H (vfst x0 : Vec (n * k)) (vsnd x0 : Vec (k * m)) d A ->
  exists dF, (forall v, is_grad (fit A d) v (dF v)) /\
    forall proxg g gv e tau beta niter nb accel tol, impl_prox proxg g -> 0 < e -> 0 < tau -> 0 < beta -> nb <> 0%nat -> niter <> 0%nat -> no_accel accel ->
    edom g x0 -> (tol <> None -> forall x, edom g x -> get_val proxg x = Ok (gv x)) ->
    exists xs taus kk st, ProximalGradientB (lr_sop n k m) H proxg x0 [e] (Some tau) true beta 1 niter nb accel tol = Ok (xs kk, map xs (seq 1 kk), st) /\
      xs 0%nat = x0 /\ taus 0%nat = tau /\ stops_at tol (fun j => fit A d (xs j) + e * gv (xs j)) niter kk /\
      forall j, (j < kk)%nat -> edom g (xs (S j)) /\
        (fit A d (xs (S j)) + e * eval g (xs (S j)) <= fit A d (xs j) + e * eval g (xs j) \/
         search_failed (fit A d) dF g e beta nb (taus j) (xs j)).
Proof.
  intros H n k m p d A x0 HH. destruct (C72_recursion_l H n k m p d A x0 HH) as [dF [HG HR]]. exists dF. split; auto.
  intros proxg g gv e tau beta niter nb accel tol Hp He Ht Hb Hnb Hn Ha Hd Hv.
  destruct (C41_backtracking_nonconvex_l _ (ideal (fit A d) dF) proxg (fit A d) dF g gv e x0 tau beta niter nb accel tol) as [xs [taus [kk [E1 [E2 [E3 [E4 E5]]]]]]]; auto.
  { intros v _. reflexivity. }
  rewrite <- HR in E1 by auto. unfold drop in E1.
  destruct (ProximalGradientB (lr_sop n k m) H proxg x0 [e] (Some tau) true beta 1 niter nb accel tol) as [[r st]|]; [|discriminate].
  cbn [bind fst] in E1. exists xs, taus, kk, st. split; [congruence|]. do 3 (split; auto). intros j Hj. destruct (E5 j Hj) as [A1 [_ A2]]. auto.
Qed.

(** ** one by one factors *)
Lemma vv_eq a b a' b' : a = a' -> b = b' -> vv a b = vv a' b'.
Proof. congruence. Qed.
Lemma vv_sub a b a' b' : vsub (vv a b) (vv a' b') = vv (a - a') (b - b').
Proof. apply lst_inj. unfold vsub. cbn. f_equal; [ring|f_equal; ring]. Qed.
Lemma vv_add a b a' b' : vadd (vv a b) (vv a' b') = vv (a + a') (b + b').
Proof. apply lst_inj. reflexivity. Qed.
Lemma vv_scal t a b : vscal t (vv a b) = vv (t * a) (t * b).
Proof. apply lst_inj. reflexivity. Qed.
Lemma lr11_grad a b d x y : so_grad (lr_sop 1 1 1) (lr11 a b d) (vv x y) = Ok (vv (- (d - x * b) * b) (- a * (d - a * y))).
Proof.
  cbn [so_grad lr_sop]. replace (lr_grad (lr11 a b d) (lst (vv x y))) with (Ok (lst (vv (- (d - x * b) * b) (- a * (d - a * y)))) : result (list R)).
  - cbn [bind]. apply as_vec_lst.
  - unfold lr11, lr_grad, lr_gradx, lr_grady, matvecx, matvecy, pull, reshape, matmul, tab, ent, np_sub, RS, Rsum. cbn. f_equal. f_equal; [ring|f_equal; ring].
Qed.
Lemma lr11_upd a b d x y : so_upd (lr_sop 1 1 1) (lr11 a b d) (vv x y) = lr11 x y d.
Proof. reflexivity. Qed.
Lemma lr11_holds a b d : lr_holds (lr11 a b d) (vfst (vv a b) : Vec (1 * 1)) (vsnd (vv a b) : Vec (1 * 1)) (exist _ [d] eq_refl : Vec 1) (id_linop (Vec 1)).
Proof. unfold lr_holds, op_spec. cbn. repeat split; auto. Qed.

Lemma step_eq (x1 y1 tau gx gy : R) : vsub (vv x1 y1) (vscal tau (vv gx gy)) = vv (x1 - tau * gx) (y1 - tau * gy).
Proof. rewrite vv_scal, vv_sub. reflexivity. Qed.
Lemma ext_eq (p q om x y : R) : vadd (vv p q) (vscal om (vsub (vv p q) (vv x y))) = vv (p + om * (p - x)) (q + om * (q - y)).
Proof. rewrite vv_sub, vv_scal, vv_add. reflexivity. Qed.
Section Run11.
Variables (proxg : Op (Vec (1 * 1 + 1 * 1))) (beta : R) (nb : nat).
Hypothesis Hid : forall v s, o_prox proxg v s = Ok v.
Lemma lr11_body l e i a b d x y t x1 y1 pf tr tau : nth_error l i = Some e ->
  pgb_body (lr_sop 1 1 1) proxg l false beta 1 nb (Some "vandenberghe"%string) None i (PG (vv x y) (vv x1 y1) t tau pf tr, lr11 a b d) =
  let p := x1 - tau * (- (d - x1 * b) * b) in let q := y1 - tau * (- a * (d - a * y1)) in let om := INR i / (INR i + 3) in
  Ok ((PG (vv p q) (vv (p + om * (p - x)) (q + om * (q - y))) t tau pf (tr ++ [vv p q]), lr11 p q d), false).
Proof.
  intro Hl. cbv zeta. unfold pgb_body, getitem. rewrite Hl. cbn [bind fst snd pg_x pg_y pg_t pg_tau pg_pfg pg_tr].
  unfold pg_prox_step, get_grad. destruct (Reqb_spec 1 1) as [[_ ->]|[? _]]; [|lra]. cbn [o_grad frozen].
  rewrite lr11_grad. cbn [bind]. rewrite Hid. cbn [bind fst snd]. rewrite step_eq, lr11_upd.
  change (accel_is (Some "vandenberghe"%string) "fista") with false. change (accel_is (Some "vandenberghe"%string) "vandenberghe") with true. cbn match.
  rewrite ext_eq. reflexivity.
Qed.
Lemma ideal11_body l e i d F dF x y t x1 y1 pf tr tau : (forall x y, dF (vv x y) = vv (- (d - x * y) * y) (- x * (d - x * y))) -> nth_error l i = Some e ->
  pg_body (ideal F dF) proxg l false beta 1 nb (Some "vandenberghe"%string) None i (PG (vv x y) (vv x1 y1) t tau pf tr) =
  let p := x1 - tau * (- (d - x1 * y1) * y1) in let q := y1 - tau * (- x1 * (d - x1 * y1)) in let om := INR i / (INR i + 3) in
  Ok (PG (vv p q) (vv (p + om * (p - x)) (q + om * (q - y))) t tau pf (tr ++ [vv p q]), false).
Proof.
  intros Hd Hl. cbv zeta. unfold pg_body, getitem. rewrite Hl. cbn [bind fst snd pg_x pg_y pg_t pg_tau pg_pfg pg_tr].
  unfold pg_prox_step, get_grad. destruct (Reqb_spec 1 1) as [[_ ->]|[? _]]; [|lra]. cbn [o_grad ideal bind].
  rewrite Hd, Hid. cbn [bind fst snd]. rewrite step_eq.
  change (accel_is (Some "vandenberghe"%string) "fista") with false. change (accel_is (Some "vandenberghe"%string) "vandenberghe") with true. cbn match.
  rewrite ext_eq. reflexivity.
Qed.
End Run11.

Lemma grad11 d dF : (forall v, is_grad (fit (n:=1) (k:=1) (m:=1) (id_linop (Vec 1)) (exist _ [d] eq_refl : Vec 1)) v (dF v)) ->
  forall x y, dF (vv x y) = vv (- (d - x * y) * y) (- x * (d - x * y)).
Proof.
  intros H x y. destruct (lr_follows 1 1 1 1 (exist _ [d] eq_refl : Vec 1) (id_linop (Vec 1))) as [dF' [HG HF]].
  { do 3 eexists. apply (lr11_holds x y d). }
  pose proof (fo_grad _ _ _ _ HF (lr11 x y d) (vv x y) (lr11_holds x y d)) as E. rewrite lr11_grad in E. assert (E' : dF' (vv x y) = vv (- (d - x * y) * y) (- x * (d - x * y))) by congruence. rewrite <- E'.
  eapply grad_unique; eauto.
Qed.

(*! C72_acceleration_refuted : with acceleration the run is not the documented one: it evaluates the gradient at the extrapolated point with the
   factors of the last iterate.  For f = 1/2 (x y)^2, g = 0, start (1, 1) stored in the object, step 1/2 and three 'vandenberghe' iterations it
   returns x = y = 27/64 - 1/2 (27/64) (7/16)^2, whereas with the true gradient of f it returns 27/64 - 1/2 (27/64)^3 *)
Lemma C72_acceleration_refuted_l : forall (proxg : Op (Vec (1 * 1 + 1 * 1))) beta nb dF, (forall v s, o_prox proxg v s = Ok v) ->
  (forall v, is_grad (fit (n:=1) (k:=1) (m:=1) (id_linop (Vec 1)) (exist _ [0] eq_refl : Vec 1)) v (dF v)) ->
  let c := 27 / 64 - 1 / 2 * (27 / 64 * (7 / 16 * (7 / 16))) in let c' := 27 / 64 - 1 / 2 * (27 / 64 * (27 / 64 * (27 / 64))) in
  drop (ProximalGradientB (lr_sop 1 1 1) (lr11 1 1 0) proxg (vv 1 1) [1] (Some (1 / 2)) false beta 1 3 nb (Some "vandenberghe"%string) None) =
    Ok (vv c c, [vv (1 / 2) (1 / 2); vv (7 / 16) (7 / 16); vv c c]) /\
  ProximalGradient (ideal (fit (n:=1) (k:=1) (m:=1) (id_linop (Vec 1)) (exist _ [0] eq_refl : Vec 1)) dF) proxg (vv 1 1) [1] (Some (1 / 2)) false beta 1 3 nb (Some "vandenberghe"%string) None =
    Ok (vv c' c', [vv (1 / 2) (1 / 2); vv (7 / 16) (7 / 16); vv c' c']) /\ c <> c'.
Proof.
  intros proxg beta nb dF Hid HG c c'. pose proof (grad11 0 dF HG) as Hd.
  assert (Hn : forall i, (i < 3)%nat -> nth_error (repeat 1 3) i = Some 1) by (intros; apply nth_error_repeat; auto).
  assert (P1 : forall a b, a = b -> vv a a = vv b b) by congruence.
  assert (I1 : INR 1 = 1) by reflexivity. assert (I2 : INR 2 = 2) by reflexivity.
  split; [|split].
  - unfold drop, ProximalGradientB. cbn [pg_epsg bind accel_known]. change (String.eqb _ _ || _ || _)%bool with true. cbn match.
    cbn [for_loop]. rewrite (lr11_body proxg beta nb Hid (repeat 1 3) 1 0) by (apply Hn; lia). cbn [bind fst snd].
    rewrite (lr11_body proxg beta nb Hid (repeat 1 3) 1 1) by (apply Hn; lia). cbn [bind fst snd].
    rewrite (lr11_body proxg beta nb Hid (repeat 1 3) 1 2) by (apply Hn; lia). cbn [bind fst snd pg_x pg_tr app]. rewrite ?I1, ?I2. cbn [INR].
    unfold c. f_equal. f_equal; [apply vv_eq; field|]. f_equal; [apply vv_eq; field|]. f_equal; [apply vv_eq; field|]. f_equal; apply vv_eq; field.
  - unfold ProximalGradient. cbn [pg_epsg bind accel_known]. change (String.eqb _ _ || _ || _)%bool with true. cbn match.
    cbn [for_loop]. rewrite (ideal11_body proxg beta nb Hid (repeat 1 3) 1 0 0) by (first [exact Hd|apply Hn; lia]). cbn [bind fst snd].
    rewrite (ideal11_body proxg beta nb Hid (repeat 1 3) 1 1 0) by (first [exact Hd|apply Hn; lia]). cbn [bind fst snd].
    rewrite (ideal11_body proxg beta nb Hid (repeat 1 3) 1 2 0) by (first [exact Hd|apply Hn; lia]). cbn [bind fst snd pg_x pg_tr app]. rewrite ?I1, ?I2. cbn [INR].
    unfold c'. f_equal. f_equal; [apply vv_eq; field|]. f_equal; [apply vv_eq; field|]. f_equal; [apply vv_eq; field|]. f_equal; apply vv_eq; field.
  - unfold c, c'. lra.
Qed.

(*! C72_start_refuted : if the factors stored in the object are not the starting point, the first step uses a wrong gradient: for f = 1/2 (1 - x y)^2,
   g = 0, start (1, 1) - a global minimiser, where the true gradient vanishes - and stored factors (2, 2), one step of size 1/4 leads to
   (1/2, 1/2), where f = 9/32 *)
Lemma C72_start_refuted_l : forall (proxg : Op (Vec (1 * 1 + 1 * 1))) beta nb, (forall v s, o_prox proxg v s = Ok v) ->
  let F := fit (n:=1) (k:=1) (m:=1) (id_linop (Vec 1)) (exist _ [1] eq_refl : Vec 1) in
  is_grad F (vv 1 1) (vv 0 0) /\ F (vv 1 1) = 0 /\
  drop (ProximalGradientB (lr_sop 1 1 1) (lr11 2 2 1) proxg (vv 1 1) [1] (Some (1 / 4)) false beta 1 1 nb (Some "vandenberghe"%string) None) =
    Ok (vv (1 / 2) (1 / 2), [vv (1 / 2) (1 / 2)]) /\ F (vv (1 / 2) (1 / 2)) = 9 / 32.
Proof.
  intros proxg beta nb Hid F.
  assert (HF : forall x y, F (vv x y) = (1 - x * y) * (1 - x * y) / 2).
  { intros x y. unfold F, fit, lr_fun. unfold norm2. rewrite vec_inner. unfold RS, Rsum, mm, get, lst, vtab, id_linop. cbn. field. }
  split; [|split; [|split]].
  - destruct (lr_follows 1 1 1 1 (exist _ [1] eq_refl : Vec 1) (id_linop (Vec 1))) as [dF [HG _]]; [do 3 eexists; apply (lr11_holds 1 1 1)|].
    specialize (HG (vv 1 1)). pose proof (grad11 1 dF) as Hd. destruct (lr_follows 1 1 1 1 (exist _ [1] eq_refl : Vec 1) (id_linop (Vec 1))) as [dF' [HG' _]]; [do 3 eexists; apply (lr11_holds 1 1 1)|].
    pose proof (grad11 1 dF' HG' 1 1) as E. replace (vv 0 0) with (dF' (vv 1 1)); [apply HG'|]. rewrite E. apply vv_eq; ring.
  - rewrite HF. field.
  - unfold drop, ProximalGradientB. cbn [pg_epsg bind accel_known]. change (String.eqb _ _ || _ || _)%bool with true. cbn match.
    cbn [for_loop]. rewrite (lr11_body proxg beta nb Hid (repeat 1 1) 1 0) by reflexivity. cbn [bind fst snd pg_x pg_tr app].
    f_equal. f_equal; [apply vv_eq; field|]. f_equal; apply vv_eq; field.
  - rewrite HF. field.
Qed.

(** g = 0 *)
Definition zero_op : Op (Vec (1 * 1 + 1 * 1)) := mkOp (fun _ => Ok (VNum 0)) (fun x _ => Ok x) (fun x _ => Ok x) (fun _ => Ok None) false.
(*!ex C72_example : the hypotheses hold for the one by one factorisation and for the 2 x 1 by 1 x 3 one with a linear operator; g = 0 has a correct proximal operator *)
Lemma C72_example_l : impl_prox zero_op (etot (fun _ => 0)) /\ (forall v s, o_prox zero_op v s = Ok v) /\
  lr_holds (lr11 1 1 0) (vfst (vv 1 1) : Vec (1 * 1)) (vsnd (vv 1 1) : Vec (1 * 1)) (exist _ [0] eq_refl : Vec 1) (id_linop (Vec 1)) /\
  lr_holds (ex_lr (Some ex_op)) (vfst (vcat v2 v3) : Vec (2 * 1)) (vsnd (vcat v2 v3) : Vec (1 * 3)) v6 (scal_linop (Vec (2 * 3)) 2).
Proof.
  split; [|split; [|split]].
  - intros x t Ht. exists x. split; [reflexivity|]. split; [exact I|]. intros y _. cbn [eval etot].
    assert (0 <= / (2 * t)) by (left; apply Rinv_0_lt_compat; lra). replace (norm2 (x [-] x)) with 0 by (unfold norm2; iexp; ring).
    pose proof (norm2_nonneg (y [-] x)). nra.
  - reflexivity.
  - apply lr11_holds.
  - rewrite vfst_cat, vsnd_cat. apply C61_example_l.
Qed.
