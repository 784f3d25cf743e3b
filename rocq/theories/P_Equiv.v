(** * Equivalent formulations and special cases of the solvers (M_PG.v, M_Split.v, M_PD.v, M_Multi.v, M_PALM.v, M_Anderson.v) *)
From Coq Require Import String Psatz.
From Verif Require Import Base Space Spec ConvexFacts Smooth VSum M_ProxOp SpecOps P_ProxOp M_Norms P_Norms M_Loop LoopFacts SeqFacts M_PG M_Split M_PD M_Multi M_PALM M_Anderson P_PG P_PG2 P_PG3 P_Iter P_Split2 P_PD2 S_Lasso S_PD2 S_Split2 P_Resume.
From Verif Require Export S_Equiv.
Open Scope result_scope.
Open Scope R_scope.

Lemma sim {S T} (b1 : nat -> S -> result (S * bool)) (b2 : nat -> T -> result (T * bool)) (Q : S -> T -> Prop) n s t :
  (forall j s t, (j < n)%nat -> Q s t -> agree Q (b1 j s) (b2 j t)) -> Q s t ->
  match for_loop b1 n 0 s, for_loop b2 n 0 t with Ok (s, _), Ok (t, _) => Q s t | Err e, Err e' => e = e' | _, _ => False end.
Proof. intros H HQ. exact (loop_sim b1 b2 Q 0 n H n 0%nat s t ltac:(lia) HQ). Qed.
(** the second loop never breaks: it follows the first one until the first one breaks *)
Definition follows {S T} (Q : S -> T -> Prop) (r : result (S * bool)) (r' : result (T * bool)) : Prop :=
  match r, r' with Ok (s, _), Ok (t, c') => c' = false /\ Q s t | Err e, Err e' => e = e' | _, _ => False end.
Lemma sim_stop {S T} (b1 : nat -> S -> result (S * bool)) (b2 : nat -> T -> result (T * bool)) (Q : S -> T -> Prop) :
  (forall j s t s' c, Q s t -> b1 j s = Ok (s', c) -> exists t', b2 j t = Ok (t', false) /\ Q s' t') ->
  forall n i s t s' i', Q s t -> for_loop b1 n i s = Ok (s', i') -> exists k t', (k <= n)%nat /\ for_loop b2 k i t = Ok (t', i') /\ Q s' t' /\ i' = (i + k)%nat.
Proof.
  intro Hb. induction n as [|n IH]; intros i s t s' i' HQ H.
  - inversion H; subst. exists 0%nat, t. repeat split; auto; lia.
  - cbn [for_loop] in H. destruct (b1 i s) as [[s1 c]|] eqn:E1; cbn [bind fst snd] in H; [|discriminate].
    destruct (Hb _ _ _ _ _ HQ E1) as (t1 & E2 & HQ1). destruct c.
    + inversion H; subst. exists 1%nat, t1. cbn [for_loop]. rewrite E2. cbn [bind fst snd]. repeat split; auto; lia.
    + destruct (IH _ _ _ _ _ HQ1 H) as (k & t' & Hk & E & HQ' & Hi). exists (Datatypes.S k), t'. cbn [for_loop]. rewrite E2. cbn [bind fst snd]. repeat split; auto; lia.
Qed.
Ltac stp v := rewrite ?bind_assoc; match goal with |- agree _ (bind ?r _) (bind ?r _) => let e := fresh in destruct r as [v|e]; cbn [bind fst snd]; [|reflexivity] end.
Ltac fin G := match type of G with match ?a with _ => _ end => destruct a as [[? ?]|?] end; match type of G with match ?a with _ => _ end => destruct a as [[? ?]|?] end; try contradiction; cbn [bind fst snd]; [|congruence].
Lemma agree_ok {S T B} (Q : S -> T -> Prop) s t (c : B) : Q s t -> agree Q (Ok (s, c)) (Ok (t, c)).
Proof. intro H. split; [reflexivity|exact H]. Qed.

(** ** order of the operators *)
(*! C87_order : gfirst=True is gfirst=False with the two operators (and the two returned vectors) exchanged: for DouglasRachfordSplitting, HQS and ADMM, for
   arbitrary operators (also ones that raise), starts and steps *)
Lemma C87_order_l : forall (E : IPS) (f g : Op E) (n : nat),
  (forall x0 tau eta, DouglasRachford f g x0 tau eta n true = DouglasRachford g f x0 tau eta n false) /\
  (forall x0 z0 taus, HQS f g x0 taus n z0 true = (r <- HQS g f z0 taus n x0 false ;; Ok (snd (fst r), fst (fst r), map (fun p => (snd p, fst p)) (snd r)))) /\
  (forall x0 z0 tau, ADMM f g x0 tau n z0 true = (r <- ADMM g f z0 tau n x0 false ;; Ok (snd (fst r), fst (fst r), map (fun p => (snd p, fst p)) (snd r)))).
Proof.
  intros E f g n. split; [|split].
  - intros. reflexivity.
  - intros x0 z0 taus. unfold HQS. assert (Hi : x0z0_init x0 z0 = (p <- x0z0_init z0 x0 ;; Ok (snd p, fst p))) by (destruct x0, z0; reflexivity). rewrite Hi. clear Hi.
    destruct (x0z0_init z0 x0) as [[a b]|]; cbn [bind fst snd]; [|reflexivity].
    pose proof (sim (hqs_body f g (hqs_taus taus n) true) (hqs_body g f (hqs_taus taus n) false)
      (fun s t => h_x s = h_z t /\ h_z s = h_x t /\ h_tr s = map (fun p => (snd p, fst p)) (h_tr t)) n (HQ b a []) (HQ a b [])) as G.
    assert (Hb : forall j s t, (j < n)%nat -> (h_x s = h_z t /\ h_z s = h_x t /\ h_tr s = map (fun p => (snd p, fst p)) (h_tr t)) ->
      agree (fun s t => h_x s = h_z t /\ h_z s = h_x t /\ h_tr s = map (fun p => (snd p, fst p)) (h_tr t)) (hqs_body f g (hqs_taus taus n) true j s) (hqs_body g f (hqs_taus taus n) false j t)).
    { intros j s t _ (H1 & H2 & H3). unfold hqs_body. rewrite H1. repeat stepb. apply agree_ok. cbn [h_x h_z h_tr]. rewrite H3, map_app. auto. }
    specialize (G Hb ltac:(cbn; auto)). destruct (for_loop _ n 0 _) as [[s' ?]|]; destruct (for_loop _ n 0 _) as [[t' ?]|]; try contradiction; cbn [bind fst snd]; [|congruence].
    destruct G as (-> & -> & ->). reflexivity.
  - intros x0 z0 tau. unfold ADMM. assert (Hi : x0z0_init x0 z0 = (p <- x0z0_init z0 x0 ;; Ok (snd p, fst p))) by (destruct x0, z0; reflexivity). rewrite Hi. clear Hi.
    destruct (x0z0_init z0 x0) as [[a b]|]; cbn [bind fst snd]; [|reflexivity].
    set (Q := fun s t : admm_state E => a_x s = a_z t /\ a_z s = a_x t /\ a_u s = vopp (a_u t) /\ a_tr s = map (fun p => (snd p, fst p)) (a_tr t)).
    pose proof (sim (admm_body f g tau true) (admm_body g f tau false) Q n (AD b a vzero []) (AD a b vzero [])) as G.
    assert (Hb : forall j s t, (j < n)%nat -> Q s t -> agree Q (admm_body f g tau true j s) (admm_body g f tau false j t)).
    { intros j s t _ (H1 & H2 & H3 & H4). unfold admm_body. rewrite H1, H3. replace (a_z t [+] vopp (a_u t)) with (a_z t [-] a_u t) by vring. stp v. replace (v [-] vopp (a_u t)) with (v [+] a_u t) by vring. stp w. apply agree_ok. unfold Q. cbn [a_x a_z a_tr a_u]. rewrite H4, map_app. repeat split. vring. }
    specialize (G Hb ltac:(unfold Q; cbn [a_x a_z a_tr a_u]; repeat split; vring)). destruct (for_loop _ n 0 _) as [[s' ?]|]; destruct (for_loop _ n 0 _) as [[t' ?]|]; try contradiction; cbn [bind fst snd]; [|congruence].
    destruct G as (-> & -> & _ & ->). reflexivity.
Qed.

(** ** the identity as operator *)
(*! C87_linearized_admm : LinearizedADMM with the identity and mu = tau is ADMM with gfirst=False (z0 not given, or equal to x0): same vectors, callbacks and
   exceptions *)
Lemma C87_linearized_admm_l : forall (E : IPS) (f g : Op E) x0 z0 tau n, tau <> 0 -> z0 = None \/ z0 = Some x0 ->
  LinearizedADMM f g (id_linop E) (Some x0) tau tau n z0 = (r <- ADMM f g (Some x0) tau n z0 false ;; Ok (fst (fst r), snd (fst r), map fst (snd r))).
Proof.
  intros E f g x0 z0 tau n Ht Hz.
  assert (G : LinearizedADMM f g (id_linop E) (Some x0) tau tau n None = (r <- ADMM f g (Some x0) tau n None false ;; Ok (fst (fst r), snd (fst r), map fst (snd r)))).
  { unfold LinearizedADMM, ADMM. cbn [x0z0_init x0z0_initA bind fst snd].
    set (Q := fun (s : la_state E E) (t : admm_state E) => la_x s [-] la_Ax s = vzero /\ la_z s = a_z t /\ la_u s = a_u t /\ la_tr s = map fst (a_tr t) /\ la_x s = a_x t).
    pose proof (sim (la_body f g (id_linop E) tau tau) (admm_body f g tau false) Q n (LA x0 x0 x0 vzero []) (AD x0 x0 vzero [])) as G.
    assert (Hb : forall j s t, (j < n)%nat -> Q s t -> agree Q (la_body f g (id_linop E) tau tau j s) (admm_body f g tau false j t)).
    { intros j s t _ (H1 & H2 & H3 & H4 & H5). unfold la_body, admm_body, pydiv. destruct (Reqb_spec tau 0) as [[? _]|[_ ->]]; [lra|]. cbn [bind].
      change (ladj (id_linop E)) with (fun v : E => v). change (lapp (id_linop E)) with (fun v : E => v). cbv beta.
      replace (la_x s [-] (tau / tau) [*] (la_Ax s [-] la_z s [+] la_u s)) with ((la_x s [-] la_Ax s) [+] (la_z s [-] la_u s)) by (replace (tau / tau) with 1 by (field; exact Ht); vring).
      rewrite H1, H2, H3. replace (vzero [+] (a_z t [-] a_u t)) with (a_z t [-] a_u t) by vring.
      stp v. stp w. apply agree_ok. unfold Q. cbn [a_x a_z a_tr a_u la_x la_Ax la_z la_u la_tr]. rewrite H4, map_app. repeat split. vring. }
    specialize (G Hb ltac:(unfold Q; cbn [a_x a_z a_tr a_u la_x la_Ax la_z la_u la_tr]; repeat split; vring)). change (lapp (id_linop E) x0) with x0.
    destruct (for_loop _ n 0 _) as [[s' ?]|]; destruct (for_loop _ n 0 _) as [[t' ?]|]; try contradiction; cbn [bind fst snd]; [|congruence].
    destruct G as (_ & -> & _ & -> & ->). reflexivity. }
  destruct Hz as [-> | ->]; exact G.
Qed.

(*! C87_admml2 : ADMML2 (gfirst=False) with the identity as A is ADMM on f and g, for every operator f whose proximal operator at tau is the regularised inversion that ADMML2
   makes (whatever its start), with or without z0 *)
Lemma C87_admml2_l : forall (E : IPS) (f g : Op E) reginv x0 z0 tau n, 0 < tau -> (forall x v, reginv x v (1 / sqrt tau) = o_prox f v tau) ->
  ADMML2 g (id_linop E) reginv (Some x0) tau n z0 false = (r <- ADMM f g (Some x0) tau n z0 false ;; Ok (fst (fst r), snd (fst r), map fst (snd r))).
Proof.
  intros E f g reginv x0 z0 tau n Ht Hr. unfold ADMML2, ADMM.
  destruct (Rltb_spec tau 0) as [[? _]|[_ ->]]; [lra|]. destruct (Reqb_spec tau 0) as [[? _]|[_ ->]]; [lra|].
  assert (Hi : x0z0_initA (lapp (id_linop E)) (Some x0) z0 = x0z0_init (Some x0) z0) by (destruct z0; reflexivity). rewrite Hi. destruct (x0z0_init (Some x0) z0) as [[a b]|]; cbn [bind fst snd]; [|reflexivity].
  set (Q := fun (s : la_state E E) (t : admm_state E) => la_z s = a_z t /\ la_u s = a_u t /\ la_tr s = map fst (a_tr t) /\ la_x s = a_x t).
  pose proof (sim (al2_body g (id_linop E) reginv tau false) (admm_body f g tau false) Q n (LA a vzero b vzero []) (AD a b vzero [])) as G.
  assert (Hb : forall j s t, (j < n)%nat -> Q s t -> agree Q (al2_body g (id_linop E) reginv tau false j s) (admm_body f g tau false j t)).
  { intros j s t _ (H1 & H2 & H3 & H4). unfold al2_body, admm_body. change (lapp (id_linop E)) with (fun v : E => v). cbv beta. rewrite H1, H2, H4, Hr. stp v. stp w.
    apply agree_ok. unfold Q. cbn [a_x a_z a_tr a_u la_x la_Ax la_z la_u la_tr]. rewrite H3, map_app. repeat split. }
  specialize (G Hb ltac:(unfold Q; cbn [a_x a_z a_tr a_u la_x la_Ax la_z la_u la_tr]; repeat split)). fin G.
  destruct G as (-> & _ & -> & ->). reflexivity.
Qed.

(** ** PrimalDual *)
(*! C87_moreau_dual : every class that defines only prox has the dual proximal operator required by C87_primal_dual *)
Lemma C87_moreau_dual_l : forall (E : IPS) (b : Body E) m fuel tau, b_prox b = Some m -> b_proxdual b = None -> 0 < tau -> moreau_dual (obj (S (S fuel)) b) tau.
Proof.
  intros E b m fuel tau Hp Hd Ht w. cbn [obj o_proxdual o_prox]. cbn [d_proxdual d_prox]. rewrite Hp, Hd. unfold check_tau.
  assert (0 < / tau) by (apply Rinv_0_lt_compat; lra). destruct (Rleb_spec (1 / tau) 0) as [[? _]|[_ ->]]; [unfold Rdiv in *; lra|].
  replace (1 / (1 / tau)) with tau by (field; lra). replace (/ (1 / tau)) with tau by (field; lra). destruct (Rleb_spec tau 0) as [[? _]|[_ ->]]; [lra|]. reflexivity.
Qed.

(*! C87_primal_dual_dr : PrimalDual with the identity, theta = 1 and mu = 1/tau is DouglasRachfordSplitting with eta = 1 started at x0 - tau y0 (gfirst=False in
   both), which returns x - tau y in place of y; for arbitrary operators, g's dual proximal operator following Moreau's identity *)
Lemma C87_primal_dual_dr_l : forall (E : IPS) (f g : Op E) x0 y0 tau n, tau <> 0 -> moreau_dual g tau -> (1 <= n)%nat ->
  DouglasRachford f g (x0 [-] tau [*] y0) tau 1 n false =
    (r <- PrimalDual f g (id_linop E) None x0 (Scalar tau) (Scalar (1 / tau)) (Some y0) None 1 n false ;;
     Ok (fst (fst r), fst (fst r) [-] tau [*] snd (fst r), map (fun p => (fst p, fst p [-] tau [*] snd p)) (snd r))).
Proof.
  intros E f g x0 y0 tau n Ht Hg Hn. unfold DouglasRachford, PrimalDual. cbn [steps_arr].
  set (Q := fun (s : dr_state E) (t : @pd_state E E) => d_y s = pd_x t [-] tau [*] pd_y t /\ d_tr s = map (fun p => (fst p, fst p [-] tau [*] snd p)) (pd_tr t) /\ (d_x s = Some (pd_x t) \/ d_tr s = [])).
  pose proof (sim (dr_body f g tau 1 false) (pd_body f g (id_linop E) None None 1 false (repeat tau n) (repeat (1 / tau) n)) Q n (DR None (x0 [-] tau [*] y0) []) (PD x0 y0 x0 [])) as G.
  assert (Hb : forall j s t, (j < n)%nat -> Q s t -> agree Q (dr_body f g tau 1 false j s) (pd_body f g (id_linop E) None None 1 false (repeat tau n) (repeat (1 / tau) n) j t)).
  { intros j s t Hj (H1 & H2 & H3). unfold dr_body, pd_body, rmatvec_plus, getitem. change (lapp (id_linop E)) with (fun v : E => v). change (ladj (id_linop E)) with (fun v : E => v). cbv beta.
    rewrite (nth_error_repeat tau Hj), (nth_error_repeat (1 / tau) Hj). cbn [bind]. rewrite H1. stp x. rewrite Hg.
    replace (tau [*] (pd_y t [+] (1 / tau) [*] (x [+] 1 [*] (x [-] pd_x t)))) with (2 [*] x [-] (pd_x t [-] tau [*] pd_y t)) by (vext w; field; exact Ht).
    stp p. apply agree_ok. unfold Q. cbn [d_x d_y d_tr pd_x pd_y pd_tr]. rewrite H2, map_app. cbn [map fst snd].
    assert (Hy : pd_x t [-] tau [*] pd_y t [+] 1 [*] (p [-] x) = x [-] tau [*] (pd_y t [+] (1 / tau) [*] (x [+] 1 [*] (x [-] pd_x t)) [-] (1 / tau) [*] p)) by (vext w; field; exact Ht).
    rewrite Hy. repeat split. left; reflexivity. }
  specialize (G Hb ltac:(unfold Q; cbn [d_x d_y d_tr pd_x pd_y pd_tr]; repeat split; auto)).
  destruct (for_loop (dr_body f g tau 1 false) n 0 _) as [[s' i']|] eqn:E1; destruct (for_loop _ n 0 (PD x0 y0 x0 [])) as [[t' ?]|]; try contradiction; cbn [bind fst snd]; [|congruence].
  assert (Hne : d_tr s' <> []).
  { assert (Hm : for_loop (dr_body f g tau 1 false) n 0 (DR None (x0 [-] tau [*] y0) []) = Ok (s', i')) by exact E1. destruct n as [|n]; [lia|]. cbn [for_loop] in Hm. clear -Hm.
    destruct (dr_body f g tau 1 false 0 _) as [[s1 c]|] eqn:Ed; cbn [bind fst snd] in Hm; [|discriminate].
    assert (Hd : forall j s s' c, dr_body f g tau 1 false j s = Ok (s', c) -> d_tr s' <> []) by (intros j s s2 c2 H; unfold dr_body in H; nobreak H; inversion H; cbn [d_tr]; intro Z; apply app_eq_nil in Z; destruct Z; discriminate).
    destruct c; [inversion Hm; subst; eapply Hd; eauto|].
    destruct (for_loop_inv (dr_body f g tau 1 false) (fun _ s => d_tr s <> []) n 1 s1 s' i') as [? _]; auto; [intros j s s2 c2 _ H; exact (Hd _ _ _ _ H)|exact (Hd _ _ _ _ Ed)]. }
  destruct G as (H1 & H2 & [H3|H3]); [|contradiction]. rewrite H3, H1, H2. reflexivity.
Qed.
Lemma sim_ok {S T} (b1 : nat -> S -> result (S * bool)) (b2 : nat -> T -> result (T * bool)) (Q : S -> T -> Prop) N :
  (forall j s t s' c, (j < N)%nat -> Q s t -> b1 j s = Ok (s', c) -> exists t', b2 j t = Ok (t', c) /\ Q s' t') ->
  forall n i s t s' i', (i + n <= N)%nat -> Q s t -> for_loop b1 n i s = Ok (s', i') -> exists t', for_loop b2 n i t = Ok (t', i') /\ Q s' t'.
Proof.
  intro Hb. induction n as [|n IH]; intros i s t s' i' Hi HQ H.
  - inversion H; subst. exists t. split; auto.
  - cbn [for_loop] in *. destruct (b1 i s) as [[s1 c]|] eqn:E1; cbn [bind fst snd] in H; [|discriminate].
    assert (Hi1 : (i < N)%nat) by lia. destruct (Hb _ _ _ _ _ Hi1 HQ E1) as (t1 & E2 & HQ1). rewrite E2. cbn [bind fst snd]. destruct c; [inversion H; subst; eauto|]. assert (Hi2 : (Datatypes.S i + n <= N)%nat) by lia. apply (IH _ _ _ _ _ Hi2 HQ1 H).
Qed.

(*! C87_primal_dual_order : PrimalDual with gfirst=True started at (x0, y0) makes the primal iterates of gfirst=False started at (x0, y1), where y1 is the first dual
   update; its dual iterates are y1 followed by those of the other run, one iteration late; for arbitrary operators, any theta and z *)
Lemma C87_primal_dual_order_l : forall (E F : IPS) (f : Op E) (g : Op F) (A : linop E F) x0 y0 z tau mu theta n y1 x y tr,
  o_proxdual g (y0 [+] mu [*] lapp A x0) mu = Ok y1 -> PrimalDual f g A None x0 (Scalar tau) (Scalar mu) (Some y1) z theta n false = Ok (x, y, tr) ->
  exists y' tr', PrimalDual f g A None x0 (Scalar tau) (Scalar mu) (Some y0) z theta n true = Ok (x, y', tr') /\ map fst tr' = map fst tr /\ map snd tr' = firstn n (y1 :: map snd tr).
Proof.
  intros E F f g A x0 y0 z tau mu theta n y1 x y tr H1 H. unfold PrimalDual in *. cbn [steps_arr] in *.
  set (Q := fun s t : @pd_state E F => pd_x s = pd_x t /\ o_proxdual g (pd_y t [+] mu [*] lapp A (pd_hat t)) mu = Ok (pd_y s) /\ map fst (pd_tr t) = map fst (pd_tr s) /\ y1 :: map snd (pd_tr s) = map snd (pd_tr t) ++ [pd_y s]).
  destruct (for_loop _ n 0 _) as [[s' i']|] eqn:El; cbn [bind fst snd] in H; [|discriminate]. inversion H; subst x y tr; clear H.
  destruct (sim_ok (pd_body f g A None z theta false (repeat tau n) (repeat mu n)) (pd_body f g A None z theta true (repeat tau n) (repeat mu n)) Q n) with (n := n) (i := 0%nat) (s := PD x0 y1 x0 (@nil (E * F))) (t := PD x0 y0 x0 (@nil (E * F))) (s' := s') (i' := i') as (t' & Et & Hx & _ & Hf & Hs); auto.
  - intros j s t s1 c Hj (Q1 & Q2 & Q3 & Q4) Hb. unfold pd_body, getitem in *. rewrite (nth_error_repeat tau Hj), (nth_error_repeat mu Hj) in *. cbn [bind] in *. rewrite Q2. cbn [bind].
    assert (Hr : forall v : F, exists a, rmatvec_plus A None z v = (a, v)) by (intro v; unfold rmatvec_plus; destruct z; eauto). destruct (Hr (pd_y s)) as [a Ha]. rewrite Ha in *. rewrite <- Q1.
    destruct (o_prox f _ tau) as [x|] eqn:Ex; cbn [bind] in *; [|discriminate]. match type of Hb with bind ?r _ = _ => destruct r as [y|] eqn:Ey end; cbn [bind] in *; [|discriminate]. injection Hb as <- <-.
    eexists. split; [reflexivity|]. unfold Q. cbn [pd_x pd_y pd_hat pd_tr]. rewrite Ey, !map_app, Q3. cbn [map fst snd]. repeat split. rewrite app_comm_cons, Q4, <- app_assoc. reflexivity.
  - unfold Q. cbn [pd_x pd_y pd_hat pd_tr]. auto.
  - exists (pd_y t'), (pd_tr t'). rewrite Et. cbn [bind fst snd]. rewrite Hx. repeat split; auto.
    assert (Hl : length (pd_tr t') = n).
    { rewrite <- (map_length fst), Hf, map_length. assert (Hn : forall j s s' c, pd_body f g A None z theta false (repeat tau n) (repeat mu n) j s = Ok (s', c) -> c = false /\ length (pd_tr s') = Datatypes.S (length (pd_tr s))).
      { intros j s s1 c Hp. unfold pd_body in Hp. destruct (rmatvec_plus A None z _). nobreak Hp. injection Hp as <- <-. split; [reflexivity|]. cbn [pd_tr]. rewrite app_length. cbn [length]. lia. }
      pose proof (for_loop_count _ n 0 _ _ _ (fun j s s' c H => proj1 (Hn j s s' c H)) El) as Hc. 
      destruct (for_loop_inv (pd_body f g A None z theta false (repeat tau n) (repeat mu n)) (fun j s => length (pd_tr s) = j) n 0 (PD x0 y1 x0 []) s' i') as [Hi _]; auto; [|lia].
      intros j s s1 c Hs1 Hj. destruct (Hn _ _ _ _ Hj) as [_ ->]. rewrite Hs1. reflexivity. }
    rewrite Hs, <- Hl, <- (map_length snd), firstn_app, Nat.sub_diag, firstn_all. cbn [firstn]. rewrite app_nil_r. reflexivity.
Qed.

(*! C87_adaptive : AdaptivePrimalDual with alpha = 0 keeps its steps and is PrimalDual with theta = 1 and gfirst=False started at y = 0, stopped after some number k of iterations,
   when A x0 = 0 (in particular from x0 = 0) *)
Lemma C87_adaptive_l : forall (E F : IPS) (f : Op E) (g : Op F) (A : linop E F) x0 tau mu eta s delta rz n tol x taus mus alphas tr, lapp A x0 = vzero ->
  AdaptivePrimalDual f g A None x0 tau mu 0 eta s delta None rz n tol = Ok (x, (taus, mus, alphas), tr) ->
  exists k y tr', (k <= n)%nat /\ PrimalDual f g A None x0 (Scalar tau) (Scalar mu) None None 1 k false = Ok (x, y, tr') /\ tr = map fst tr' /\
    taus = repeat tau (S k) /\ mus = repeat mu (S k) /\ alphas = repeat 0 (S k).
Proof.
  intros E F f g A x0 tau mu eta s delta rz n tol x taus mus alphas tr H0 H. unfold AdaptivePrimalDual in H.
  destruct (apd_while _ _ _ _ _ _ _ _ _ _ n _) as [r|] eqn:Er; cbn [bind] in H; [|discriminate]. injection H as <- <- <- <- <-.
  set (b := pd_body f g A None None 1 false (repeat tau n) (repeat mu n)).
  set (Q := fun (i : nat) (st : apd_state) (t : @pd_state E F) => ap_x st = pd_x t /\ ap_y st = pd_y t /\ ap_Ax st = lapp A (pd_x t) /\ ap_ATy st = ladj A (pd_y t) /\ ap_tau st = tau /\ ap_mu st = mu /\ ap_alpha st = 0 /\
    ap_tr st = map fst (pd_tr t) /\ ap_taus st = repeat tau (S i) /\ ap_mus st = repeat mu (S i) /\ ap_alphas st = repeat 0 (S i)).
  assert (Hrep : forall (a : R) i, repeat a (S i) ++ [a] = repeat a (S (S i))) by (intros a i; symmetry; apply (repeat_cons (S i) a)).
  assert (G : forall m i st t st', (i + m <= n)%nat -> Q i st t -> apd_while f g A None None rz eta s delta tol m st = Ok st' -> exists k t', (k <= m)%nat /\ for_loop b k i t = Ok (t', (i + k)%nat) /\ Q (i + k)%nat st' t').
  { induction m as [|m IH]; intros i st t st' Hi HQ Hw; cbn [apd_while] in Hw.
    - injection Hw as <-. exists 0%nat, t. rewrite Nat.add_0_r. repeat split; auto; apply HQ.
    - destruct (_ && _)%bool; [|injection Hw as <-; exists 0%nat, t; rewrite Nat.add_0_r; repeat split; auto; try lia; apply HQ].
      destruct (apd_body _ _ _ _ _ _ _ _ _ st) as [st1|] eqn:Eb; cbn [bind] in Hw; [|discriminate].
      assert (Hs : exists t1, b i t = Ok (t1, false) /\ Q (S i) st1 t1).
      { destruct HQ as (Q1 & Q2 & Q3 & Q4 & Q5 & Q6 & Q7 & Q8 & Q9 & Q10 & Q11). unfold apd_body in Eb. rewrite Q1, Q2, Q3, Q4, Q5, Q6, Q7 in Eb.
        unfold b, pd_body, rmatvec_plus, getitem. rewrite (nth_error_repeat tau (ltac:(lia) : (i < n)%nat)), (nth_error_repeat mu (ltac:(lia) : (i < n)%nat)). cbn [bind].
        destruct (o_prox f _ tau) as [x|]; cbn [bind] in *; [|discriminate].
        replace (lapp A (x [+] 1 [*] (x [-] pd_x t))) with (2 [*] lapp A x [-] lapp A (pd_x t)) by (rewrite lapp_add, lapp_scal, lapp_sub; vring).
        destruct (o_proxdual g _ mu) as [y|]; cbn [bind] in *; [|discriminate].
        eexists. split; [reflexivity|]. unfold pydiv, apd_p in Eb. 
        destruct (Reqb tau 0); cbn [bind] in Eb; [discriminate|]. destruct (Reqb mu 0); cbn [bind] in Eb; [discriminate|]. destruct (Reqb_spec (1 - 0) 0) as [[? _]|[_ Hr]]; [lra|]. rewrite Hr in Eb.
        assert (Hfin : exists p d, st1 = APD x y (lapp A x) (ladj A y) tau mu 0 p d (ap_taus st ++ [tau]) (ap_mus st ++ [mu]) (ap_alphas st ++ [0]) (ap_tr st ++ [x])).
        { assert (T1 : tau / (1 - 0) = tau) by field. assert (T2 : mu / (1 - 0) = mu) by field. assert (T3 : mu * (1 - 0) = mu) by ring. assert (T4 : tau * (1 - 0) = tau) by ring. assert (T5 : 0 * eta = 0) by ring. rewrite T1, T2, T3, T4, T5 in Eb.
          destruct (Rltb _ _); cbn [bind] in Eb; [injection Eb as <-; eauto|]. destruct (Reqb delta 0); cbn [bind] in Eb; [discriminate|]. destruct (Rltb _ _); cbn [bind] in Eb; injection Eb as <-; eauto. }
        destruct Hfin as (p & d & ->). unfold Q. cbn [ap_x ap_y ap_Ax ap_ATy ap_tau ap_mu ap_alpha ap_tr ap_taus ap_mus ap_alphas pd_x pd_y pd_tr]. rewrite Q8, Q9, Q10, Q11, map_app, !Hrep. repeat split. }
      destruct Hs as (t1 & E1 & HQ1). destruct (IH (S i) st1 t1 st' ltac:(lia) HQ1 Hw) as (k & t' & Hk & Ek & HQ'). exists (S k), t'. cbn [for_loop]. rewrite E1. cbn [bind fst snd].
      replace (i + S k)%nat with (S i + k)%nat by lia. repeat split; auto; try lia; apply HQ'. }
  match type of Er with apd_while _ _ _ _ _ _ _ _ _ _ _ ?st = _ => assert (HQ0 : Q 0%nat st (PD x0 vzero x0 [])) end.
  { unfold Q. cbn [ap_x ap_y ap_Ax ap_ATy ap_tau ap_mu ap_alpha ap_tr ap_taus ap_mus ap_alphas pd_x pd_y pd_tr]. rewrite H0, ladj_zero. repeat split. }
  destruct (G n 0%nat _ _ _ (le_n n) HQ0 Er) as (k & t' & Hk & Ek & HQ).
  destruct HQ as (Q1 & Q2 & Q3 & Q4 & Q5 & Q6 & Q7 & Q8 & Q9 & Q10 & Q11). exists k, (pd_y t'), (pd_tr t'). unfold PrimalDual. cbn [steps_arr].
  rewrite (for_loop_ext _ b k 0), Ek; [cbn [bind fst snd]; rewrite Q1; repeat split; auto|].
  intros j st Hj. unfold b, pd_body, getitem. rewrite (nth_error_repeat tau (ltac:(lia) : (j < n)%nat)), (nth_error_repeat mu (ltac:(lia) : (j < n)%nat)), (nth_error_repeat tau (ltac:(lia) : (j < k)%nat)), (nth_error_repeat mu (ltac:(lia) : (j < k)%nat)). reflexivity.
Qed.

(** ** ProximalGradient without acceleration *)
Lemma pg_plain {E : IPS} (f g : Op E) eps beta eta nb a i s : no_acceleration a -> pg_y s = pg_x s ->
  pg_body f g eps false beta eta nb a None i s = (e <- getitem eps i ;; gr <- get_grad f (pg_x s) ;; p <- o_prox g (pg_x s [-] pg_tau s [*] gr) (e * pg_tau s) ;;
    Ok (PG (pg_x s [+] eta [*] (p [-] pg_x s)) (pg_x s [+] eta [*] (p [-] pg_x s)) (pg_t s) (pg_tau s) (pg_pfg s) (pg_tr s ++ [pg_x s [+] eta [*] (p [-] pg_x s)]), false)).
Proof.
  intros Ha Hy. assert (A1 : accel_is a "fista" = false /\ accel_is a "vandenberghe" = false) by (destruct Ha as [-> | ->]; split; reflexivity). destruct A1 as [A1 A2].
  unfold pg_body, pg_prox_step. rewrite A1, A2, Hy. destruct (getitem eps i) as [e|]; cbn [bind]; [|reflexivity].
  destruct (Reqb_spec eta 1) as [[-> ->]|[_ ->]]; (destruct (get_grad f (pg_x s)) as [gr|]; cbn [bind]; [|reflexivity]); (destruct (o_prox g _ _) as [p|]; cbn [bind fst snd]; [|reflexivity]);
    match goal with |- Ok (PG ?a ?b _ _ _ _, _) = Ok (PG ?c _ _ _ _ _, _) => replace b with a by vring; try (replace c with a by vring); reflexivity end.
Qed.

(*! C87_twist : TwIST with alpha = beta = 1 makes the iterations of ProximalGradient (step 1, no acceleration) on 1/2|A x - b|^2 and g, one more than asked for and without
   handing the first one to the callback; f is any operator with that gradient *)
Lemma C87_twist_l : forall (E F : IPS) (f g : Op E) (A : linop E F) b x0 eigs e1 e2 beta nb a n, no_acceleration a -> (forall x, get_grad f x = Ok (ladj A (lapp A x [-] b))) ->
  TwIST g A b x0 (Some 1) (Some 1) eigs e1 e2 n = (r <- ProximalGradient f g x0 [1] (Some 1) false beta 1 (S n) nb a None ;; Ok (fst r, tl (snd r))).
Proof.
  intros E F f g A b x0 eigs e1 e2 beta nb a n Ha Hf. unfold TwIST, ProximalGradient. cbn [tw_params bind pg_epsg fst snd].
  assert (Hk : accel_known a = true) by (destruct Ha as [-> | ->]; reflexivity). rewrite Hk. cbn [for_loop]. rewrite (pg_plain f g _ beta 1 nb a 0 _ Ha) by reflexivity. cbn [pg_x pg_tau pg_t pg_pfg pg_tr].
  cbn [repeat getitem nth_error bind]. rewrite Hf. cbn [bind]. replace (1 [*] ladj A (lapp A x0 [-] b)) with (ladj A (lapp A x0 [-] b)) by vring. replace (1 * 1) with 1 by ring. unfold tw_grad at 1.
  destruct (o_prox g _ 1) as [x1|]; cbn [bind fst snd]; [|reflexivity]. replace (x0 [+] 1 [*] (x1 [-] x0)) with x1 by vring.
  set (Q := fun (s : pg_state E) (t : tw_state E) => pg_x s = tw_x t /\ pg_y s = tw_x t /\ pg_tau s = 1 /\ pg_tr s = x1 :: tw_tr t).
  pose proof (loop_sim (pg_body f g (repeat 1 (S n)) false beta 1 nb a None) (tw_body g A b 1 1) Q 1 n) as G.
  assert (Hb : forall j s t, (j < n)%nat -> Q s t -> agree Q (pg_body f g (repeat 1 (S n)) false beta 1 nb a None (1 + j)%nat s) (tw_body g A b 1 1 j t)).
  { intros j s t Hj (Q1 & Q2 & Q3 & Q4). rewrite pg_plain; [|exact Ha|congruence]. unfold tw_body, getitem, tw_grad. rewrite (nth_error_repeat 1 (ltac:(lia) : (1 + j < S n)%nat)). cbn [bind]. rewrite Hf, Q1, Q3. cbn [bind].
    replace (1 [*] ladj A (lapp A (tw_x t) [-] b)) with (ladj A (lapp A (tw_x t) [-] b)) by vring. replace (1 * 1) with 1 by ring. stp p. apply agree_ok. unfold Q. cbn [pg_x pg_y pg_tau pg_tr tw_x tw_tr]. rewrite Q4.
    replace ((1 - 1) [*] tw_old t [+] (1 - 1) [*] tw_x t [+] 1 [*] p) with (tw_x t [+] 1 [*] (p [-] tw_x t)) by vring. repeat split. }
  specialize (G Hb n 0%nat (PG x1 x1 1 1 None [x1]) (TW x0 x1 []) ltac:(lia) ltac:(unfold Q; cbn [pg_x pg_y pg_tau pg_tr tw_x tw_tr]; repeat split)). cbn [Nat.add app] in G |- *. change (1 :: repeat 1 n) with (repeat 1 (S n)).
  fin G. destruct G as (-> & _ & _ & ->). reflexivity.
Qed.

(*! C87_generalized_single : GeneralizedProximalGradient with one smooth and one other function is ProximalGradient without backtracking and acceleration: same vectors,
   callbacks and exceptions, for every eta, step and factor *)
Lemma C87_generalized_single_l : forall (E : IPS) (f g : Op E) x0 tau e eta beta nb a n, no_acceleration a -> (1 <= n)%nat ->
  GeneralizedProximalGradient [f] [g] x0 (Some tau) [e] None eta n a = ProximalGradient f g x0 [e] (Some tau) false beta eta n nb a None.
Proof.
  intros E f g x0 tau e eta beta nb a n Ha Hn. unfold GeneralizedProximalGradient, ProximalGradient. cbn [length repeat Nat.eqb andb negb INR map].
  assert (Hk : accel_known a = true) by (destruct Ha as [-> | ->]; reflexivity). rewrite Hk.
  assert (Hw : Rsum [1 / 1] = 1) by (cbn [Rsum fold_right]; unfold Rsum; cbn [fold_right]; field). destruct (Reqb_spec (Rsum [1 / 1]) 1) as [[_ ->]|[? _]]; [|contradiction]. cbn [negb].
  destruct n as [|n]; [lia|]. cbn [pg_epsg bind]. set (N := S n).
  set (Q := fun (s : gpg_state E) (t : pg_state E) => gp_x s = pg_x t /\ gp_y s = pg_x t /\ pg_y t = pg_x t /\ gp_zs s = [pg_x t] /\ pg_tau t = tau /\ gp_tr s = pg_tr t).
  pose proof (sim (gpg_body [f] [g] tau [e] [1 / 1] eta a) (pg_body f g (repeat e N) false beta eta nb a None) Q N (GP x0 x0 [x0] 1 []) (PG x0 x0 1 tau None [])) as G.
  assert (Hb : forall j s t, (j < N)%nat -> Q s t -> agree Q (gpg_body [f] [g] tau [e] [1 / 1] eta a j s) (pg_body f g (repeat e N) false beta eta nb a None j t)).
  { intros j s t Hj (Q1 & Q2 & Q3 & Q4 & Q5 & Q6). rewrite pg_plain by auto. unfold gpg_body, getitem. rewrite (nth_error_repeat e Hj). cbn [bind]. cbn [grad_all]. rewrite Q1, Q2, Q4. stp gr. cbn [gpg_zs]. unfold pydiv.
    destruct (Reqb_spec (1 / 1) 0) as [[? _]|[_ ->]]; [exfalso; lra|]. cbn [bind]. replace (tau * e / (1 / 1)) with (e * tau) by field. rewrite Q5.
    replace (2 [*] pg_x t [-] pg_x t [-] tau [*] (gr [+] vzero)) with (pg_x t [-] tau [*] gr) by vring. stp p. 
    assert (A1 : accel_is a "fista" = false /\ accel_is a "vandenberghe" = false) by (destruct Ha as [-> | ->]; split; reflexivity). destruct A1 as [-> ->].
    apply agree_ok. unfold Q. cbn [gp_x gp_y gp_zs gp_tr pg_x pg_y pg_tau pg_tr]. set (v := pg_x t [+] eta [*] (p [-] pg_x t)).
    assert (Hv : (1 / 1) [*] v [+] vzero = v) by (replace (1 / 1) with 1 by field; vring). rewrite Hv, Q6. repeat split; auto. vring. }
  specialize (G Hb ltac:(unfold Q; cbn [gp_x gp_y gp_zs gp_tr pg_x pg_y pg_tau pg_tr]; repeat split)). fin G. destruct G as (-> & _ & _ & _ & _ & ->). reflexivity.
Qed.

(** ** sums of several functions *)
Lemma map2_map {A B C D} (f : B -> C -> D) (h : A -> B) l l' : map2 f (map h l) l' = map2 (fun a => f (h a)) l l'.
Proof. revert l'. induction l as [|a l IH]; intros [|b l']; try reflexivity. cbn [map map2]. rewrite IH. reflexivity. Qed.
Lemma map_map2 {A B C D} (k : C -> D) (f : A -> B -> C) l l' : map k (map2 f l l') = map2 (fun a b => k (f a b)) l l'.
Proof. revert l'. induction l as [|a l IH]; intros [|b l']; try reflexivity. cbn [map map2]. rewrite IH. reflexivity. Qed.
Lemma map2_ext {A B C} (f g : A -> B -> C) l l' : (forall a b, f a b = g a b) -> map2 f l l' = map2 g l l'.
Proof. intro H. revert l'. induction l as [|a l IH]; intros [|b l']; try reflexivity. cbn [map2]. rewrite H, IH. reflexivity. Qed.
Lemma prox_all_len {E : IPS} (os : list (Op E)) : forall ys ts ps, prox_all os ys ts = Ok ps -> length ps = length os /\ (length os <= length ys)%nat.
Proof.
  induction os as [|o os IH]; intros ys ts ps H; cbn [prox_all] in H; [injection H as <-; cbn; lia|]. destruct ys as [|y ys], ts as [|t ts]; try discriminate.
  destruct (o_prox o y t); cbn [bind] in H; [|discriminate]. destruct (prox_all os ys ts) eqn:Ep; cbn [bind] in H; [|discriminate]. injection H as <-. destruct (IH _ _ _ Ep). cbn [length]. lia.
Qed.
Lemma wsum_repeat {E : IPS} c (l : list E) : wsum (repeat c (length l)) l = c [*] vsum l.
Proof. unfold wsum. induction l as [|a l IH]; cbn [length repeat map2 vsum fold_right] in *; [vring|]. unfold vsum in *. rewrite IH. vring. Qed.
Lemma vsum_repeat {E : IPS} (x : E) m : vsum (repeat x m) = INR m [*] x.
Proof. induction m as [|m IH]; [cbn [repeat vsum fold_right INR]; vring|]. cbn [repeat vsum fold_right]. unfold vsum in IH. rewrite IH, S_INR. vring. Qed.
Lemma mapM_repeat {B} (f : R -> result B) c b m : f c = Ok b -> mapM f (repeat c m) = Ok (repeat b m).
Proof. intro H. induction m as [|m IH]; [reflexivity|]. cbn [repeat mapM]. rewrite H, IH. reflexivity. Qed.

(*! C87_ppxa_consensus : PPXA with the default weights, eta = 1 and step tau/m is ConsensusADMM with step tau, for every list of m >= 1 operators (also ones that
   raise), start, number of iterations and tolerance: same vectors, same stopping, same callbacks, same exceptions *)
Lemma C87_ppxa_consensus_l : forall (E : IPS) (fs : list (Op E)) x0 tau n amax tol, fs <> [] ->
  PPXA fs (Common x0) (tau / INR (List.length fs)) 1 None n amax tol = ConsensusADMM fs x0 tau n amax tol.
Proof.
  intros E fs x0 tau n amax tol Hfs. set (m := List.length fs). assert (Hm : 0 < INR m) by (apply lt_0_INR; unfold m; destruct fs; [contradiction|cbn; lia]).
  unfold PPXA, ConsensusADMM. fold m. unfold pydiv at 1. destruct (Reqb_spec (INR m) 0) as [[? _]|[_ ->]]; [lra|]. cbn [bind]. rewrite !repeat_length, Nat.eqb_refl. cbn [andb negb].
  assert (Hx0 : vmean (repeat x0 m) = x0) by (unfold vmean; rewrite repeat_length, vsum_repeat; vext w; field; lra). rewrite Hx0.
  set (Q := fun (s : ppxa_state E) (t : cadmm_state E) => px_y s = map (fun y => ca_xbar t [-] y) (ca_y t) /\ px_x s = ca_xbar t /\ px_old s = ca_old t /\ px_tr s = ca_tr t).
  pose proof (sim (ppxa_body fs (repeat (1 / INR m) m) (tau / INR m) 1 amax tol) (cadmm_body fs tau amax tol) Q n (PX (repeat x0 m) x0 x0 []) (CA x0 x0 (repeat vzero m) [])) as G.
  assert (Hb : forall j s t, (j < n)%nat -> Q s t -> agree Q (ppxa_body fs (repeat (1 / INR m) m) (tau / INR m) 1 amax tol j s) (cadmm_body fs tau amax tol j t)).
  { intros j s t _ (Q1 & Q2 & Q3 & Q4). unfold ppxa_body, cadmm_body.
    rewrite (mapM_repeat _ _ tau). 2: { unfold pydiv. destruct (Reqb_spec (1 / INR m) 0) as [[Z _]|[_ ->]]; [exfalso; apply (Rinv_neq_0_compat (INR m)); [lra|unfold Rdiv in Z; lra]|]. f_equal. field. lra. }
    cbn [bind]. unfold stack_all. fold m. rewrite Q1, Q2, Q3, Q4. rewrite !bind_assoc. destruct (prox_all fs _ _) as [p|] eqn:Ep; cbn [bind]; [|reflexivity]. apply prox_all_len in Ep. destruct Ep as [Ep _].
    destruct p as [|p0 p']; [reflexivity|]. set (p := p0 :: p') in *. cbn [bind].
    assert (Hw : wsum (repeat (1 / INR m) m) p = vmean p) by (unfold m, vmean; rewrite <- Ep, wsum_repeat; replace (1 / INR (List.length p)) with (/ INR (List.length p)) by (rewrite Ep; fold m; field; lra); reflexivity). rewrite Hw.
    replace (ca_xbar t [+] 1 [*] (vmean p [-] ca_xbar t)) with (vmean p) by vring. stp st. split; [reflexivity|]. unfold Q. cbn [px_y px_x px_old px_tr ca_y ca_xbar ca_old ca_tr]. repeat split.
    rewrite map2_map, map_map2. apply map2_ext. intros a b. vring. }
  assert (HQ : Q (PX (repeat x0 m) x0 x0 []) (CA x0 x0 (repeat vzero m) [])). { unfold Q. cbn [px_y px_x px_old px_tr ca_y ca_xbar ca_old ca_tr]. repeat split. clear. induction m as [|m IH]; [reflexivity|]. cbn [repeat map]. rewrite <- IH. f_equal. vring. }
  specialize (G Hb HQ). fin G. destruct G as (_ & -> & _ & ->). reflexivity.
Qed.

(** a tolerance that is never met *)
Lemma never_stops {E : IPS} (amax : E -> R) t d c : (t <= 0 /\ forall v, 0 <= amax v) -> abs_stop amax (Some t) d = Ok c -> c = false.
Proof. intros [H1 H2] H. unfold abs_stop in H. injection H as <-. destruct (Rltb_spec (amax d) t) as [[? ->]|[? ->]]; [specialize (H2 d); lra|reflexivity]. Qed.

(*! C87_consensus_single : ConsensusADMM on a single function makes the iterations of ProximalPoint until it stops; with a tolerance that is never met it makes all of them *)
Lemma C87_consensus_single_l : forall (E : IPS) (o : Op E) x0 tau n amax t x tr, ConsensusADMM [o] x0 tau n amax (Some t) = Ok (x, tr) ->
  exists k, (k <= n)%nat /\ ProximalPoint o x0 tau k None = Ok (x, tr) /\ ((t <= 0 /\ forall v, 0 <= amax v) -> k = n).
Proof.
  intros E o x0 tau n amax t x tr H. unfold ConsensusADMM in H. cbn [List.length repeat] in H. destruct (for_loop _ n 0 _) as [[s' i']|] eqn:El; cbn [bind fst snd] in H; [|discriminate]. injection H as <- <-.
  set (Q := fun (s : cadmm_state E) (t : pp_state E) => ca_xbar s = pp_x t /\ ca_y s = [vzero] /\ ca_tr s = pp_tr t).
  destruct (sim_stop (cadmm_body [o] tau amax (Some t)) (pp_body o tau None) Q) with (n := n) (i := 0%nat) (s := CA x0 x0 [vzero : E] []) (t := PP x0 None (@nil E)) (s' := s') (i' := i') as (k & t' & Hk & Ek & (Q1 & _ & Q3) & Hi); auto.
  - intros j s u s1 c (Q1 & Q2 & Q3) Hb. unfold cadmm_body, stack_all in Hb. rewrite Q2, Q1, Q3 in Hb. cbn [map List.length repeat prox_all] in Hb. replace (pp_x u [-] vzero) with (pp_x u) in Hb by vring.
    unfold pp_body. destruct (o_prox o (pp_x u) tau) as [p|]; cbn [bind] in *; [|discriminate]. injection Hb as <- _. eexists. split; [reflexivity|]. unfold Q. cbn [ca_xbar ca_y ca_tr pp_x pp_tr map2].
    assert (Hv : vmean [p] = p) by (unfold vmean; cbn [List.length INR vsum fold_right]; vext w; field). rewrite Hv. repeat split. f_equal. vring.
  - unfold Q. cbn. auto.
  - exists k. unfold ProximalPoint. rewrite Ek. cbn [bind fst snd]. rewrite Q1, Q3. repeat split; auto. intro Hns. pose proof (for_loop_count (cadmm_body [o] tau amax (Some t)) n 0) as Hc. 
    eassert (Hx : i' = _) by (eapply Hc; [|exact El]; intros j s s1 b Hb; unfold cadmm_body in Hb; nobreak Hb; injection Hb as _ <-; eapply never_stops; eauto). lia.
Qed.

Lemma gpg_zs_eq {E : IPS} (y : E) tau eta : forall (os : list (Op E)) zs w taus ps, length w = length os -> length zs = length os -> mapM (pydiv tau) w = Ok taus -> prox_all os (map (fun z => 2 [*] y [-] z) zs) taus = Ok ps ->
  gpg_zs os y vzero tau eta zs (repeat 1 (length os)) w = Ok (map2 (fun z p => z [+] eta [*] (p [-] y)) zs ps, wsum w (map2 (fun z p => z [+] eta [*] (p [-] y)) zs ps)).
Proof.
  induction os as [|o os IH]; intros zs w taus ps Hw Hz Ht Hp; destruct w as [|w0 w], zs as [|z zs]; try discriminate.
  - cbn [prox_all map] in Hp. injection Hp as <-. reflexivity.
  - cbn [mapM] in Ht. destruct (pydiv tau w0) as [t0|] eqn:E0; cbn [bind] in Ht; [|discriminate]. destruct (mapM (pydiv tau) w) as [ts|] eqn:E1; cbn [bind] in Ht; [|discriminate]. injection Ht as <-.
    cbn [prox_all map] in Hp. destruct (o_prox o _ t0) as [p|] eqn:E2; cbn [bind] in Hp; [|discriminate]. destruct (prox_all os _ ts) as [ps'|] eqn:E3; cbn [bind] in Hp; [|discriminate]. injection Hp as <-.
    cbn [length repeat gpg_zs]. replace (tau * 1) with tau by ring. rewrite E0. cbn [bind]. replace (2 [*] y [-] z [-] tau [*] vzero) with (2 [*] y [-] z) by vring. rewrite E2. cbn [bind].
    rewrite (IH zs w ts ps') by (cbn in Hw, Hz; auto; lia). cbn [bind fst snd map2]. reflexivity.
Qed.
Lemma wsum_lin {E : IPS} (y : E) eta : forall w zs ps, length w = length zs -> length ps = length zs -> 
  wsum w (map2 (fun z p => z [+] eta [*] (p [-] y)) zs ps) = wsum w zs [+] eta [*] (wsum w ps [-] Rsum w [*] y).
Proof.
  unfold wsum. induction w as [|a w IH]; intros [|z zs] [|p ps] H1 H2; try discriminate; cbn [map2 vsum fold_right]; unfold vsum in *; [cbn [Rsum]; vring|].
  rewrite IH by (cbn in *; lia). cbn [Rsum]. vring.
Qed.

(*! C87_generalized_ppxa : GeneralizedProximalGradient without smooth functions is PPXA (common start, weights summing to one, any eta, factors 1): PPXA makes its iterations until it
   stops, all of them with a tolerance that is never met *)
Lemma C87_generalized_ppxa_l : forall (E : IPS) (fs : list (Op E)) x0 tau eta w n amax t x tr a, no_acceleration a -> fs <> [] -> match w with None => True | Some l => Rsum l = 1 end ->
  PPXA fs (Common x0) tau eta w n amax (Some t) = Ok (x, tr) ->
  exists k, (k <= n)%nat /\ GeneralizedProximalGradient [] fs x0 (Some tau) [1] w eta k a = Ok (x, tr) /\ ((t <= 0 /\ forall v, 0 <= amax v) -> k = n).
Proof.
  intros E fs x0 tau eta w n amax t x tr a Ha Hfs Hw H. set (m := List.length fs). assert (Hm : 0 < INR m) by (apply lt_0_INR; unfold m; destruct fs; [contradiction|cbn; lia]).
  set (l := match w with None => repeat (1 / INR m) m | Some l => l end).
  assert (Hl : Rsum l = 1). { unfold l. destruct w; [exact Hw|]. assert (Hs : forall k, Rsum (repeat (1 / INR m) k) = INR k * (1 / INR m)) by (induction k as [|k IH]; [cbn; ring|]; rewrite S_INR; cbn [repeat Rsum]; rewrite IH; ring). rewrite Hs. field. lra. }
  assert (HP : PPXA fs (Common x0) tau eta (Some l) n amax (Some t) = Ok (x, tr)).
  { rewrite <- H. unfold PPXA, l. fold m. destruct w; [reflexivity|]. unfold pydiv. destruct (Reqb_spec (INR m) 0) as [[? _]|[_ ->]]; [lra|]. reflexivity. }
  clear H. unfold PPXA in HP. fold m in HP. cbn [bind] in HP. rewrite repeat_length, Nat.eqb_refl, Bool.andb_true_r in HP. destruct (Nat.eqb (List.length l) m) eqn:El; cbn [negb] in HP; [|discriminate].
  assert (Hx0 : vmean (repeat x0 m) = x0) by (unfold vmean; rewrite repeat_length, vsum_repeat; vext w'; field; lra). rewrite Hx0 in HP.
  destruct (for_loop _ n 0 _) as [[s' i']|] eqn:Eloop; cbn [bind fst snd] in HP; [|discriminate]. injection HP as <- <-.
  apply Nat.eqb_eq in El.
  set (Q := fun (s : ppxa_state E) (u : gpg_state E) => gp_x u = px_x s /\ gp_y u = px_x s /\ List.length (gp_zs u) = m /\ px_y s = map (fun z => 2 [*] px_x s [-] z) (gp_zs u) /\ px_x s = wsum l (gp_zs u) /\ gp_tr u = px_tr s).
  assert (Hacc : accel_is a "fista" = false /\ accel_is a "vandenberghe" = false /\ accel_known a = true) by (destruct Ha as [-> | ->]; repeat split; reflexivity). destruct Hacc as (A1 & A2 & A3).
  destruct (sim_stop (ppxa_body fs l tau eta amax (Some t)) (gpg_body [] fs tau (repeat 1 m) l eta a) Q) with (n := n) (i := 0%nat) (s := PX (repeat x0 m) x0 x0 []) (t := GP x0 x0 (repeat x0 m) 1 []) (s' := s') (i' := i') as (k & u' & Hk & Ek & (Q1 & _ & _ & _ & _ & Q6) & Hi); auto.
  - intros j s u s1 c (Q1 & Q2 & Q3 & Q4 & Q5 & Q6) Hb. unfold ppxa_body, stack_all in Hb. destruct (mapM (pydiv tau) l) as [taus|] eqn:Em; cbn [bind] in Hb; [|discriminate].
    destruct (prox_all fs (px_y s) taus) as [p|] eqn:Ep; cbn [bind] in Hb; [|discriminate]. rewrite Q4 in Ep. pose proof (prox_all_len _ _ _ _ Ep) as [Elen _].
    assert (Hne : match p with [] => @Err (list E) ValueError | _ => Ok p end = Ok p) by (destruct p; [destruct fs; [contradiction|discriminate]|reflexivity]). rewrite Hne in Hb. cbn [bind] in Hb.
    destruct (abs_stop amax (Some t) _) as [st|] eqn:Est; cbn [bind] in Hb; [|discriminate]. injection Hb as <- <-.
    unfold gpg_body. cbn [grad_all bind]. rewrite Q1, Q2, A1, A2. pose proof (gpg_zs_eq (px_x s) tau eta fs (gp_zs u) l taus p El Q3 Em Ep) as Hz. fold m in Hz. rewrite Hz. cbn [bind fst snd].
    rewrite (wsum_lin (px_x s) eta l (gp_zs u) p), Hl, <- Q5 by (unfold m in *; congruence). replace (wsum l p [-] 1 [*] px_x s) with (wsum l p [-] px_x s) by vring. set (v := px_x s [+] eta [*] (wsum l p [-] px_x s)).
    eexists. split; [reflexivity|]. unfold Q. cbn [gp_x gp_y gp_zs gp_tr px_x px_y px_tr]. fold v. repeat split.
    + vring.
    + rewrite map2_length by (unfold m in *; congruence). exact Q3.
    + rewrite Q4, map2_map, map_map2. apply map2_ext. intros z b. unfold v. vring.
    + unfold v. rewrite (wsum_lin (px_x s) eta l (gp_zs u) p), Hl, <- Q5 by (unfold m in *; congruence). vring.
    + rewrite Q6. reflexivity.
  - unfold Q. cbn [gp_x gp_y gp_zs gp_tr px_x px_y px_tr]. rewrite repeat_length. repeat split.
    + clear. induction m as [|m IH]; [reflexivity|]. cbn [repeat map]. rewrite <- IH. f_equal. vring.
    + assert (Hs : forall w : list R, wsum w (repeat x0 (List.length w)) = Rsum w [*] x0). { unfold wsum. clear. induction w as [|b w IH]; cbn [List.length repeat map2 vsum fold_right]; cbn [Rsum]; [vring|]. unfold vsum in IH. rewrite IH. vring. }
      rewrite <- El, Hs, Hl. vring.
  - exists k. unfold GeneralizedProximalGradient. fold m. cbn [List.length]. replace (match w with Some w0 => w0 | None => repeat (1 / INR m) m end) with l by (unfold l; destruct w; reflexivity).
    rewrite El, Nat.eqb_refl. destruct (Reqb_spec (Rsum l) 1) as [[_ ->]|[? _]]; [|contradiction]. cbn [andb negb]. rewrite A3, Ek. cbn [bind fst snd]. rewrite Q1, Q6. repeat split; auto.
    intro Hns. pose proof (for_loop_count (ppxa_body fs l tau eta amax (Some t)) n 0) as Hc.
    eassert (Hx : i' = _) by (eapply Hc; [|exact Eloop]; intros j s s1 b Hb; unfold ppxa_body in Hb; nobreak Hb; injection Hb as _ <-; eapply never_stops; eauto). lia.
Qed.

(*! C87_anderson : AndersonProximalGradient with a history of one residual and no safeguard, whenever it returns, returns what ProximalGradient (no acceleration) returns after one more
   iteration, and hands the callback the same vectors but the first *)
Lemma C87_anderson_l : forall (E : IPS) pinv (f g : Op E) x0 e tau n epsr x tr beta nb a, no_acceleration a -> pinv [[0]] = [[0]] -> (forall c, c <> 0 -> pinv [[c]] = [[/ c]]) ->
  AndersonProximalGradient pinv f g x0 [e] tau n 1 epsr false None = Ok (x, tr) ->
  exists x1, ProximalGradient f g x0 [e] (Some tau) false beta 1 (S n) nb a None = Ok (x, x1 :: tr).
Proof.
  intros E pinv f g x0 e tau n epsr x tr beta nb a Ha P0 P1 H. unfold AndersonProximalGradient in H. destruct n as [|n]; [discriminate|]. cbn [pg_epsg bind] in H. set (N := S n) in *.
  unfold an_init in H. destruct (get_grad f x0) as [df|] eqn:Eg; cbn [bind] in H; [|discriminate]. unfold getitem in H at 1. unfold N in H at 1. cbn [repeat nth_error bind] in H.
  destruct (o_prox g _ (e * tau)) as [x1|] eqn:Ex; cbn [bind] in H; [|discriminate]. destruct (get_val f x1) as [pf|]; cbn [bind] in H; [|discriminate].
  destruct (for_loop _ N 0 _) as [[s' i']|] eqn:El; cbn [bind fst snd] in H; [|discriminate]. injection H as <- <-.
  set (Q := fun (s : an_state E) (t : pg_state E) => an_x s = pg_x t /\ pg_y t = pg_x t /\ pg_tau t = tau /\ pg_tr t = x1 :: an_tr s /\ (exists r, an_R s = [r]) /\ (exists r, an_G s = [r])).
  assert (Hsim : forall m i s t, (i + m <= N)%nat -> Q s t -> for_loop (an_body pinv f g (repeat e N) tau epsr 1 false None) m i s = Ok (s', i') -> exists t' j', for_loop (pg_body f g (repeat e (S N)) false beta 1 nb a None) m (S i) t = Ok (t', j') /\ Q s' t').
  { induction m as [|m IH]; intros i s t Hi HQ Hl; [injection Hl as <- <-; exists t, (S i); split; [reflexivity|exact HQ]|]. cbn [for_loop] in Hl |- *.
    destruct (an_body _ _ _ _ _ _ _ _ _ i s) as [[s1 c]|] eqn:Eb; cbn [bind fst snd] in Hl; [|discriminate]. destruct HQ as (Q1 & Q2 & Q3 & Q4 & [r0 Q5] & [g0 Q6]).
    rewrite (pg_plain f g _ beta 1 nb a (S i) t Ha Q2). unfold getitem. rewrite (nth_error_repeat e (ltac:(lia) : (S i < S N)%nat)). cbn [bind].
    unfold an_body, getitem in Eb. rewrite (nth_error_repeat e (ltac:(lia) : (i < N)%nat)), Q1, Q5, Q6 in Eb. cbn [bind] in Eb. rewrite Q3.
    destruct (get_grad f (pg_x t)) as [d|]; cbn [bind] in *; [|discriminate]. replace (Nat.leb 1 (i + 1)) with true in Eb by (symmetry; apply Nat.leb_le; lia). cbn [removelast] in Eb.
    replace (Nat.min 1 (i + 2)) with 1%nat in Eb by lia. set (v := pg_x t [-] tau [*] d) in *. set (r := v [-] an_y s) in *.
    assert (Hal : forall al, an_alpha pinv epsr 1 [r] = Ok al -> al = [1]).
    { intros al Hal. unfold an_alpha, an_matrix, mat_vec in Hal. cbn [map Rsum repeat] in Hal. set (c0 := << r, r >> + epsr * (norm2 r + 0)) in Hal. destruct (Req_dec c0 0) as [Z|Z].
      - rewrite Z, P0 in Hal. cbn [forallb map2 length Nat.eqb andb map Rsum bind] in Hal. destruct (Reqb_spec (0 * 1 + 0 + 0) 0) as [[_ W]|[W _]]; [rewrite W in Hal; discriminate|lra].
      - rewrite (P1 c0 Z) in Hal. cbn [forallb map2 length Nat.eqb andb map Rsum bind] in Hal. pose proof (Rinv_neq_0_compat _ Z). destruct (Reqb_spec (/ c0 * 1 + 0 + 0) 0) as [[W _]|[_ W]]; [exfalso; lra|]. rewrite W in Hal. injection Hal as <-. f_equal. field. exact Z. }
    destruct (an_alpha pinv epsr 1 [r]) as [al|] eqn:Eal; cbn [bind] in Eb; [|discriminate]. rewrite (Hal al eq_refl) in Eb. unfold comb in Eb. cbn [length Nat.eqb map2 fold_right bind] in Eb.
    replace (1 [*] v [+] vzero) with v in Eb by vring. destruct (o_prox g v (e * tau)) as [p|]; cbn [bind fst snd] in *; [|discriminate]. injection Eb as <- <-. cbn [an_x] in *.
    replace (pg_x t [+] 1 [*] (p [-] pg_x t)) with p by vring. eapply IH; [| |exact Hl]; [lia|]. unfold Q. cbn [an_x an_tr an_R an_G pg_x pg_y pg_tau pg_tr]. rewrite Q4. repeat split; eauto. }
  exists x1. unfold ProximalGradient. cbn [pg_epsg bind]. assert (Hk : accel_known a = true) by (destruct Ha as [-> | ->]; reflexivity). rewrite Hk. cbn [for_loop]. rewrite (pg_plain f g _ beta 1 nb a 0 _ Ha) by reflexivity.
  cbn [pg_x pg_tau pg_t pg_pfg pg_tr]. unfold getitem at 1. cbn [repeat nth_error bind]. rewrite Eg. cbn [bind]. rewrite Ex. cbn [bind fst snd]. replace (x0 [+] 1 [*] (x1 [-] x0)) with x1 by vring. change (e :: repeat e N) with (repeat e (S N)).
  match type of El with for_loop _ _ _ ?st = _ => assert (HQ0 : Q st (PG x1 x1 1 tau None ([] ++ [x1]))) end.
  { unfold Q. cbn [an_x an_tr an_R an_G pg_x pg_y pg_tau pg_tr app]. repeat split; eauto. }
  destruct (Hsim N 0%nat _ _ (le_n N) HQ0 El) as (t' & j' & -> & Q1 & _ & _ & Q4 & _). cbn [bind fst snd]. rewrite Q1, Q4. reflexivity.
Qed.

(*! C87_ipalm : iPALM without inertia is PALM: same vectors, callbacks and exceptions, unless gammaf is given and gammag is not (where iPALM raises) *)
Lemma C87_ipalm_l : forall (E F : IPS) (H : Bilin E F) hx hy proxf proxg x0 y0 gf gg beta n nb, gf = None \/ gg <> None ->
  iPALM H hx hy proxf proxg x0 y0 gf gg 0 0 beta n nb = PALM H hx hy proxf proxg x0 y0 gf gg beta n nb.
Proof.
  intros E F H hx hy proxf proxg x0 y0 gf gg beta n nb Hg. unfold iPALM, PALM.
  set (Q := fun s t : palm_state E F => ps_x s = ps_x t /\ ps_y s = ps_y t /\ ps_hy s = ps_hy t /\ (gf = None -> ps_tauf s = ps_tauf t) /\ (gg = None -> ps_taug s = ps_taug t) /\ ps_tr s = ps_tr t).
  match goal with |- bind (for_loop ?b1 n 0 ?s0) _ = bind (for_loop ?b2 n 0 ?t0) _ => pose proof (sim b1 b2 Q n s0 t0) as G end.
  match type of G with ?A -> _ => assert (Hb : A) end.
  { intros j s t _ (Q1 & Q2 & Q3 & Q4 & Q5 & Q6). unfold ipalm_body, palm_body. rewrite Q1, Q2, Q3.
    replace (ps_x t [+] 0 [*] (ps_x t [-] ps_xo s)) with (ps_x t) by vring. replace (ps_y t [+] 0 [*] (ps_y t [-] ps_yo s)) with (ps_y t) by vring.
    destruct gf as [gm|], gg as [gn|].
    - stp u. stp v. apply agree_ok. unfold Q. cbn [ps_x ps_y ps_hy ps_tauf ps_taug ps_tr]. rewrite Q6. repeat split; auto; discriminate.
    - destruct Hg as [?|?]; [discriminate|congruence].
    - rewrite (Q4 eq_refl). stp w. stp u. stp v. apply agree_ok. unfold Q. cbn [ps_x ps_y ps_hy ps_tauf ps_taug ps_tr]. rewrite Q6. repeat split; auto; discriminate.
    - rewrite (Q4 eq_refl), (Q5 eq_refl). stp w. stp u. stp w'. stp v. apply agree_ok. unfold Q. cbn [ps_x ps_y ps_hy ps_tauf ps_taug ps_tr]. rewrite Q6. repeat split; auto. }
  specialize (G Hb). match type of G with ?A -> _ => assert (HQ : A) end.
  { unfold Q. cbn [ps_x ps_y ps_hy ps_tauf ps_taug ps_tr]. repeat split; auto. intros ->. destruct Hg as [-> |?]; [reflexivity|congruence]. }
  specialize (G HQ). fin G. destruct G as (-> & -> & _ & _ & _ & ->). reflexivity.
Qed.

(** ** where the special cases differ *)
(*! C87_linearized_admm_refuted : with a z0 different from x0, LinearizedADMM with the identity and mu = tau is not ADMM: it ignores z0 in the first iteration *)
Lemma C87_linearized_admm_refuted_l : exists tr tr', LinearizedADMM shifted1 half1 (id_linop R_IPS) (Some (0:R_IPS)) 1 1 1 (Some 1) = Ok (1/2, 1/4, tr) /\ ADMM shifted1 half1 (Some (0:R_IPS)) 1 1 (Some 1) false = Ok (1, 1/2, tr').
Proof. do 2 eexists. split; [unfold LinearizedADMM, la_body; ev; do 3 f_equal; fq|cbn; do 3 f_equal; fq]. Qed.

(*! C87_generalized_single_refuted : with acceleration, GeneralizedProximalGradient on one smooth and one other function is not the accelerated ProximalGradient: it evaluates the
   gradient at x instead of at the extrapolated point: on x^2/2 with step 1/2 from 1, after 3 iterations 1/16 against 3/32 *)
Lemma C87_generalized_single_refuted_l : exists tr tr', GeneralizedProximalGradient [quad1 1] [zero1] (1:R_IPS) (Some (1/2)) [1] None 1 3 (Some "vandenberghe"%string) = Ok (1/16, tr) /\
  ProximalGradient (quad1 1) zero1 (1:R_IPS) [1] (Some (1/2)) false 1 1 3 1 (Some "vandenberghe"%string) None = Ok (3/32, tr').
Proof. do 2 eexists. split; [unfold GeneralizedProximalGradient, gpg_body, Rsum; ev; do 2 f_equal; fq|unfold ProximalGradient, pg_body, pg_prox_step; ev; do 2 f_equal; fq]. Qed.

Lemma apd_const (x y Ax aty tau mu : R) p d l1 l2 l3 tr : tau <> 0 -> mu <> 0 -> 
  exists p' d', apd_body (E:=R_IPS) (F:=R_IPS) shifted1 half1 (id_linop R_IPS) None None (fun _ => None) 1 1 2 (APD (E:=R_IPS) (F:=R_IPS) x y Ax aty tau mu 0 p d l1 l2 l3 tr) =
   (let x' := (vsub (E:=R_IPS) x (tau * aty) + tau) / (1 + tau) in let y' := (y + mu * vsub (E:=R_IPS) (2 * x') Ax) / (1 + mu * 1) in Ok (APD (E:=R_IPS) (F:=R_IPS) x' y' x' y' tau mu 0 p' d' (l1 ++ [tau]) (l2 ++ [mu]) (l3 ++ [0]) (tr ++ [x']))) /\ 0 <= p' /\ 0 <= d'.
Proof.
  intros Ht Hm. do 2 eexists. unfold apd_body, apd_p. cbn [ap_x ap_y ap_Ax ap_ATy ap_tau ap_mu ap_alpha ap_taus ap_mus ap_alphas ap_tr shifted1 half1 o_prox o_proxdual bind]. unfold pydiv.
  destruct (Reqb_spec tau 0) as [[? _]|[_ ->]]; [contradiction|]. destruct (Reqb_spec mu 0) as [[? _]|[_ ->]]; [contradiction|]. cbn [bind].
  destruct (Reqb_spec (1 - 0) 0) as [[? _]|[_ ->]]; [lra|]. destruct (Reqb_spec 2 0) as [[? _]|[_ ->]]; [lra|]. 
  replace (tau / (1 - 0)) with tau by field. replace (mu / (1 - 0)) with mu by field. replace (mu * (1 - 0)) with mu by ring. replace (tau * (1 - 0)) with tau by ring. replace (0 * 1) with 0 by ring.
  split; [|split; [|]].
  - destruct (Rltb _ _); cbn [bind]; [reflexivity|]. destruct (Rltb _ _); cbn [bind]; reflexivity.
  - apply norm_nonneg.
  - apply norm_nonneg.
Qed.
(*! C87_adaptive_refuted : from an x0 with A x0 <> 0 AdaptivePrimalDual with alpha = 0 is not PrimalDual: its first iteration extrapolates as if A x0 were zero *)
Lemma C87_adaptive_refuted_l : exists h tr y tr', AdaptivePrimalDual shifted1 half1 (id_linop R_IPS) None (1:R_IPS) (1/2) (1/2) 0 1 1 2 None (fun _ => None) 2 (-1) = Ok (7/9, h, tr) /\
  PrimalDual shifted1 half1 (id_linop R_IPS) None (1:R_IPS) (Scalar (1/2)) (Scalar (1/2)) None None 1 2 false = Ok (8/9, y, tr').
Proof.
  do 4 eexists. split; [|cbn; do 3 f_equal; fq]. unfold AdaptivePrimalDual. cbn [apd_while].
  destruct (apd_const 1 0 0 0 (1/2) (1/2) (-1 + 1) (-1 + 1) [1/2] [1/2] [0] [] ltac:(lra) ltac:(lra)) as (p1 & d1 & E1 & P1 & D1). cbn [ap_p ap_d]. destruct (Rltb_spec (-1) (-1 + 1)) as [[_ ->]|[? _]]; [|lra]. cbn [andb].
  change (@vzero R_IPS) with 0. rewrite E1. clear E1. cbv zeta. cbn [bind ap_p ap_d]. destruct (Rltb_spec (-1) p1) as [[_ ->]|[? _]]; [|lra]. destruct (Rltb_spec (-1) d1) as [[_ ->]|[? _]]; [|lra]. cbn [andb].
  match goal with |- context [apd_body _ _ _ _ _ _ _ _ _ (APD ?x ?y ?Ax ?aty ?tau ?mu 0 ?p ?d ?l1 ?l2 ?l3 ?tr)] => destruct (apd_const x y Ax aty tau mu p d l1 l2 l3 tr ltac:(lra) ltac:(lra)) as (p2 & d2 & E2 & _ & _) end.
  rewrite E2. cbv zeta. cbn [bind ap_x ap_taus ap_mus ap_alphas ap_tr]. do 3 f_equal. cbn. fq.
Qed.

(*!ex C87_example : PPXA with step 1/2 and ConsensusADMM with step 1 on (x-1)^2/2 and 0 return 1/2 after two iterations; PrimalDual and DouglasRachfordSplitting on (x-1)^2/2 and
   x^2/2 (step 1, from x0 = 1, y0 = 0) return 3/4 after two, and x^2/2 computes its dual prox as required *)
Lemma C87_example_l : (exists tr, PPXA [shifted1; zero1] (Common (0:R_IPS)) (1/2) 1 None 2 Rabs (Some 0) = Ok (1/2, tr)) /\ (exists tr, ConsensusADMM [shifted1; zero1] (0:R_IPS) 1 2 Rabs (Some 0) = Ok (1/2, tr)) /\
  moreau_dual half1 1 /\ (exists tr, PrimalDual shifted1 half1 (id_linop R_IPS) None (1:R_IPS) (Scalar 1) (Scalar (1/1)) (Some 0) None 1 2 false = Ok (3/4, 1/2, tr)) /\
  (exists tr, DouglasRachford shifted1 half1 (1:R_IPS) 1 1 2 false = Ok (3/4, 1/4, tr)) /\
  (forall x, get_grad (quad1 1) x = Ok (ladj (id_linop R_IPS) (vsub (E:=R_IPS) (lapp (id_linop R_IPS) x) vzero))) /\ no_acceleration None.
Proof.
  repeat split.
  - destruct C86_ppxa_refuted_l as (tr & _ & _ & H & _). eauto.
  - destruct C86_consensus_refuted_l as (tr & _ & _ & H & _). eauto.
  - intro w. cbn. f_equal. fq.
  - eexists. cbn. do 3 f_equal; fq.
  - eexists. cbn. do 3 f_equal; fq.
  - intro x. cbn. f_equal. fq.
  - left. reflexivity.
Qed.
