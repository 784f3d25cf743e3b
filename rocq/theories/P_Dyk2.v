(** * Proofs about intersections by Dykstra's algorithm (M_Dyk.v) *)
From Coq Require Import Psatz Classical.
From Verif Require Import Base Space Spec SpecOps ConvexFacts VSum MatFacts M_ProxOp M_Norms M_Loop LoopFacts LoopFacts2 SeqConv M_PG M_Multi M_Dyk P_Multi P_Dyk P_Proj.
From Verif Require Export S_Dyk2.
Open Scope result_scope.
Open Scope R_scope.

(** ** Specification *)

Lemma proj_step {E : IPS} (p : E -> result E) C : proj_impl p C -> step_impl p (indic C) 1.
Proof. intros H v. destruct (H v) as [y [E1 H1]]. exists y. split; auto. apply (proj_prox C 1); auto. lra. Qed.
Lemma normal_sub {E : IPS} (C : E -> Prop) z u : normal C z u -> is_subgrad (indic C) z u.
Proof. intros [H1 H2]. split; auto. intros y Hy. simpl. specialize (H2 y Hy). lra. Qed.

(*! C35_intersection : GenericIntersectionProx of two projections on convex sets: the iterates follow Dykstra's recursion with x + p + q equal to the input,
   every result after at least one iteration lies in the second set, and agreement of the two iterates makes it the projection on the intersection *)
Lemma C35_intersection_l : forall (E : IPS) amax (p1 p2 : E -> result E) C1 C2 x0 tau, proj_impl p1 C1 -> proj_impl p2 C2 -> convex_set C1 -> convex_set C2 -> 0 < tau ->
  exists xs ys ps qs, dykstra_seq (indic C1) (indic C2) 1 x0 xs ys ps qs /\ (forall k, xs k [+] ps k [+] qs k = x0) /\
    forall niter tol, exists k, gi_prox amax [p1; p2] niter tol false x0 tau = Ok (xs k) /\ stops_when (dyk_small amax tol xs ys) niter k /\
      ((0 < niter)%nat -> (0 < k)%nat) /\ ((0 < k)%nat -> C2 (xs k)) /\ ((0 < k)%nat -> xs k = ys k -> is_proj (fun v => C1 v /\ C2 v) x0 (xs k)).
Proof.
  intros E amax p1 p2 C1 C2 x0 tau H1 H2 HC1 HC2 Ht.
  destruct (dyk2_run E p1 p2 (indic C1) (indic C2) 1 x0 (proj_step _ _ H1) (proj_step _ _ H2)) as [xs [ys [ps [qs [HD HR]]]]].
  exists xs, ys, ps, qs. split; auto. split; [intro k; apply (dyk_inv _ _ _ _ _ _ _ _ HD)|]. intros niter tol. destruct (HR amax niter tol) as [k [E1 Hk]]. exists k.
  unfold gi_prox, gi_proj. cbn [length select_impl bind]. destruct (Rleb_spec tau 0) as [[? _]|[_ ->]]; [lra|]. split; auto. split; auto. split; [|split].
  - intro Hn. destruct Hk as [_ [_ [->|[H _]]]]; lia.
  - intro Hk0. destruct k as [|k]; [lia|]. destruct HD as [_ [_ [_ H]]]. destruct (H k) as [_ [_ [[H3 _] _]]]. exact H3.
  - intros Hk0 EQ. apply (proj_prox _ 1); [lra|]. assert (HP : is_prox (eadd (indic C1) (indic C2)) 1 x0 (xs k)).
    { apply (dyk_agree _ _ 1 x0 xs ys ps qs); auto; try (apply indic_convex; auto). lra. }
    destruct HP as [HP1 HP2]. split; [exact HP1|]. intros y Hy. specialize (HP2 y Hy). simpl in *. lra.
Qed.

(*! C35_intersection_converges : if x0 - z is the sum of outward normals u, v of the two sets at the common point z, then z is the projection of x0 on the
   intersection and with tol = 0 the result tends to z as niter grows *)
Lemma C35_intersection_converges_l : forall (E : IPS) amax (p1 p2 : E -> result E) C1 C2 x0 tau z u v, proj_impl p1 C1 -> proj_impl p2 C2 -> convex_set C1 -> convex_set C2 -> 0 < tau ->
  (forall w, 0 <= amax w) -> normal C1 z u -> normal C2 z v -> x0 [-] z = u [+] v ->
  is_proj (fun w => C1 w /\ C2 w) x0 z /\
  exists xs, (forall niter, gi_prox amax [p1; p2] niter 0 false x0 tau = Ok (xs niter)) /\ (forall n, RS n (fun k => norm2 (xs (S k) [-] z)) <= norm2 v) /\
    (forall eps, 0 < eps -> exists N, forall niter, (N <= niter)%nat -> norm (xs niter [-] z) < eps).
Proof.
  intros E amax p1 p2 C1 C2 x0 tau z u v H1 H2 HC1 HC2 Ht Hm Hu Hv Hx. split.
  { apply vi_proj; [split; [apply Hu|apply Hv]|]. intros y [Hy1 Hy2]. rewrite Hx, inner_add_l. pose proof (proj2 Hu y Hy1). pose proof (proj2 Hv y Hy2). lra. }
  destruct (dyk2_run E p1 p2 (indic C1) (indic C2) 1 x0 (proj_step _ _ H1) (proj_step _ _ H2)) as [xs [ys [ps [qs [HD HR]]]]].
  assert (Hz : sum_prox_split (indic C1) (indic C2) 1 x0 z u v) by (split; [apply normal_sub; auto|split; [apply normal_sub; auto|rewrite Hx; vring]]).
  assert (HS : forall n, RS n (fun k => norm2 (xs (S k) [-] z)) <= norm2 v).
  { intro n. pose proof (dyk_summable _ _ 1 x0 xs ys ps qs (indic_convex _ HC1) (indic_convex _ HC2) Rlt_0_1 HD z u v Hz n) as H. rewrite RS_add in H. pose proof (norm2_nonneg (qs n [-] 1 [*] v)).
    assert (0 <= RS n (fun k => norm2 (ys (S k) [-] z))) by (apply RS_nonneg; intros; apply norm2_nonneg). lra. }
  exists xs. split; [|split; auto].
  - intro niter. destruct (HR amax niter 0) as [k [E1 Hk]]. unfold gi_prox, gi_proj. cbn [length select_impl bind]. destruct (Rleb_spec tau 0) as [[? _]|[_ ->]]; [lra|]. rewrite E1.
    do 2 f_equal. apply (stops_never _ _ _ Hk). intros j [H _]. specialize (Hm (xs j [-] xs (j - 1)%nat)). lra.
  - intros eps He. destruct (summable_vanish _ _ (fun j => norm2_nonneg (xs (S j) [-] z)) HS (eps * eps)) as [N HN]; [nra|].
    exists (S N). intros n Hn. apply norm_small; auto. destruct n as [|n]; [lia|]. apply (HN n). lia.
Qed.

(*! C35_intersection_accepted : on arrays of at most 25 entries a result of the two-set loop that passed the tolerance test is accepted by the operator's own __call__ *)
Lemma C35_intersection_accepted_l : forall n (p1 p2 : Vec n -> result (Vec n)) C1 C2 x0 tau, proj_impl p1 C1 -> proj_impl p2 C2 -> convex_set C1 -> convex_set C2 -> 0 < tau -> (n <= 25)%nat ->
  exists xs ys ps qs, dykstra_seq (indic C1) (indic C2) 1 x0 xs ys ps qs /\
    forall niter tol, exists k, gi_prox vamax [p1; p2] niter tol false x0 tau = Ok (xs k) /\ (k <= niter)%nat /\
      ((1 <= k)%nat -> dyk_small vamax tol xs ys k -> gi_call vamax [p1; p2] tol (xs k) = Ok true).
Proof.
  intros n p1 p2 C1 C2 x0 tau H1 H2 HC1 HC2 Ht Hn.
  destruct (dyk2_run (Vec n) p1 p2 (indic C1) (indic C2) 1 x0 (proj_step _ _ H1) (proj_step _ _ H2)) as [xs [ys [ps [qs [HD HR]]]]].
  exists xs, ys, ps, qs. split; auto. intros niter tol. destruct (HR vamax niter tol) as [k [E1 Hk]]. exists k.
  unfold gi_prox, gi_proj. cbn [length select_impl bind]. destruct (Rleb_spec tau 0) as [[? _]|[_ ->]]; [lra|]. split; auto. split; [apply Hk|]. intros Hk1 [S1 S2].
  destruct k as [|k]; [lia|]. replace (S k - 1)%nat with k in * by lia. destruct HD as [_ [_ [_ HD]]]. destruct (HD k) as [[D1 _] [_ [[D2 _] _]]]. simpl in D1, D2.
  pose proof (vamax_nonneg n (xs (S k) [-] xs k)) as P0. assert (Htol : 0 < tol) by lra.
  cbn [gi_call]. destruct (H1 (xs (S k))) as [y1 [-> [_ Hy1]]]. destruct (H2 (xs (S k))) as [y2 [-> Hy2]]. cbn [bind].
  assert (B1 : vamax (xs (S k) [-] y1) < tol * 10).
  { rewrite vamax_sym. eapply Rle_lt_trans; [apply vamax_le_norm|]. eapply Rle_lt_trans; [apply (Hy1 (ys (S k)) D1)|].
    pose proof (vamax_tri n (ys (S k)) (xs k) (xs (S k))) as Htri. rewrite (vamax_sym n (xs k)) in Htri. pose proof (vamax_nonneg n (ys (S k) [-] xs (S k))) as Hp.
    pose proof (norm2_le_vamax n (ys (S k) [-] xs (S k))) as HN. apply norm_small; [lra|]. eapply Rle_lt_trans; [exact HN|].
    assert (HI : INR n <= 25) by (replace 25 with (INR 25) by (simpl; lra); apply le_INR; auto). pose proof (pos_INR n).
    assert (vamax (ys (S k) [-] xs (S k)) * vamax (ys (S k) [-] xs (S k)) < 4 * (tol * tol)) by nra. nra. }
  destruct (Rltb_spec (vamax (xs (S k) [-] y1)) (tol * 10)) as [[_ ->]|[? _]]; [|lra].
  rewrite (proj_of_mem _ _ _ D2 Hy2).
  assert (B2 : vamax (xs (S k) [-] xs (S k)) < tol * 10). { eapply Rle_lt_trans; [apply vamax_le_norm|]. rewrite vsub_diag, norm_zero. lra. }
  destruct (Rltb_spec (vamax (xs (S k) [-] xs (S k))) (tol * 10)) as [[_ ->]|[? _]]; [reflexivity|lra].
Qed.

(*! C35_call_tol0_refuted : with the documented setting tol = 0 the operator's own __call__ returns False for every array, also for members of all the sets *)
Lemma C35_call_tol0_refuted_l : forall (E : IPS) amax (p : E -> result E) projs x, (forall w, 0 <= amax w) -> p x = Ok x -> gi_call amax (p :: projs) 0 x = Ok false.
Proof.
  intros E amax p projs x Hm Hp. cbn [gi_call]. rewrite Hp. cbn [bind]. destruct (Rltb_spec (amax (x [-] x)) (0 * 10)) as [[H _]|[_ ->]]; [|reflexivity]. specialize (Hm (x [-] x)). lra.
Qed.

Lemma half_exact {E : IPS} (v : E) b : 0 < norm2 v -> proj_impl (fun w => Ok (half_proj v b w)) (half v b).
Proof.
  intros Hv w. exists (half_proj v b w). split; auto. unfold half_proj. destruct (Rleb_spec (<< v, w >>) b) as [[H ->]|[H ->]]; [apply proj_id; exact H|].
  set (c := (<< v, w >> - b) / norm2 v). assert (Hc : 0 < c) by (apply Rdiv_lt_0_compat; lra). assert (HE : << v, w [-] c [*] v >> = b).
  { rewrite inner_sub_r, inner_scal_r. fold (norm2 v). unfold c. field. lra. }
  apply vi_proj; [unfold half; lra|]. intros y Hy. replace (w [-] (w [-] c [*] v)) with (c [*] v) by vring. rewrite inner_scal_l, inner_sub_r, HE. unfold half in Hy. nra.
Qed.
Lemma half_convex {E : IPS} (v : E) b : convex_set (half v b).
Proof. intros x y t Hx Hy Ht. unfold half in *. rewrite inner_add_r, !inner_scal_r. nra. Qed.

Lemma RS_head n h : RS (S n) h = h 0%nat + RS n (fun i => h (S i)).
Proof. apply RS_shift. Qed.
Lemma bigN_S : bigN = S 400. Proof. reflexivity. Qed.
Lemma big_vv : norm2 big_v = 800.
Proof.
  rewrite vec_norm2, (RS_ext bigN _ (fun i => match i with O => 400 | _ => 1 end)).
  - rewrite bigN_S, RS_head, RS_const. replace (INR 400) with 400 by (rewrite INR_IZR_INZ; reflexivity). lra.
  - intros i Hi. unfold big_v. rewrite get_vtab by auto. destruct i; lra.
Qed.
Lemma big_ww : norm2 big_w = 401.
Proof.
  rewrite vec_norm2, (RS_ext bigN _ (fun _ => 1)).
  - rewrite RS_const. unfold bigN. replace (INR 401) with 401 by (rewrite INR_IZR_INZ; reflexivity). lra.
  - intros i Hi. unfold big_w. rewrite get_vtab by auto. lra.
Qed.
Lemma big_vw : << big_v, big_w >> = -420.
Proof.
  rewrite vec_inner, (RS_ext bigN _ (fun i => match i with O => -20 | _ => -1 end)).
  - rewrite bigN_S, RS_head, RS_const. replace (INR 400) with 400 by (rewrite INR_IZR_INZ; reflexivity). lra.
  - intros i Hi. unfold big_v, big_w. rewrite !get_vtab by auto. destruct i; lra.
Qed.

(*! C35_accepted_refuted : on longer arrays this fails although the sets intersect: for two half-spaces of R^401, starting at 0 with any tol > 0 the loop stops
   after one iteration by its tolerance test and __call__ rejects the result *)
Lemma C35_accepted_refuted_l : forall tol tau niter, 0 < tol -> 0 < tau ->
  let t := 99 / 100 * tol in let C1 := half big_v 0 in let C2 := half big_w (- (401 * t)) in
  let p1 := fun w => Ok (half_proj big_v 0 w) in let p2 := fun w => Ok (half_proj big_w (- (401 * t)) w) in
  proj_impl p1 C1 /\ proj_impl p2 C2 /\ (exists z, C1 z /\ C2 z) /\
  exists x, gi_prox vamax [p1; p2] (S niter) tol false vzero tau = Ok x /\ gi_call vamax [p1; p2] tol x = Ok false.
Proof.
  intros tol tau niter Htol Ht t C1 C2 p1 p2. assert (Ht0 : 0 < t) by (unfold t; lra).
  assert (Evz : << big_v, vzero >> = 0) by apply inner_zero_r.
  assert (Ewz : << big_w, vzero >> = 0) by apply inner_zero_r.
  split; [apply half_exact; rewrite big_vv; lra|]. split; [apply half_exact; rewrite big_ww; lra|]. split.
  { exists (- (2 * t) [*] (big_w [+] (420/800) [*] big_v) [+] (3 * t) [*] (big_w [+] (420 / 800) [*] big_v) [-] (5 * t) [*] (big_w [+] (420 / 800) [*] big_v)).
    unfold C1, C2, half. pose proof big_vv as V. pose proof big_ww as W. pose proof big_vw as VW. unfold norm2 in V, W. 
    split; rewrite ?inner_sub_r, ?inner_add_r, ?inner_scal_r, ?inner_add_r, ?inner_scal_r; rewrite ?(inner_sym big_w big_v), ?V, ?W, ?VW; lra. }
  assert (Ey : half_proj big_v 0 (vzero [+] vzero) = vzero).
  { replace (vzero [+] vzero : Vec bigN) with (vzero : Vec bigN) by vring. unfold half_proj. rewrite Evz. destruct (Rleb_spec 0 0) as [[_ ->]|[? _]]; [reflexivity|lra]. }
  assert (Ex : half_proj big_w (- (401 * t)) (vzero [+] vzero) = (- t) [*] big_w).
  { replace (vzero [+] vzero : Vec bigN) with (vzero : Vec bigN) by vring. unfold half_proj. rewrite Ewz. destruct (Rleb_spec 0 (- (401 * t))) as [[? _]|[_ ->]]; [lra|].
    rewrite big_ww. replace ((0 - - (401 * t)) / 401) with t by field. vring. }
  exists ((- t) [*] big_w). split.
  - unfold gi_prox, gi_proj. cbn [length select_impl bind]. destruct (Rleb_spec tau 0) as [[? _]|[_ ->]]; [lra|]. unfold dykstra_two. cbn [for_loop]. unfold dyk2_body at 1. cbn [d_x d_y d_p d_q].
    unfold p1 at 1. rewrite Ey. cbn [bind]. unfold p2 at 1. rewrite Ex. cbn [bind snd fst].
    assert (B1 : vamax ((- t) [*] big_w [-] vzero) <= t). { apply vamax_lub; [lra|]. intros i Hi. rewrite get_sub, get_scal, get_zero by auto. unfold big_w. rewrite get_vtab by auto. rewrite Rabs_right; lra. }
    assert (B2 : vamax (vzero [-] vzero : Vec bigN) <= 0). { eapply Rle_trans; [apply vamax_le_norm|]. rewrite vsub_diag, norm_zero. lra. }
    match goal with |- context [Rltb ?a tol] => destruct (Rltb_spec a tol) as [[_ ->]|[H _]] end; [reflexivity|]. exfalso. assert (t < tol) by (unfold t; lra).
    assert (Rmax (vamax ((- t) [*] big_w [-] vzero)) (vamax (vzero [-] vzero : Vec bigN)) <= t) by (apply Rmax_lub; lra). lra.
  - cbn [gi_call]. unfold p1 at 1. cbn [bind].
    assert (EP : << big_v, (- t) [*] big_w >> = 420 * t) by (rewrite inner_scal_r, big_vw; lra).
    assert (Eq : half_proj big_v 0 ((- t) [*] big_w) = (- t) [*] big_w [-] (420 * t / 800) [*] big_v).
    { unfold half_proj. rewrite EP. destruct (Rleb_spec (420 * t) 0) as [[? _]|[_ ->]]; [lra|]. rewrite big_vv. do 3 f_equal. lra. }
    rewrite Eq. match goal with |- context [Rltb ?a (tol * 10)] => destruct (Rltb_spec a (tol * 10)) as [[H _]|[_ ->]] end; [exfalso|reflexivity].
    assert (G : Rabs (get ((- t) [*] big_w [-] ((- t) [*] big_w [-] (420 * t / 800) [*] big_v)) 0) <= vamax ((- t) [*] big_w [-] ((- t) [*] big_w [-] (420 * t / 800) [*] big_v))) by (apply vamax_get; unfold bigN; lia).
    rewrite !get_sub, !get_scal in G by (unfold bigN; lia). unfold big_v at 1 in G. rewrite (get_vtab bigN _ 0) in G by (unfold bigN; lia).
    match type of G with Rabs ?a <= _ => replace a with (105 / 10 * t) in G by field end. rewrite Rabs_right in G by lra. unfold t in *. lra.
Qed.
