(** * GeneralizedProximalGradient *)
From Coq Require Import Psatz String.
From Verif Require Import Base Space Spec VSum ConvexFacts Smooth M_ProxOp SpecOps P_ProxOp M_Norms P_Norms M_Loop LoopFacts LoopFacts2 SeqFacts M_PG M_Multi M_Float SplitMath P_PG2 P_PG3 P_Split2 P_Split3 P_Multi P_Multi2.
From Verif Require Export S_Multi3.
Open Scope result_scope.
Open Scope R_scope.

Section Co.
Context {E : IPS}.
(** Baillon-Haddad *)
Lemma smooth_convex_sharp (f : E -> R) df L x y : 0 < L -> smooth_convex f df L ->
  f x + << df x, y [-] x >> + / (2 * L) * norm2 (df y [-] df x) <= f y.
Proof.
  intros HL [H1 H2]. set (g := df y [-] df x). set (z := y [-] / L [*] g).
  pose proof (H1 x z) as Ha. pose proof (H2 y z) as Hb.
  replace (z [-] y) with ((- / L) [*] g) in Hb by (unfold z; vring). rewrite norm2_scal, inner_scal_r in Hb.
  replace (<< df x, z [-] x >>) with (<< df x, y [-] x >> - / L * << df x, g >>) in Ha by (unfold z; inner_lin_all; ring).
  assert (Hg : << df y, g >> - << df x, g >> = norm2 g) by (unfold norm2; unfold g at 3; inner_lin_all; ring).
  assert (Hc : L / 2 * (- / L * - / L * norm2 g) = / (2 * L) * norm2 g) by (field; lra). rewrite Hc in Hb.
  assert (Hd : / L * norm2 g = 2 * (/ (2 * L) * norm2 g)) by (field; lra). rewrite <- Hg in Hd at 1. lra.
Qed.
Lemma cocoercive (f : E -> R) df L x y : 0 < L -> smooth_convex f df L ->
  norm2 (df y [-] df x) <= L * << df y [-] df x, y [-] x >>.
Proof.
  intros HL H. pose proof (smooth_convex_sharp f df L x y HL H) as H1. pose proof (smooth_convex_sharp f df L y x HL H) as H2.
  rewrite (norm2_sub_sym (df x) (df y)) in H2. replace (x [-] y) with ((-1) [*] (y [-] x)) in H2 by vring. rewrite inner_scal_r in H2.
  assert (Hs : 2 * (/ (2 * L) * norm2 (df y [-] df x)) <= << df y [-] df x, y [-] x >>).
  { replace (<< df y [-] df x, y [-] x >>) with (<< df y, y [-] x >> - << df x, y [-] x >>) by (inner_lin_all; ring). lra. }
  apply (Rmult_le_compat_l L) in Hs; [|lra]. replace (L * (2 * (/ (2 * L) * norm2 (df y [-] df x)))) with (norm2 (df y [-] df x)) in Hs by (field; lra). exact Hs.
Qed.
Lemma smooth_convex_sum m (f : nat -> E -> R) (df : nat -> E -> E) (L : nat -> R) : (forall i, (i < m)%nat -> smooth_convex (f i) (df i) (L i)) ->
  smooth_convex (fun x => RS m (fun i => f i x)) (fun x => VS m (fun i => df i x)) (RS m L).
Proof.
  intro H. split; intros x y; rewrite inner_VS_l.
  - rewrite <- RS_add. apply RS_le. intros i Hi. apply (H i Hi).
  - replace (RS m L / 2 * norm2 (y [-] x)) with (RS m (fun i => L i / 2 * norm2 (y [-] x))).
    + rewrite <- !RS_add. apply RS_le. intros i Hi. apply (H i Hi).
    + rewrite RS_scal_r. f_equal. rewrite (RS_ext m _ (fun i => / 2 * L i)) by (intros; field). rewrite RS_scal. field.
Qed.
Lemma smooth_convex_weaken (f : E -> R) df L L' : L <= L' -> smooth_convex f df L -> smooth_convex f df L'.
Proof.
  intros HL [H1 H2]. split; auto. intros x y. specialize (H2 x y). pose proof (norm2_nonneg (y [-] x)).
  assert (L / 2 * norm2 (y [-] x) <= L' / 2 * norm2 (y [-] x)) by (apply Rmult_le_compat_r; lra). lra.
Qed.
End Co.


Section G.
Context {E : IPS}.
Lemma grad_all_ok (os : list (Op E)) : forall f df L x, smooth_all os f df L -> grad_all os x = Ok (VS (List.length os) (fun i => df i x)).
Proof.
  induction os as [|o os IH]; intros f df L x H; [reflexivity|]. cbn [grad_all List.length]. rewrite VS_shift.
  unfold get_grad. destruct (H 0%nat o eq_refl) as [_ [-> _]]. cbn [bind].
  rewrite (IH (fun i => f (S i)) (fun i => df (S i)) (fun i => L (S i))); [reflexivity|]. intros i o' Ho. apply (H (S i) o' Ho).
Qed.

Lemma gpg_zs_ok (os : list (Op E)) : forall (g : nat -> efun E) y grad tau eta zs eps w, impl_all os g -> 0 < tau ->
  List.length zs = List.length os -> List.length eps = List.length os -> List.length w = List.length os ->
  (forall i, (i < List.length os)%nat -> 0 < nthr eps i) -> (forall i, (i < List.length os)%nat -> 0 < nthr w i) ->
  exists ps zs' : list E, List.length zs' = List.length os /\ gpg_zs os y grad tau eta zs eps w = Ok (zs', VS (List.length os) (fun i => nthr w i [*] nthv zs' i)) /\
    forall i, (i < List.length os)%nat -> is_prox (g i) (tau * nthr eps i / nthr w i) (2 [*] y [-] nthv zs i [-] tau [*] grad) (nthv ps i) /\
       nthv zs' i = nthv zs i [+] eta [*] (nthv ps i [-] y).
Proof.
  induction os as [|o os IH]; intros g y grad tau eta zs eps w Hg Ht Lz Le Lw He Hw; [exists [], []; split; [reflexivity|]; split; [reflexivity|simpl; intros; lia]|].
  destruct zs as [|z zs]; [discriminate|]. destruct eps as [|e eps]; [discriminate|]. destruct w as [|a w]; [discriminate|]. cbn [gpg_zs].
  pose proof (He 0%nat ltac:(simpl; lia)) as He0. pose proof (Hw 0%nat ltac:(simpl; lia)) as Hw0. unfold nthr in He0, Hw0. simpl in He0, Hw0.
  rewrite pydiv_ok by lra. cbn [bind].
  assert (0 < tau * e) by nra.
  destruct (Hg 0%nat o eq_refl (2 [*] y [-] z [-] tau [*] grad) (tau * e / a)) as [p [-> Hp]]; [apply Rdiv_lt_0_compat; auto|]. cbn [bind].
  simpl in Lz, Le, Lw.
  destruct (IH (fun i => g (S i)) y grad tau eta zs eps w) as [ps [zs' [Hl [-> Hps]]]]; auto.
  - intros i o' Ho. apply (Hg (S i)). exact Ho.
  - intros i Hi. apply (He (S i)). simpl; lia.
  - intros i Hi. apply (Hw (S i)). simpl; lia.
  - exists (p :: ps), ((z [+] eta [*] (p [-] y)) :: zs'). split; [simpl; lia|]. cbn [bind fst snd List.length]. split; [rewrite VS_shift; reflexivity|].
    intros i Hi. destruct i; [split; [exact Hp|reflexivity]|]. apply Hps. simpl in Hi; lia.
Qed.


Lemma gpg_run (fs gs : list (Op E)) f df L (g : nat -> efun E) tau eps w eta accel x0 n : let m := List.length gs in
  smooth_all fs f df L -> impl_all gs g -> 0 < tau -> List.length eps = m -> List.length w = m ->
  (forall i, (i < m)%nat -> 0 < nthr eps i) -> (forall i, (i < m)%nat -> 0 < nthr w i) ->
  exists xs ys zs ps t, for_loop (gpg_body fs gs tau eps w eta accel) n 0 (GP x0 x0 (repeat x0 m) 1 []) =
      Ok (GP (xs n) (ys n) (map (zs n) (seq 0 m)) t (map xs (seq 1 n)), n) /\
    xs 0%nat = x0 /\ ys 0%nat = x0 /\ (forall i, (i < m)%nat -> zs 0%nat i = x0) /\
    gpg_doc m g (fun x => VS (List.length fs) (fun i => df i x)) (nthr w) (nthr eps) tau eta (omega_seq accel) xs ys zs ps n.
Proof.
  intros m Hf Hg Ht Le Lw He Hw. set (dF := fun x => VS (List.length fs) (fun i => df i x)).
  set (Rl := fun (j : nat) (s s' : gpg_state E) (b : bool) => b = false /\ exists p : list E, 
    (forall i, (i < m)%nat -> is_prox (g i) (tau * nthr eps i / nthr w i) (2 [*] gp_y s [-] nthv (gp_zs s) i [-] tau [*] dF (gp_x s)) (nthv p i) /\
       nthv (gp_zs s') i = nthv (gp_zs s) i [+] eta [*] (nthv p i [-] gp_y s)) /\
    gp_x s' = VS m (fun i => nthr w i [*] nthv (gp_zs s') i) /\
    gp_y s' = gp_x s' [+] omega_seq accel j [*] (gp_x s' [-] gp_x s) /\
    gp_tr s' = gp_tr s ++ [gp_x s']).
  destruct (loop_states_brk (gpg_body fs gs tau eps w eta accel) (fun j s => List.length (gp_zs s) = m /\ (accel_is accel "fista" = true -> gp_t s = fista_t j)) Rl n (GP x0 x0 (repeat x0 m) 1 []))
    as [st [bs [k [E1 [S0 [Hk [_ [HP [HR [Hb Hl]]]]]]]]]].
  - split; [apply repeat_length|]. reflexivity.
  - intros j s _ [Hly Hft]. unfold gpg_body. rewrite (grad_all_ok fs f df L) by auto. cbn [bind]. fold (dF (gp_x s)).
    destruct (gpg_zs_ok gs g (gp_y s) (dF (gp_x s)) tau eta (gp_zs s) eps w Hg Ht Hly Le Lw He Hw) as [p [zs' [Hl [-> Hp]]]].
    cbn [bind]. eexists. eexists. split; [reflexivity|]. fold m in Hl, Hp. split.
    + split; [reflexivity|]. exists p. cbn [gp_zs gp_x gp_y gp_tr fst snd]. split; [exact Hp|]. split; [reflexivity|]. split; [|reflexivity].
      f_equal. f_equal. unfold omega_seq. destruct (accel_is accel "vandenberghe"); auto. destruct (accel_is accel "fista") eqn:Ea; auto.
      rewrite (Hft eq_refl). reflexivity.
    + cbn [gp_zs gp_t fst]. split; [exact Hl|]. intro Ha. rewrite Ha, (Hft Ha). reflexivity.
  - assert (k = n) as ->. { destruct Hl as [Hl|[j [-> Hl]]]; auto. destruct (HR j ltac:(lia)) as [Hf' _]. rewrite Hf' in Hl. discriminate. }
    set (xs := fun j => gp_x (st j)). set (ys := fun j => gp_y (st j)). set (zs := fun j i => nthv (gp_zs (st j)) i).
    assert (Hps : forall q, exists ps : nat -> nat -> E, forall j, (j < n)%nat -> (j < q)%nat -> 
      (forall i, (i < m)%nat -> is_prox (g i) (tau * nthr eps i / nthr w i) (2 [*] ys j [-] zs j i [-] tau [*] dF (xs j)) (ps j i) /\
         zs (S j) i = zs j i [+] eta [*] (ps j i [-] ys j)) /\
      xs (S j) = VS m (fun i => nthr w i [*] zs (S j) i) /\ ys (S j) = xs (S j) [+] omega_seq accel j [*] (xs (S j) [-] xs j)).
    { induction q as [|q [us IH]]; [exists (fun _ _ => vzero); intros; lia|].
      destruct (Nat.ltb_spec q n) as [Hq|Hq].
      - destruct (HR q Hq) as [_ [p [H1 [H2 [H3 _]]]]]. exists (upd us q (nthv p)). intros j Hj Hjq. destruct (Nat.eq_dec j q) as [->|Hne].
        + rewrite upd_eq. split; [exact H1|split; [exact H2|exact H3]].
        + rewrite upd_ne by auto. apply IH; auto; lia.
      - exists us. intros j Hj _. apply IH; lia. }
    destruct (Hps n) as [ps Hq]. exists xs, ys, zs, ps, (gp_t (st n)). split; [|split; [|split; [|split]]].
    + rewrite E1. do 2 f_equal. pose proof (HP n ltac:(lia)) as [Hlk Hok]. destruct (st n) as [xk yk zk tk trk] eqn:Ek. cbn [gp_zs gp_t] in *.
      assert (Hx : xs n = xk) by (unfold xs; rewrite Ek; reflexivity). assert (Hy : ys n = yk) by (unfold ys; rewrite Ek; reflexivity). rewrite Hx, Hy. f_equal.
      * assert (Hys : forall i, zs n i = nthv zk i) by (intro; unfold zs; rewrite Ek; reflexivity).
        apply (nth_ext _ _ vzero vzero); [rewrite map_length, seq_length; auto|]. intros i Hi.
        rewrite (map_nth_lt _ _ _ 0%nat) by (rewrite seq_length; lia). rewrite seq_nth by lia. simpl. rewrite Hys. reflexivity.
      * change trk with (gp_tr (GP xk yk zk tk trk)). rewrite <- Ek. apply (trace_states st gp_tr gp_x); [rewrite S0; auto|].
        intros j Hj. destruct (HR j Hj) as [_ [p [_ [_ [_ H3]]]]]. exact H3.
    + unfold xs. rewrite S0. reflexivity.
    + unfold ys. rewrite S0. reflexivity.
    + intros i Hi. unfold zs. rewrite S0. cbn [gp_zs]. apply nthv_repeat; auto.
    + intros j Hj. apply Hq; auto.
Qed.


Lemma gpg_fejer m g (F : E -> R) dF L w eps tau eta x (z p z' : nat -> E) xo v :
  (forall i, (i < m)%nat -> convex (g i)) -> 0 < L -> smooth_convex F dF L -> (forall i, (i < m)%nat -> 0 < w i) -> RS m w = 1 ->
  (forall i, (i < m)%nat -> 0 < eps i) -> 0 < tau -> 0 < eta -> x = VS m (fun i => w i [*] z i) ->
  (forall i, (i < m)%nat -> is_prox (g i) (tau * eps i / w i) (2 [*] x [-] z i [-] tau [*] dF x) (p i)) ->
  (forall i, (i < m)%nat -> z' i = z i [+] eta [*] (p i [-] x)) -> gpg_kkt m g dF eps xo v ->
  let zo := fun i => xo [-] tau [*] dF xo [-] (tau * eps i / w i) [*] v i in
  RS m (fun i => w i * norm2 (z' i [-] zo i)) + eta * (2 - eta - tau * L / 2) * RS m (fun i => w i * norm2 (p i [-] x)) <= RS m (fun i => w i * norm2 (z i [-] zo i)).
Proof.
  intros Hc HL Hs Hw Sw He Ht Het Hx Hp Hz' [Hv Hv0] zo.
  set (a := x [-] xo). set (delta := dF x [-] dF xo). set (eb := VS m (fun i => w i [*] (p i [-] x))).
  assert (Hzo : VS m (fun i => w i [*] (z i [-] zo i)) = a).
  { rewrite (VS_ext m _ (fun i => w i [*] z i [-] w i [*] (xo [-] tau [*] dF xo) [+] tau [*] (eps i [*] v i))).
    - rewrite VS_add, VS_sub, VS_wconst, VS_scal, Sw, <- Hx. replace (VS m (fun i => eps i [*] v i)) with ((-1) [*] dF xo); [unfold a; vring|].
      symmetry. apply vsub_eq. rewrite <- Hv0. vring.
    - intros i Hi. unfold zo. specialize (Hw i Hi). vfield. lra. }
  (* pointwise *)
  set (Q := fun i => norm2 (z i [-] zo i) - 2 * eta * norm2 (p i [-] x) + eta * eta * norm2 (p i [-] x) + 2 * eta * (norm2 a - << z i [-] zo i, a >>) - 2 * eta * tau * << delta, p i [-] x >> - 2 * eta * tau * << delta, a >>).
  assert (Hpt : forall i, (i < m)%nat -> w i * norm2 (z' i [-] zo i) <= w i * Q i).
  { intros i Hi. specialize (Hw i Hi). specialize (He i Hi). apply Rmult_le_compat_l; [lra|]. rewrite (Hz' i Hi). set (s := tau * eps i / w i) in *.
    assert (Hsp : 0 < s) by (unfold s; apply Rdiv_lt_0_compat; auto; nra).
    pose proof (prox_subgrad (g i) s _ _ (Hc i Hi) Hsp (Hp i Hi)) as Hg.
    pose proof (subgrad_mono (g i) _ _ _ _ Hg (Hv i Hi)) as Hm.
    assert (Hm' : 0 <= s * << / s [*] (2 [*] x [-] z i [-] tau [*] dF x [-] p i) [-] v i, p i [-] xo >>) by (apply Rmult_le_pos; lra).
    replace (s * << / s [*] (2 [*] x [-] z i [-] tau [*] dF x [-] p i) [-] v i, p i [-] xo >>) with
      (<< 2 [*] x [-] z i [-] tau [*] dF x [-] p i [-] s [*] v i, p i [-] xo >>) in Hm' by (inner_lin_all; field; lra).
    assert (HH : Q i - norm2 (z i [+] eta [*] (p i [-] x) [-] zo i) = 2 * eta * << 2 [*] x [-] z i [-] tau [*] dF x [-] p i [-] s [*] v i, p i [-] xo >>).
    { unfold Q, zo, a, delta. fold s. iring. }
    assert (0 <= 2 * eta * << 2 [*] x [-] z i [-] tau [*] dF x [-] p i [-] s [*] v i, p i [-] xo >>) by (apply Rmult_le_pos; lra). lra. }
  pose proof (RS_le m _ _ Hpt) as H.
  assert (HQ : RS m (fun i => w i * Q i) = RS m (fun i => w i * norm2 (z i [-] zo i)) - eta * (2 - eta) * RS m (fun i => w i * norm2 (p i [-] x)) - 2 * eta * tau * << delta, eb >> - 2 * eta * tau * << delta, a >>).
  { rewrite (RS_ext m _ (fun i => w i * norm2 (z i [-] zo i) - eta * (2 - eta) * (w i * norm2 (p i [-] x)) + (2 * eta * norm2 a - 2 * eta * tau * << delta, a >>) * w i - 2 * eta * << w i [*] (z i [-] zo i), a >> - 2 * eta * tau * << w i [*] (p i [-] x), delta >>)).
    - rewrite RS_sub, RS_sub, RS_add, RS_sub, !RS_scal, Sw, <- !inner_VS_l, Hzo. fold eb. rewrite (inner_sym eb delta). unfold norm2 at 3. ring.
    - intros i _. unfold Q. rewrite !inner_scal_l, (inner_sym (p i [-] x) delta). ring. }
  rewrite HQ in H.
  pose proof (cocoercive F dF L xo x HL Hs) as Hco. fold delta a in Hco.
  pose proof (jensen m w (fun i => p i [-] x) (fun i Hi => Rlt_le _ _ (Hw i Hi)) Sw) as Hj. cbv beta in Hj. fold eb in Hj.
  (* Young *)
  pose proof (norm2_nonneg (2 [*] delta [+] L [*] eb)) as Hy.
  rewrite norm2_add in Hy. rewrite !norm2_scal, inner_scal_l, inner_scal_r in Hy.
  assert (Hy' : - (L * (<< delta, eb >> + << delta, a >>)) <= L * L / 4 * norm2 eb) by lra.
  assert (Hy2 : - (<< delta, eb >> + << delta, a >>) <= L / 4 * norm2 eb).
  { apply (Rmult_le_reg_l L); auto. lra. }
  assert (Hy3 : - (<< delta, eb >> + << delta, a >>) <= L / 4 * RS m (fun i => w i * norm2 (p i [-] x))).
  { apply Rle_trans with (1 := Hy2). apply Rmult_le_compat_l; lra. }
  assert (Ht2 : 0 <= 2 * eta * tau) by nra.
  pose proof (Rmult_le_compat_l _ _ _ Ht2 Hy3) as Hfin. lra.
Qed.

(** fixed points *)
Lemma gpg_fixed m g (F : E -> R) dF w eps tau eta x (z p z' : nat -> E) : (forall i, (i < m)%nat -> convex (g i)) ->
  (forall u y, F u + << dF u, y [-] u >> <= F y) -> (forall i, (i < m)%nat -> 0 < w i) -> RS m w = 1 ->
  (forall i, (i < m)%nat -> 0 < eps i) -> 0 < tau -> eta <> 0 -> x = VS m (fun i => w i [*] z i) ->
  (forall i, (i < m)%nat -> is_prox (g i) (tau * eps i / w i) (2 [*] x [-] z i [-] tau [*] dF x) (p i)) ->
  (forall i, (i < m)%nat -> z i = z i [+] eta [*] (p i [-] x)) ->
  is_min (eadd (etot F) (esum m (fun i => escal (eps i) (g i)))) x.
Proof.
  intros Hc HF Hw Sw He Ht Het Hx Hp Hfix.
  assert (Hpx : forall i, (i < m)%nat -> p i = x).
  { intros i Hi. apply vsub_eq. pose proof (f_equal (fun u => / eta [*] (u [-] z i)) (Hfix i Hi)) as H. cbv beta in H.
    replace (/ eta [*] (z i [-] z i)) with (vzero : E) in H by vring. rewrite H. vfield. auto. }
  assert (Hsg : is_subgrad (esum m (fun i => escal (eps i) (g i))) x (vopp (dF x))).
  { replace (vopp (dF x)) with (VS m (fun i => eps i [*] (/ (tau * eps i / w i) [*] (x [-] z i [-] tau [*] dF x)))).
    - apply esum_subgrad. intros i Hi. specialize (Hw i Hi). specialize (He i Hi). apply eq_scal_subgrad; auto.
      assert (Hs : 0 < tau * eps i / w i) by (apply Rdiv_lt_0_compat; auto; nra).
      pose proof (prox_subgrad (g i) _ _ _ (Hc i Hi) Hs (Hp i Hi)) as Hg. rewrite (Hpx i Hi) in Hg.
      replace (/ eps i [*] (eps i [*] (/ (tau * eps i / w i) [*] (x [-] z i [-] tau [*] dF x)))) with (/ (tau * eps i / w i) [*] (2 [*] x [-] z i [-] tau [*] dF x [-] x)); [exact Hg|].
      vfield. repeat split; lra.
    - rewrite (VS_ext m _ (fun i => / tau [*] (w i [*] (x [-] tau [*] dF x) [-] w i [*] z i))).
      + rewrite VS_scal, VS_sub, VS_wconst, Sw, <- Hx. vfield. lra.
      + intros i Hi. specialize (Hw i Hi). specialize (He i Hi). vfield. repeat split; lra. }
  destruct Hsg as [Hd Hsub]. split; [split; [exact I|exact Hd]|]. intros y [_ Hy]. specialize (Hsub y Hy). specialize (HF x y).
  cbn [eval eadd etot] in *. rewrite inner_opp_l in Hsub. lra.
Qed.
End G.


(*! C55_gpg : smooth convex f_i (total Lipschitz constant at most L), m >= 1 convex g_j, positive eps_j (one for all, or one
   each), weights summing to one (over the reals) or default, tau > 0 (None meaning 1), known acceleration.  The run never raises and
   follows the documented recursion; x is the weighted mean of the z_j at every iteration; an iteration with y = x that leaves every
   z_j unchanged is at a minimiser of sum f_i + sum eps_j g_j; without acceleration y = x always, and for every solution with
   multipliers D_k = sum_j w_j |z_j - zo_j|^2 decreases by at least eta (2 - eta - tau L/2) sum_j w_j |p_j - x|^2, bounding |x_k - xo|^2 *)
Lemma C55_gpg_l : forall (E : IPS) (fs gs : list (Op E)) f df L Lt (g : nat -> efun E) x0 tau epsg weights eta niter accel,
  let m := List.length gs in let nf := List.length fs in
  let w := nthr (ppxa_weights weights m) in let eps := nthr (gpg_eps epsg m) in let t := match tau with None => 1 | Some t => t end in
  let F := fun x => RS nf (fun i => f i x) in let dF := fun x => VS nf (fun i => df i x) in
  smooth_all fs f df L -> RS nf L <= Lt -> 0 < Lt -> impl_all gs g -> (forall i, (i < m)%nat -> convex (g i)) -> (0 < m)%nat -> 0 < t -> 0 < eta ->
  good_weights weights m -> List.length (gpg_eps epsg m) = m -> (forall i, (i < m)%nat -> 0 < eps i) -> accel_known accel = true ->
  exists xs ys zs ps, GeneralizedProximalGradient fs gs x0 tau epsg weights eta niter accel = Ok (xs niter, map xs (seq 1 niter)) /\
    xs 0%nat = x0 /\ ys 0%nat = x0 /\ (forall i, (i < m)%nat -> zs 0%nat i = x0) /\
    gpg_doc m g dF w eps t eta (omega_seq accel) xs ys zs ps niter /\
    (forall j, (j <= niter)%nat -> xs j = VS m (fun i => w i [*] zs j i)) /\
    (forall j, (j < niter)%nat -> ys j = xs j -> (forall i, (i < m)%nat -> zs (S j) i = zs j i) ->
       is_min (eadd (etot F) (esum m (fun i => escal (eps i) (g i)))) (xs j)) /\
    (accel = None -> (forall j, (j <= niter)%nat -> ys j = xs j) /\
       forall xo v, gpg_kkt m g dF eps xo v ->
         let D := fun j => RS m (fun i => w i * norm2 (zs j i [-] (xo [-] t [*] dF xo [-] (t * eps i / w i) [*] v i))) in
         (forall j, (j <= niter)%nat -> norm2 (xs j [-] xo) <= D j) /\
         (forall j, (j < niter)%nat -> D (S j) + eta * (2 - eta - t * Lt / 2) * RS m (fun i => w i * norm2 (ps j i [-] xs j)) <= D j)).
Proof.
  intros E fs gs f df L Lt g x0 tau epsg weights eta niter accel m nf w eps t F dF Hf HLt HLp Hg Hc Hm Ht Het Hgw Le He Ha.
  destruct (weights_facts weights m Hm Hgw) as [Lw [Pw Sw]].
  destruct (gpg_run fs gs f df L g t (gpg_eps epsg m) (ppxa_weights weights m) eta accel x0 niter Hf Hg Ht Le Lw He Pw) as [xs [ys [zs [ps [tt [E1 [X0 [Y0 [Z0 Hd]]]]]]]]].
  fold m nf in E1, Z0, Hd. fold w in Hd, Pw, Sw. fold eps in Hd. fold dF in Hd.
  assert (Hsm : smooth_convex F dF Lt).
  { apply (smooth_convex_weaken _ _ (RS nf L)); auto. apply smooth_convex_sum. intros i Hi. destruct (nth_error fs i) as [o|] eqn:Eo.
    - destruct (Hf i o Eo) as [_ [_ [H1 [_ H2]]]]. apply L_smooth_convex; auto.
    - apply nth_error_None in Eo. unfold nf in Hi. lia. }
  assert (Hmean : forall j, (j <= niter)%nat -> xs j = VS m (fun i => w i [*] zs j i)).
  { intros j Hj. destruct j as [|j].
    - rewrite X0. rewrite (VS_ext m _ (fun i => w i [*] x0)) by (intros i Hi; rewrite Z0; auto). rewrite VS_wconst, Sw. vring.
    - apply (Hd j Hj). }
  exists xs, ys, zs, ps. split; [|split; [exact X0|split; [exact Y0|split; [exact Z0|split; [exact Hd|split; [exact Hmean|split]]]]]].
  - unfold GeneralizedProximalGradient. fold m. change (match weights with None => repeat (1 / INR m) m | Some w => w end) with (ppxa_weights weights m).
    change (match epsg with [e] => repeat e m | _ => epsg end) with (gpg_eps epsg m). rewrite Lw, Nat.eqb_refl.
    assert (Hr : Reqb (Rsum (ppxa_weights weights m)) 1 = true) by (apply Reqb_true; rewrite Rsum_RS, Lw; exact Sw).
    rewrite Hr, Ha. cbn [andb negb]. fold t. rewrite E1. reflexivity.
  - intros j Hj Hyx Hz. destruct (Hd j Hj) as [H1 [H2 H3]].
    apply (gpg_fixed m g F dF w eps t eta (xs j) (zs j) (ps j) (zs (S j))); auto.
    + intros u y. apply Hsm.
    + lra.
    + apply Hmean; lia.
    + intros i Hi. rewrite <- Hyx at 1. apply H1; auto.
    + intros i Hi. destruct (H1 i Hi) as [_ H4]. rewrite (Hz i Hi), Hyx in H4. exact H4.
  - intros ->. assert (Hyx : forall j, (j <= niter)%nat -> ys j = xs j).
    { intros j Hj. destruct j as [|j]; [congruence|]. destruct (Hd j Hj) as [_ [_ ->]]. cbn. vring. }
    split; [exact Hyx|]. intros xo v Hk D. split.
    + intros j Hj. replace (xs j [-] xo) with (VS m (fun i => w i [*] (zs j i [-] (xo [-] t [*] dF xo [-] (t * eps i / w i) [*] v i)))).
      * apply jensen; auto. intros i Hi; left; auto.
      * rewrite (VS_ext m _ (fun i => w i [*] zs j i [-] w i [*] (xo [-] t [*] dF xo) [+] t [*] (eps i [*] v i))).
        -- rewrite VS_add, VS_sub, VS_wconst, VS_scal, Sw, <- Hmean by auto. replace (VS m (fun i => eps i [*] v i)) with ((-1) [*] dF xo); [vring|].
           symmetry. apply vsub_eq. rewrite <- (proj2 Hk). vring.
        -- intros i Hi. specialize (Pw i Hi). vfield. lra.
    + intros j Hj. destruct (Hd j Hj) as [H1 [H2 H3]]. rewrite (Hyx j ltac:(lia)) in H1.
      apply (gpg_fejer m g F dF Lt w eps t eta (xs j) (zs j) (ps j) (zs (S j)) xo v); auto.
      * apply Hmean; lia.
      * intros i Hi. apply H1; auto.
      * intros i Hi. apply H1; auto.
Qed.

(*! C55_default_weights_refuted : in binary64 the default weights 1/n are accepted for n = 1..5 but rejected with a ValueError for
   n = 6 and n = 7, because their floating-point sum is not 1 *)
Lemma C55_default_weights_refuted_l :
  (forall n, (1 <= n <= 5)%nat -> gpg_default_accepted n = true) /\ gpg_default_accepted 6 = false /\ gpg_default_accepted 7 = false.
Proof.
  split; [|split; reflexivity]. intros n Hn. destruct n as [|[|[|[|[|[|n]]]]]]; try lia; reflexivity.
Qed.

(*! C55_weights_rejected : weights of the wrong length, or not summing to one, always raise ValueError *)
Lemma C55_weights_rejected_l : forall (E : IPS) (fs gs : list (Op E)) x0 tau epsg w eta niter accel,
  List.length w <> List.length gs \/ Rsum w <> 1 ->
  GeneralizedProximalGradient fs gs x0 tau epsg (Some w) eta niter accel = Err ValueError.
Proof.
  intros E fs gs x0 tau epsg w eta niter accel H. unfold GeneralizedProximalGradient.
  destruct (Nat.eqb_spec (List.length w) (List.length gs)) as [H1|H1]; [|reflexivity]. cbn [andb].
  destruct (Reqb (Rsum w) 1) eqn:Er; [|reflexivity]. apply Reqb_true in Er. tauto.
Qed.

(*! C55_eta_ignored_refuted : the documentation says eta is only used without acceleration; with acceleration "fista" the result
   still depends on eta (f = x^2/2, g = 0, x0 = 1, tau = 1/2, one iteration: result 1 - eta/2) *)
Lemma C55_eta_ignored_refuted_l : forall eta,
  GeneralizedProximalGradient [quad1 1] [zero1] (1 : R_IPS) (Some (1/2)) [1] None eta 1 (Some "fista"%string) = Ok (1 - eta / 2, [1 - eta / 2]).
Proof.
  intro eta. unfold GeneralizedProximalGradient. cbn [List.length repeat]. replace (1 / INR 1) with 1 by (simpl; field).
  assert (Hr : Reqb (Rsum [1]) 1 = true) by (apply Reqb_true; simpl; ring). rewrite Hr. cbn [Nat.eqb andb negb accel_known String.eqb Ascii.eqb Bool.eqb orb].
  cbn [for_loop]. unfold gpg_body at 1. cbn [grad_all gpg_zs]. rewrite pydiv_ok by lra. cbn -[Rdiv Rmult Rplus Ropp sqrt].
  f_equal. f_equal; [cbn; field|]. f_equal. cbn. field.
Qed.

(*!ex C55_example : f = x^2/2, g_1 = (x-1)^2/2, g_2 = x^2/2 with weights (1/4, 3/4), eps = 1 meet the hypotheses of C55_gpg; the solution is 1/3 *)
Lemma C55_example_l : let gs := [shifted1; quad1 1] in let m := List.length gs in
  smooth_all [quad1 1] (fun _ (x : R_IPS) => 1 / 2 * (x * x)) (fun _ (x : R_IPS) => 1 * x) (fun _ => 1) /\ RS 1 (fun _ => 1) <= 1 /\
  impl_all gs (sh_quad 1) /\ (forall i, (i < m)%nat -> convex (sh_quad 1 i)) /\ good_weights (Some [1/4; 3/4]) m /\
  List.length (gpg_eps [1] m) = m /\ (forall i, (i < m)%nat -> 0 < nthr (gpg_eps [1] m) i) /\
  gpg_kkt m (sh_quad 1) (fun x : R_IPS => VS 1 (fun _ => (1 * x : R_IPS))) (nthr (gpg_eps [1] m)) (1/3 : R_IPS) (fun i => match i with O => -(2/3) | _ => 1/3 end).
Proof.
  intros gs m. split.
  { intros i o H. destruct i as [|i]; simpl in H; [injection H as <-; apply (quad1_smooth 1); lra|destruct i; discriminate]. }
  split; [simpl; lra|]. split; [apply sh_quad_impl; lra|]. split; [apply sh_quad_convex; lra|]. split.
  { split; [reflexivity|]. split; [|simpl; field]. intros i Hi. destruct i as [|[|i]]; cbn; try lra. unfold m, gs in Hi. simpl in Hi. lia. }
  split; [reflexivity|]. split.
  { intros i Hi. destruct i as [|[|i]]; cbn; try lra. unfold m, gs in Hi. simpl in Hi. lia. }
  split.
  - intros i Hi. destruct i as [|[|i]]; [| |unfold m, gs in Hi; simpl in Hi; lia]; (split; [exact I|]); intros y _; cbn; pose proof (Rle_0_sqr (y - 1/3)); unfold Rsqr in *; nra.
  - cbn. field.
Qed.
