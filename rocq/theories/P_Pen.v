(** * Proofs about the entrywise penalties (M_Pen.v) *)
From Verif Require Import Base Space Spec ConvexFacts Sep M_ProxOp SpecOps P_ProxOp M_L1 P_L1 M_Pen.
From Coq Require Import Psatz Rtrigo1 Ratan Rpower Ranalysis.
From Verif Require Export S_Pen.
Open Scope result_scope.


Lemma sprox_unfold phi tau a p : 0 < tau ->
  sprox phi tau a p <-> forall y, tau * phi p + (p - a) * (p - a) / 2 <= tau * phi y + (y - a) * (y - a) / 2.
Proof.
  intro Ht. unfold sprox, is_prox. assert (Hi : 0 < / tau) by (apply Rinv_0_lt_compat; auto).
  assert (H : forall y : R, phi y + / (2 * tau) * norm2 ((y : R_IPS) [-] a) = / tau * (tau * phi y + (y - a) * (y - a) / 2)).
  { intro y. unfold norm2, vsub; simpl. field; lra. }
  cbn [edom eval etot]. split.
  - intros [_ H1] y. specialize (H1 y I). rewrite !H in H1. apply Rmult_le_reg_l in H1; auto.
  - intros H1; split; [exact I|]. intros y _. rewrite !H. apply Rmult_le_compat_l; [lra|]. auto.
Qed.

Lemma sumf_prox {n} phi tau T (x : Vec n) : (forall a, In a (proj1_sig (x : nlist R n)) -> sprox phi tau a (T a)) ->
  is_prox (etot (sumf phi)) tau x (vmap T x : Vec n).
Proof.
  intro H. set (f := etot (E:=R_IPS) phi).
  apply (is_prox_ext (E:=Vec n) (esep (repeat f n) n)).
  - intros [y Hy]. simpl. split; auto. intros _. clear. revert y; induction n; intros [|b y]; simpl; auto.
  - intros [y Hy] _. unfold sumf. simpl. clear -Hy. subst n. induction y as [|b y IH]; [reflexivity|].
    exact (f_equal2 Rplus eq_refl IH).
  - apply sep_prox. destruct x as [x Hx]. simpl in *. subst n. apply pw3_map. intros b Hb. apply H; auto.
Qed.

(** If a vector is a proximal point of a sum, every entry is one. *)
Lemma sumf_prox_inv {n} phi tau (x p : Vec n) : 0 < tau -> is_prox (etot (sumf phi)) tau x p ->
  Forall2 (sprox phi tau) (proj1_sig (x : nlist R n)) (proj1_sig (p : nlist R n)).
Proof.
  intros Ht [_ H]. cbn [eval etot edom] in H.
  assert (H' : forall y : list R, length y = n ->
    Rsum (map phi (proj1_sig (p : nlist R n))) + / (2 * tau) * ldist2 (E:=R_IPS) (proj1_sig (p : nlist R n)) (proj1_sig (x : nlist R n)) <=
    Rsum (map phi y) + / (2 * tau) * ldist2 (E:=R_IPS) y (proj1_sig (x : nlist R n))).
  { intros y Hy. specialize (H (exist _ y Hy) I). rewrite !(Pow_dist2 (E:=R_IPS)) in H. exact H. }
  clear H. destruct x as [x Hx], p as [p Hp]. simpl in *.
  assert (Hl : length p = length x) by exact (eq_trans Hp (eq_sym Hx)).
  assert (H2 : forall y : list R, length y = length x ->
    Rsum (map phi p) + / (2 * tau) * ldist2 (E:=R_IPS) p x <= Rsum (map phi y) + / (2 * tau) * ldist2 (E:=R_IPS) y x).
  { intros y Hy. apply H'. exact (eq_trans Hy Hx). }
  clear H' Hx Hp n. revert p Hl H2; induction x as [|a x IH]; intros [|q p] Hl H2; simpl in Hl; try discriminate; constructor.
  - split; [exact I|]. intros y _. specialize (H2 (y :: p) ltac:(simpl; lia)). cbn [map Rsum ldist2 eval etot] in *.
    rewrite !Rmult_plus_distr_l in H2. lra.
  - apply IH; [lia|]. intros y Hy. specialize (H2 (q :: y) ltac:(simpl; lia)). cbn [map Rsum ldist2] in *.
    rewrite !Rmult_plus_distr_l in H2. lra.
Qed.

Lemma sep_call_ok {n} fuel elem pr : impl_call (obj fuel (sep_body (n:=n) elem pr)) (etot (sumf elem)).
Proof. intros x _. reflexivity. Qed.

Lemma sep_prox_ok {n} fuel elem phi pr (x : Vec n) tau : 0 < tau ->
  (forall a, In a (proj1_sig (x : nlist R n)) -> sprox phi tau a (pr tau a)) ->
  exists p, o_prox (obj (S fuel) (sep_body (n:=n) elem pr)) x tau = Ok p /\ is_prox (etot (sumf phi)) tau x p.
Proof.
  intros Ht H. simpl. rewrite check_tau_pos by auto. eexists; split; [reflexivity|]. apply sumf_prox; auto.
Qed.

Lemma sep_prox_bad {n} fuel elem phi pr (x : Vec n) tau a : 0 < tau ->
  In a (proj1_sig (x : nlist R n)) -> ~ sprox phi tau a (pr tau a) ->
  exists p, o_prox (obj (S fuel) (sep_body (n:=n) elem pr)) x tau = Ok p /\ ~ is_prox (etot (sumf phi)) tau x p.
Proof.
  intros Ht Hin Hb. simpl. rewrite check_tau_pos by auto. eexists; split; [reflexivity|].
  intro H. apply Hb. apply sumf_prox_inv in H; auto. destruct x as [x Hx]; simpl in *.
  clear Hx. induction x as [|b x IH]; simpl in *; [contradiction|]. inversion H; subst.
  destruct Hin as [->|Hin]; auto.
Qed.

(** Even penalties: solve on the half line, then restore the sign. *)
Lemma even_prox phi tau a p : 0 < tau -> (forall y, phi y = phi (Rabs y)) -> 0 <= p ->
  (a = 0 -> p = 0) ->
  (forall z, 0 <= z -> tau * phi p + (p - Rabs a) * (p - Rabs a) / 2 <= tau * phi z + (z - Rabs a) * (z - Rabs a) / 2) ->
  sprox phi tau a (p * sgn a).
Proof.
  intros Ht He Hp H0 H. apply sprox_unfold; auto. intro y.
  assert (H1 : phi (p * sgn a) = phi p /\ (p * sgn a - a) * (p * sgn a - a) = (p - Rabs a) * (p - Rabs a)).
  { destruct (Rtotal_order a 0) as [Ha|[->|Ha]].
    - rewrite sgn_neg, Rabs_left by auto. rewrite He, (He p). replace (p * -1) with (- p) by ring. rewrite Rabs_Ropp. split; auto. ring.
    - rewrite H0 by auto. rewrite Rabs_R0. split; [f_equal; ring | ring].
    - rewrite sgn_pos, Rabs_right by lra. rewrite Rmult_1_r. auto. }
  destruct H1 as [H1 H2]. rewrite H1, H2. rewrite (He y).
  eapply Rle_trans; [apply (H (Rabs y)), Rabs_pos|].
  assert ((Rabs y - Rabs a) * (Rabs y - Rabs a) <= (y - a) * (y - a)); [|lra].
  pose proof (Rabs_triang_inv2 y a). rewrite <- (Rabs_pos_eq ((Rabs y - Rabs a) * (Rabs y - Rabs a))) by apply Rle_0_sqr.
  rewrite Rabs_mult. rewrite <- (Rabs_pos_eq ((y - a) * (y - a))) by apply Rle_0_sqr. rewrite Rabs_mult.
  apply Rmult_le_compat; auto; apply Rabs_pos.
Qed.

Lemma even_prox_l phi tau a p : 0 < tau -> (forall y, phi y = phi (Rabs y)) -> 0 <= p ->
  (a = 0 -> p = 0) ->
  (forall z, 0 <= z -> tau * phi p + (p - Rabs a) * (p - Rabs a) / 2 <= tau * phi z + (z - Rabs a) * (z - Rabs a) / 2) ->
  sprox phi tau a (sgn a * p).
Proof. intros. rewrite Rmult_comm. apply even_prox; auto. Qed.

Lemma Rabs2 a : Rabs a * Rabs a = a * a.
Proof. rewrite <- Rabs_mult. apply Rabs_pos_eq. nra. Qed.

(** ** Huber *)
(*! C20_huber_call : Huber.call is the sum of the Huber function: a^2/(2 alpha) for |a| <= alpha, |a| - alpha/2 above *)
Lemma C20_huber_call_l : forall n fuel alpha, 0 < alpha ->
  impl_call (obj fuel (sep_body (n:=n) (huber_elem alpha) (huber_pr alpha)))
    (etot (sumf (fun a => if Rle_dec (Rabs a) alpha then a * a / (2 * alpha) else Rabs a - alpha / 2))).
Proof.
  intros n fuel alpha Ha x _. simpl. unfold d_call; simpl. do 2 f_equal. unfold sumf. f_equal. apply map_ext. intro a.
  unfold huber_elem. destruct (Rltb_spec alpha (Rabs a)) as [[H ->]|[H ->]]; destruct (Rle_dec (Rabs a) alpha); try lra.
  rewrite Rabs2. auto.
Qed.

Lemma huber_scalar_ok alpha tau a : 0 < alpha -> 0 < tau -> (Rabs a <= alpha \/ alpha + tau <= Rabs a) ->
  sprox (huber_elem alpha) tau a (huber_pr alpha tau a).
Proof.
  intros Hal Ht Hb.
  assert (He : forall y, huber_elem alpha y = huber_elem alpha (Rabs y)) by (intro y; unfold huber_elem; rewrite Rabs_Rabsolu; auto).
  assert (Hq : forall z, 0 <= z -> huber_elem alpha z = if Rle_dec z alpha then z * z / (2 * alpha) else z - alpha / 2).
  { intros z Hz. unfold huber_elem. rewrite Rabs_pos_eq by auto.
    destruct (Rltb_spec alpha z) as [[H ->]|[H ->]]; destruct (Rle_dec z alpha); auto; lra. }
  pose proof (Rabs_pos a) as Hp. set (m := Rabs a) in *.
  assert (Hia : 0 < / alpha) by (apply Rinv_0_lt_compat; auto).
  assert (Hlow : forall z, 0 <= z -> huber_elem alpha z >= z - alpha / 2).
  { intros z Hz. rewrite Hq by auto. destruct (Rle_dec z alpha); [|lra].
    replace (z * z / (2 * alpha)) with (z - alpha / 2 + (z - alpha) * (z - alpha) * (/ alpha / 2)) by (field; lra).
    pose proof (Rle_0_sqr (z - alpha)). unfold Rsqr in *. nra. }
  unfold huber_pr. fold m. destruct (Rltb_spec alpha m) as [[H ->]|[H ->]].
  - destruct Hb as [Hb|Hb]; [lra|]. replace (tau * 1) with tau by ring.
    unfold soft. fold m. rewrite Rmax_left by lra. apply even_prox; auto; fold m; [lra|intro; subst a; unfold m in *; rewrite Rabs_R0 in *; lra|].
    intros z Hz. specialize (Hlow z Hz). rewrite (Hq (m - tau)) by lra.
    assert (tau * huber_elem alpha z >= tau * (z - alpha / 2)) by nra.
    destruct (Rle_dec (m - tau) alpha).
    + assert (m - tau = alpha) by lra. replace m with (alpha + tau) in * by lra.
      replace ((alpha + tau - tau) * (alpha + tau - tau) / (2 * alpha)) with (alpha / 2) by (field; lra).
      pose proof (Rle_0_sqr (z - alpha)). unfold Rsqr in *. nra.
    + pose proof (Rle_0_sqr (z - (m - tau))). unfold Rsqr in *. nra.
  - replace (a / (1 + tau * (1 / alpha))) with (m / (1 + tau / alpha) * sgn a).
    2:{ rewrite <- (sgn_abs a) at 2. fold m. field; split; try lra; nra. }
    assert (Hd : 0 < 1 + tau / alpha) by (assert (0 < tau / alpha) by (apply Rdiv_lt_0_compat; auto); lra).
    assert (Hpp : 0 <= m / (1 + tau / alpha)) by (apply Rmult_le_pos; auto; left; apply Rinv_0_lt_compat; auto).
    set (p := m / (1 + tau / alpha)) in *.
    assert (Hpm : p * (1 + tau / alpha) = m) by (unfold p; field; split; [lra|nra]).
    assert (Htal : 0 < tau / alpha) by (apply Rdiv_lt_0_compat; auto).
    assert (Hpa : p <= alpha) by nra.
    apply even_prox; auto; fold m.
    { intro; subst a. unfold p, m. rewrite Rabs_R0. unfold Rdiv; ring. }
    intros z Hz. rewrite (Hq p) by auto. destruct (Rle_dec p alpha); [|lra].
    (* tangent bound: huber z >= p^2/(2 alpha) + (p/alpha)(z-p) *)
    assert (Ht1 : huber_elem alpha z >= p * p / (2 * alpha) + p / alpha * (z - p)).
    { rewrite Hq by auto. destruct (Rle_dec z alpha).
      - replace (z * z / (2 * alpha)) with (p * p / (2 * alpha) + p / alpha * (z - p) + (z - p) * (z - p) * (/ alpha / 2)) by (field; lra).
        pose proof (Rle_0_sqr (z - p)). unfold Rsqr in *. nra.
      - replace (p * p / (2 * alpha) + p / alpha * (z - p)) with
          (z - alpha / 2 - (alpha - p) * (2 * z - p - alpha) * (/ alpha / 2)) by (field; lra).
        assert (0 <= (alpha - p) * (2 * z - p - alpha)) by nra. nra. }
    assert (Hm' : m - p = tau * (p / alpha)) by (rewrite <- Hpm; field; lra).
    assert (tau * huber_elem alpha z >= tau * (p * p / (2 * alpha)) + (m - p) * (z - p)).
    { rewrite Hm'. nra. }
    pose proof (Rle_0_sqr (z - p)). unfold Rsqr in *. nra.
Qed.

Lemma huber_scalar_bad alpha tau a : 0 < alpha -> 0 < tau -> alpha < Rabs a < alpha + tau ->
  ~ sprox (huber_elem alpha) tau a (huber_pr alpha tau a).
Proof.
  intros Hal Ht Hb H. rewrite sprox_unfold in H by auto.
  (* competitor: the true prox a * alpha/(alpha+tau) *)
  specialize (H (a * (alpha / (alpha + tau)))).
  unfold huber_pr in H. destruct (Rltb_spec alpha (Rabs a)) as [[_ Hr]|[? _]]; [|lra]. rewrite Hr in H.
  replace (tau * 1) with tau in H by ring.
  set (m := Rabs a) in *.
  assert (Hq : 0 < alpha / (alpha + tau)) by (apply Rdiv_lt_0_compat; lra).
  assert (Hq1 : alpha / (alpha + tau) * (alpha + tau) = alpha) by (field; lra).
  set (c := alpha / (alpha + tau)) in *.
  assert (Hc1 : c < 1) by nra.
  assert (Hmc : Rabs (a * c) = m * c) by (rewrite Rabs_mult, (Rabs_pos_eq c) by lra; auto).
  assert (Hh : huber_elem alpha (a * c) = (m * c) * (m * c) / (2 * alpha)).
  { unfold huber_elem. rewrite Hmc. destruct (Rltb_spec alpha (m * c)) as [[Hx _]|[_ ->]]; auto.
    assert (m * c <= (alpha + tau) * c) by nra. lra. }
  rewrite Hh in H.
  assert (Hs : Rabs (soft tau a) = Rmax (m - tau) 0).
  { unfold soft. fold m. rewrite Rabs_mult. rewrite (Rabs_pos_eq (Rmax _ _)) by apply Rmax_r.
    destruct (Rtotal_order a 0) as [Ha|[Ha|Ha]].
    - rewrite sgn_neg by auto. rewrite (Rabs_left (-1)) by lra. ring.
    - subst a. unfold m in *. rewrite Rabs_R0 in *. lra.
    - rewrite sgn_pos, Rabs_R1 by auto. ring. }
  assert (Hd : (soft tau a - a) * (soft tau a - a) = (Rmax (m - tau) 0 - m) * (Rmax (m - tau) 0 - m)).
  { unfold soft. fold m. destruct (Rtotal_order a 0) as [Ha|[Ha|Ha]].
    - rewrite sgn_neg by auto. unfold m. rewrite (Rabs_left a) by auto. ring.
    - subst a. unfold m in *. rewrite Rabs_R0 in *. lra.
    - rewrite sgn_pos by auto. unfold m. rewrite (Rabs_right a) by lra. ring. }
  assert (Hd2 : (a * c - a) * (a * c - a) = (m * c - m) * (m * c - m)).
  { unfold m. replace ((Rabs a * c - Rabs a) * (Rabs a * c - Rabs a)) with (Rabs a * Rabs a * ((c - 1) * (c - 1))) by ring.
    rewrite Rabs2. ring. }
  rewrite Hd, Hd2 in H. unfold huber_elem in H. rewrite Hs in H.
  assert (Hin : Rmax (m - tau) 0 <= alpha) by (apply Rmax_lub; lra).
  destruct (Rltb_spec alpha (Rmax (m - tau) 0)) as [[? _]|[_ Hr2]]; [lra|]. rewrite Hr2 in H.
  set (s := Rmax (m - tau) 0) in *.
  (* strict convexity of the quadratic branch: minimiser is m c, s <> m c *)
  assert (Hid : forall z, tau * (z * z / (2 * alpha)) + (z - m) * (z - m) / 2 =
     tau * ((m * c) * (m * c) / (2 * alpha)) + (m * c - m) * (m * c - m) / 2 + (alpha + tau) / (2 * alpha) * ((z - m * c) * (z - m * c))).
  { intro z. unfold c. field. split; lra. }
  rewrite Hid in H.
  assert (Hne : s <> m * c).
  { intro E. unfold s in E. unfold Rmax in E. destruct (Rle_dec (m - tau) 0).
    - nra.
    - assert (m - tau < m * c); [|lra].
      assert (m * (1 - c) < tau); [|lra]. assert (tau = (alpha + tau) * (1 - c)) by lra. nra. }
  assert (0 < (alpha + tau) / (2 * alpha)) by (apply Rdiv_lt_0_compat; lra).
  assert (0 < (s - m * c) * (s - m * c)) by (assert (s - m * c <> 0) by lra; nra). nra.
Qed.

(*! C20_huber_exact_iff : Huber.prox is the exact proximal point of the Huber function at x exactly when no entry of
   x lies in the open band alpha < |x_i| < alpha + tau; whenever one does, the returned vector is not a minimiser *)
Lemma C20_huber_exact_iff_l : forall n fuel alpha tau (x : Vec n), 0 < alpha -> 0 < tau ->
  exists p, o_prox (obj (S fuel) (sep_body (n:=n) (huber_elem alpha) (huber_pr alpha))) x tau = Ok p /\
    (is_prox (etot (sumf (huber_elem alpha))) tau x p <->
     forall a, In a (proj1_sig (x : nlist R n)) -> ~ (alpha < Rabs a < alpha + tau)).
Proof.
  intros n fuel alpha tau x Ha Ht. simpl. rewrite check_tau_pos by auto. eexists; split; [reflexivity|]. split.
  - intros H a Hin Hb. destruct (sep_prox_bad fuel (huber_elem alpha) (huber_elem alpha) (huber_pr alpha) x tau a Ht Hin
      (huber_scalar_bad _ _ _ Ha Ht Hb)) as [p [H1 H2]].
    simpl in H1. rewrite check_tau_pos in H1 by auto. injection H1 as <-. auto.
  - intro H. apply sumf_prox. intros a Hin. specialize (H a Hin). apply huber_scalar_ok; auto. lra.
Qed.

(*! C20_huber_refuted : concrete failure: alpha = 1, tau = 1, x = 3/2 gives 1/2 where the minimiser is 3/4 *)
Lemma C20_huber_refuted_l :
  huber_pr 1 1 (3/2) = 1/2 /\ ~ sprox (huber_elem 1) 1 (3/2) (1/2) /\ sprox (huber_elem 1) 1 (3/2) (3/4).
Proof.
  assert (E : huber_pr 1 1 (3/2) = 1/2).
  { unfold huber_pr. rewrite (Rabs_right (3/2)) by lra. destruct (Rltb_spec 1 (3/2)) as [[_ ->]|[? _]]; [|lra].
    destruct (soft_cases (1 * 1) (3/2) ltac:(lra)) as [[_ ->]|[[? _]|[? _]]]; lra. }
  split; auto. split.
  - rewrite <- E. apply huber_scalar_bad; try lra. rewrite Rabs_right; lra.
  - apply sprox_unfold; [lra|]. intro y. unfold huber_elem. rewrite (Rabs_right (3/4)) by lra.
    destruct (Rltb_spec 1 (3/4)) as [[? _]|[_ ->]]; [lra|].
    destruct (Rltb_spec 1 (Rabs y)) as [[H ->]|[H ->]].
    + pose proof (Rle_abs y). pose proof (Rle_0_sqr (y - 3/2)). unfold Rsqr in *.
      assert (Rabs y = y \/ Rabs y = - y) by (unfold Rabs; destruct (Rcase_abs y); auto). destruct H2; nra.
    + rewrite Rabs2. pose proof (Rle_0_sqr (y - 3/4)). unfold Rsqr in *. nra.
Qed.

(** ** L0 *)

Lemma hard_prox sigma tau t a : 0 <= sigma -> 0 < tau -> 0 <= t -> t * t = 2 * tau * sigma ->
  sprox (fun a => if Req_EM_T a 0 then 0 else sigma) tau a (hard t a).
Proof.
  intros Hs Ht Htt E. apply sprox_unfold; auto. intro y. unfold hard.
  pose proof (Rle_0_sqr (y - a)) as Hy. unfold Rsqr in Hy. pose proof (Rabs2 a). pose proof (Rabs_pos a).
  destruct (Rleb_spec (Rabs a) t) as [[H1 ->]|[H1 ->]].
  - destruct (Req_EM_T 0 0); [|lra]. assert (a * a <= 2 * tau * sigma) by (rewrite <- E, <- H; apply Rmult_le_compat; lra).
    destruct (Req_EM_T y 0) as [->|]; nra.
  - assert (2 * tau * sigma < a * a) by (rewrite <- E, <- H; nra).
    destruct (Req_EM_T a 0) as [->|]; [rewrite Rabs_R0 in H1; lra|].
    destruct (Req_EM_T y 0) as [->|]; nra.
Qed.

(*! C27_call : L0.call is the number of non-zero entries (sigma is not applied) *)
Lemma C27_call_l : forall n fuel sigma,
  impl_call (obj fuel (sep_body (n:=n) l0_elem (l0_pr sigma))) (etot (card_fun 1)).
Proof.
  intros n fuel sigma x _. simpl. unfold d_call; simpl. unfold card_fun, sumf. do 3 f_equal. apply map_ext. intro a.
  unfold l0_elem. destruct (Rltb_spec 0 (Rabs a)) as [[H ->]|[H ->]]; destruct (Req_EM_T a 0) as [E|E]; auto.
  - subst; rewrite Rabs_R0 in H; lra.
  - apply Rabs_pos_lt in E; lra.
Qed.

(*! C27_what_it_computes : what L0.prox returns is the exact proximal point of (tau sigma^2 / 2) |x|_0, for every
   sigma >= 0 and tau > 0 (so it is right for sigma |x|_0 only when tau*sigma = 2 or sigma = 0) *)
Lemma C27_what_it_computes_l : forall n fuel sigma tau (x : Vec n), 0 <= sigma -> 0 < tau ->
  exists p, o_prox (obj (S fuel) (sep_body (n:=n) l0_elem (l0_pr sigma))) x tau = Ok p /\
    is_prox (etot (card_fun (tau * sigma * sigma / 2))) tau x p.
Proof.
  intros n fuel sigma tau x Hs Ht. apply sep_prox_ok; auto. intros a _. unfold l0_pr.
  apply hard_prox; auto; try nra.
Qed.

(*! C27_l0_refuted : for every sigma > 0 and tau > 0 with tau*sigma <> 2 there is a one-entry array on which L0.prox
   is not a minimiser of sigma |y|_0 + |y-x|^2/(2 tau): the threshold is tau*sigma instead of sqrt(2 tau sigma) *)
Lemma C27_l0_refuted_l : forall fuel sigma tau, 0 < sigma -> 0 < tau -> tau * sigma <> 2 ->
  exists (x p : Vec 1), o_prox (obj (S fuel) (sep_body (n:=1) l0_elem (l0_pr sigma))) x tau = Ok p /\
    ~ is_prox (etot (card_fun sigma)) tau x p.
Proof.
  intros fuel sigma tau Hs Ht Hne. set (t := tau * sigma). assert (Hp : 0 < t) by (unfold t; nra).
  set (u := sqrt (2 * t)). assert (Hu : 0 < u) by (apply sqrt_lt_R0; lra).
  assert (Huu : u * u = 2 * t) by (apply sqrt_sqrt; lra).
  assert (Htu : t <> u).
  { intro E. rewrite <- E in Huu. apply Hne. fold t. nra. }
  set (a := (t + u) / 2).
  assert (Hbad : ~ sprox (fun a => if Req_EM_T a 0 then 0 else sigma) tau a (l0_pr sigma tau a)).
  { intro H. rewrite sprox_unfold in H by auto. unfold l0_pr, hard in H. fold t in H.
    assert (Ha : 0 < a) by (unfold a; lra). rewrite Rabs_right in H by lra.
    destruct (Rleb_spec a t) as [[H1 Hr]|[H1 Hr]]; rewrite Hr in H.
    - specialize (H a). destruct (Req_EM_T 0 0); [|lra]. destruct (Req_EM_T a 0); [lra|].
      fold t in H. unfold a in *. assert (u < t) by lra. nra.
    - specialize (H 0). destruct (Req_EM_T 0 0); [|lra]. destruct (Req_EM_T a 0); [lra|].
      fold t in H. unfold a in *. assert (t < u) by lra. nra. }
  exists (nl [a]).
  destruct (sep_prox_bad fuel l0_elem _ (l0_pr sigma) (nl [a] : Vec 1) tau a Ht (or_introl eq_refl) Hbad) as [p [H1 H2]].
  exists p. split; auto.
Qed.

(*!ex C27_example : sigma = 1, tau = 2 (the case where it is right): 3 is kept, 1 is set to zero *)
Lemma C27_example_l : exists p, o_prox (obj 1 (sep_body (n:=2) l0_elem (l0_pr 1))) (nl [3; 1] : Vec 2) 2 = Ok p /\
  proj1_sig (p : nlist R 2) = [3; 0] /\ is_prox (etot (card_fun 1)) 2 (nl [3; 1] : Vec 2) p.
Proof.
  destruct (C27_what_it_computes_l 2 0 1 2 (nl [3; 1] : Vec 2) ltac:(lra) ltac:(lra)) as [p [H1 H2]].
  exists p. split; auto. split.
  - simpl in H1. rewrite check_tau_pos in H1 by lra. injection H1 as <-. simpl. unfold l0_pr, hard.
    rewrite !Rabs_right by lra. destruct (Rleb_spec 3 (2 * 1)) as [[? _]|[_ ->]]; [lra|].
    destruct (Rleb_spec 1 (2 * 1)) as [[_ ->]|[? _]]; [|lra]. reflexivity.
  - replace (2 * 1 * 1 / 2) with 1 in H2 by field. exact H2.
Qed.
