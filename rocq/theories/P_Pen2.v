(** * Proofs about SCAD, RelaxedMumfordShah, QuadraticEnvelopeCard, Log, Log1 (M_Pen.v) *)
From Verif Require Import Base Space Spec ConvexFacts Sep M_ProxOp SpecOps P_ProxOp M_L1 P_L1 M_Pen P_Pen Smooth.
From Coq Require Import Psatz Rtrigo1 Ratan Rpower Ranalysis.
From Verif Require Export S_Pen2.
Open Scope result_scope.

(** A penalty on the half line that becomes convex after adding z^2/(2D):
    stationarity is enough for steps tau <= D. *)
Lemma weak_convex_min phi D tau m p s : 0 < tau -> 0 < D -> tau <= D -> tau * s + p - m = 0 ->
  (forall z, 0 <= z -> phi p + s * (z - p) - (z - p) * (z - p) / (2 * D) <= phi z) ->
  forall z, 0 <= z -> tau * phi p + (p - m) * (p - m) / 2 <= tau * phi z + (z - m) * (z - m) / 2.
Proof.
  intros Ht HD HtD Hst H z Hz. specialize (H z Hz).
  assert (Hm : m = tau * s + p) by lra. subst m.
  assert (H1 : tau * (phi p + s * (z - p) - (z - p) * (z - p) / (2 * D)) <= tau * phi z) by (apply Rmult_le_compat_l; lra).
  assert (H2 : 0 <= (z - p) * (z - p) * (1 - tau / D)).
  { apply Rmult_le_pos; [apply Rle_0_sqr|]. assert (tau / D <= 1); [|lra].
    apply (Rmult_le_reg_r D); auto. unfold Rdiv. rewrite Rmult_assoc, Rinv_l by lra. lra. }
  replace (tau * (phi p + s * (z - p) - (z - p) * (z - p) / (2 * D))) with
    (tau * phi p + tau * s * (z - p) - (z - p) * (z - p) * (tau / D) / 2) in H1 by (field; lra).
  nra.
Qed.

(** The same with an inequality at p = 0. *)
Lemma weak_convex_min0 phi D tau m s : 0 < tau -> 0 < D -> tau <= D -> 0 <= tau * s - m ->
  (forall z, 0 <= z -> phi 0 + s * z - z * z / (2 * D) <= phi z) ->
  forall z, 0 <= z -> tau * phi 0 + (0 - m) * (0 - m) / 2 <= tau * phi z + (z - m) * (z - m) / 2.
Proof.
  intros Ht HD HtD Hst H z Hz. specialize (H z Hz).
  assert (H1 : tau * (phi 0 + s * z - z * z / (2 * D)) <= tau * phi z) by (apply Rmult_le_compat_l; lra).
  assert (H2 : 0 <= z * z * (1 - tau / D)).
  { apply Rmult_le_pos; [apply Rle_0_sqr|]. assert (tau / D <= 1); [|lra].
    apply (Rmult_le_reg_r D); auto. unfold Rdiv. rewrite Rmult_assoc, Rinv_l by lra. lra. }
  replace (tau * (phi 0 + s * z - z * z / (2 * D))) with
    (tau * phi 0 + tau * s * z - z * z * (tau / D) / 2) in H1 by (field; lra).
  nra.
Qed.

(** ** SCAD *)

Lemma scad_elem_fun sigma al a : scad_elem sigma al a = scad_fun sigma al a.
Proof.
  unfold scad_elem, scad_fun.
  destruct (Rleb_spec (Rabs a) sigma) as [[H ->]|[H ->]]; destruct (Rle_dec (Rabs a) sigma); try lra.
  destruct (Rleb_spec (Rabs a) (al * sigma)) as [[H1 ->]|[H1 ->]]; destruct (Rle_dec (Rabs a) (al * sigma)); try lra.
Qed.

Lemma scad_pos sigma al z : 0 <= z -> scad_fun sigma al z =
  if Rle_dec z sigma then sigma * z else if Rle_dec z (al * sigma) then (- (z * z) + 2 * al * sigma * z - sigma * sigma) / (2 * (al - 1))
  else (al + 1) * (sigma * sigma) / 2.
Proof. intros; unfold scad_fun. rewrite Rabs_pos_eq by auto. reflexivity. Qed.

Definition scad_slope (sigma al p : R) : R :=
  if Rle_dec p sigma then sigma else if Rle_dec p (al * sigma) then (al * sigma - p) / (al - 1) else 0.

(** Everything multiplied by 2(al-1) is polynomial. *)
Lemma scad_weak sigma al p z : 0 < sigma -> 1 < al -> 0 <= p -> 0 <= z ->
  scad_fun sigma al p + scad_slope sigma al p * (z - p) - (z - p) * (z - p) / (2 * (al - 1)) <= scad_fun sigma al z.
Proof.
  intros Hs Ha Hp Hz. rewrite !scad_pos by auto. unfold scad_slope.
  apply (Rmult_le_reg_l (2 * (al - 1))); [lra|].
  destruct (Rle_dec p sigma) as [P1|P1]; [|destruct (Rle_dec p (al * sigma)) as [P2|P2]];
  (destruct (Rle_dec z sigma) as [Z1|Z1]; [|destruct (Rle_dec z (al * sigma)) as [Z2|Z2]]);
  match goal with |- ?L <= ?M => field_simplify L M; try lra end.
  all: try nra.
  - pose proof (Rle_0_sqr (z - p)); unfold Rsqr in *; nra.
  - pose proof (Rle_0_sqr (z - sigma)); unfold Rsqr in *.
    assert (al * sigma - z <= p - z) by lra. assert (0 <= al * sigma - z) by nra.
    assert ((al * sigma - z) * (al * sigma - z) <= (p - z) * (p - z)) by (apply Rmult_le_compat; lra). nra.
  - pose proof (Rle_0_sqr (z - p)); unfold Rsqr in *; nra.
Qed.

Lemma scad_even sigma al y : scad_fun sigma al y = scad_fun sigma al (Rabs y).
Proof. unfold scad_fun. rewrite Rabs_Rabsolu, Rabs2. reflexivity. Qed.

Lemma scad_pr_abs sigma al tau a : 1 < al -> tau <> al - 1 ->
  scad_pr sigma al tau a =
  (if Rle_dec (Rabs a) (sigma * (1 + tau)) then Rmax 0 (Rabs a - sigma * tau)
   else if Rle_dec (Rabs a) (al * sigma) then ((al - 1) * Rabs a - al * sigma * tau) / (al - 1 - tau) else Rabs a) * sgn a.
Proof.
  intros Ha Ht. unfold scad_pr.
  replace (sigma * (al - 1 - tau + tau * al) / (al - 1)) with (sigma * (1 + tau)) by (field; lra).
  assert (Hs : a = Rabs a * sgn a) by (rewrite Rmult_comm, sgn_abs; auto).
  destruct (Rleb_spec (Rabs a) (sigma * (1 + tau))) as [[H ->]|[H ->]]; destruct (Rle_dec (Rabs a) (sigma * (1 + tau))); try lra.
  destruct (Rleb_spec (Rabs a) (al * sigma)) as [[H1 ->]|[H1 ->]]; destruct (Rle_dec (Rabs a) (al * sigma)); try lra.
  rewrite Hs at 1. field. lra.
Qed.

Lemma scad_scalar_ok sigma al tau a : 0 < sigma -> 1 < al -> 0 < tau <= al - 1 ->
  sprox (scad_fun sigma al) tau a (scad_pr sigma al tau a).
Proof.
  intros Hs Hal Ht.
  assert (HD : 0 < al - 1) by lra. pose proof (Rabs_pos a) as Hm0.
  assert (Ha0 : a = 0 -> Rabs a = 0) by (intro; subst; apply Rabs_R0).
  assert (Hpr : scad_pr sigma al tau a =
    (if Rle_dec (Rabs a) (sigma * (1 + tau)) then Rmax 0 (Rabs a - sigma * tau)
     else if Rle_dec (Rabs a) (al * sigma) then ((al - 1) * Rabs a - al * sigma * tau) / (al - 1 - tau) else Rabs a) * sgn a).
  { destruct (Req_dec tau (al - 1)) as [E|E]; [|apply scad_pr_abs; auto].
    unfold scad_pr. replace (sigma * (al - 1 - tau + tau * al) / (al - 1)) with (sigma * (1 + tau)) by (field; lra).
    destruct (Rleb_spec (Rabs a) (sigma * (1 + tau))) as [[H ->]|[H ->]]; destruct (Rle_dec (Rabs a) (sigma * (1 + tau))); try lra.
    destruct (Rleb_spec (Rabs a) (al * sigma)) as [[H1 _]|[H1 ->]]; destruct (Rle_dec (Rabs a) (al * sigma)); try (exfalso; subst tau; nra); try lra.
    rewrite Rmult_comm. symmetry. apply sgn_abs. }
  rewrite Hpr. set (m := Rabs a) in *.
  assert (Hst : forall p, 0 <= p -> tau * scad_slope sigma al p + p - m = 0 -> (a = 0 -> p = 0) -> sprox (scad_fun sigma al) tau a (p * sgn a)).
  { intros p Hp Hst Hz. apply even_prox; auto; [lra|apply scad_even|]. fold m.
    apply (weak_convex_min _ (al - 1) tau m p (scad_slope sigma al p)); auto; try lra.
    intros z Hzz. apply scad_weak; auto. }
  destruct (Rle_dec m (sigma * (1 + tau))) as [H1|H1].
  - unfold Rmax. destruct (Rle_dec 0 (m - sigma * tau)) as [H2|H2].
    + apply Hst; auto; [|intro; specialize (Ha0 H); nra].
      unfold scad_slope. destruct (Rle_dec (m - sigma * tau) sigma); [ring|]. nra.
    + apply even_prox; auto; [lra|apply scad_even|lra|]. fold m.
      apply (weak_convex_min0 _ (al - 1) tau m sigma); auto; try lra.
      intros z Hz. pose proof (scad_weak sigma al 0 z Hs Hal ltac:(lra) Hz) as H.
      unfold scad_slope in H. destruct (Rle_dec 0 sigma); [|lra]. rewrite !Rminus_0_r in H. exact H.
  - destruct (Rle_dec m (al * sigma)) as [H2|H2].
    + assert (Hlt : tau < al - 1) by nra.
      set (p := ((al - 1) * m - al * sigma * tau) / (al - 1 - tau)).
      assert (Hp : p * (al - 1 - tau) = (al - 1) * m - al * sigma * tau) by (unfold p; field; lra).
      assert (Hp1 : sigma < p) by nra. assert (Hp2 : p <= al * sigma) by nra.
      apply Hst; [lra| |intro H; specialize (Ha0 H); nra].
      unfold scad_slope. destruct (Rle_dec p sigma); [lra|]. destruct (Rle_dec p (al * sigma)); [|lra].
      apply (Rmult_eq_reg_l (al - 1)); [|lra].
      replace ((al - 1) * (tau * ((al * sigma - p) / (al - 1)) + p - m)) with (tau * (al * sigma - p) + (al - 1) * p - (al - 1) * m) by (field; lra).
      lra.
    + apply Hst; auto. unfold scad_slope. destruct (Rle_dec m sigma); [nra|]. destruct (Rle_dec m (al * sigma)); [lra|]. ring.
Qed.

(*! C29_scad_call : SCAD.call is the sum of the documented SCAD function over the entries *)
Lemma C29_scad_call_l : forall n fuel sigma al,
  impl_call (obj fuel (sep_body (n:=n) (scad_elem sigma al) (scad_pr sigma al))) (etot (sumf (scad_fun sigma al))).
Proof.
  intros n fuel sigma al x _. simpl. unfold d_call; simpl. unfold sumf. do 3 f_equal. apply map_ext. intro; apply scad_elem_fun.
Qed.

(*! C29_scad_exact : for every accepted sigma, a and every step tau <= a-1, SCAD.prox is a global minimiser
   of the SCAD penalty plus quadratic, for all inputs.  For larger steps see the next theorem. *)
Lemma C29_scad_exact_l : forall n fuel sigma al tau (x : Vec n),
  scad_init sigma al = Ok tt -> 0 < tau <= al - 1 ->
  exists p, o_prox (obj (S fuel) (sep_body (n:=n) (scad_elem sigma al) (scad_pr sigma al))) x tau = Ok p /\
    is_prox (etot (sumf (scad_fun sigma al))) tau x p.
Proof.
  intros n fuel sigma al tau x Hi Ht. unfold scad_init in Hi.
  destruct (Rleb_spec sigma 0) as [[? Hr]|[Hs Hr]]; rewrite Hr in Hi; [discriminate|].
  destruct (Rleb_spec al 2) as [[? Hr2]|[Ha Hr2]]; rewrite Hr2 in Hi; [discriminate|].
  apply sep_prox_ok; [lra|]. intros a _. apply scad_scalar_ok; lra.
Qed.

(*! C29_scad_refuted : for every accepted sigma, a and every tau > a-1 there is an input on which SCAD.prox is not a
   minimiser (at |x| = sigma(1+tau) it soft-thresholds although keeping x is better) *)
Lemma C29_scad_refuted_l : forall fuel sigma al tau, scad_init sigma al = Ok tt -> al - 1 < tau ->
  exists x p : Vec 1, o_prox (obj (S fuel) (sep_body (n:=1) (scad_elem sigma al) (scad_pr sigma al))) x tau = Ok p /\
    ~ is_prox (etot (sumf (scad_fun sigma al))) tau x p.
Proof.
  intros fuel sigma al tau Hi Ht. unfold scad_init in Hi.
  destruct (Rleb_spec sigma 0) as [[? Hr]|[Hs Hr]]; rewrite Hr in Hi; [discriminate|].
  destruct (Rleb_spec al 2) as [[? Hr2]|[Ha Hr2]]; rewrite Hr2 in Hi; [discriminate|].
  assert (Ht0 : 0 < tau) by lra. set (a := sigma * (1 + tau)).
  assert (Ha0 : 0 < a) by (unfold a; nra).
  assert (Hb : ~ sprox (scad_fun sigma al) tau a (scad_pr sigma al tau a)).
  { intro H. rewrite sprox_unfold in H by auto. specialize (H a).
    rewrite scad_pr_abs, sgn_pos, Rabs_right in H by lra. fold a in H.
    destruct (Rle_dec a a); [|lra]. rewrite Rmult_1_r, Rmax_right in H by (unfold a; nra).
    replace (a - sigma * tau) with sigma in H by (unfold a; ring).
    rewrite !scad_pos in H by lra. destruct (Rle_dec sigma sigma); [|lra].
    destruct (Rle_dec a sigma); [unfold a in *; nra|]. destruct (Rle_dec a (al * sigma)); [unfold a in *; nra|].
    unfold a in H. assert (0 < sigma * sigma) by nra. assert (0 < tau * (sigma * sigma)) by nra. nra. }
  exists (nl [a]).
  destruct (sep_prox_bad fuel (scad_elem sigma al) _ (scad_pr sigma al) (nl [a] : Vec 1) tau a Ht0 (or_introl eq_refl) Hb) as [p [H1 H2]].
  exists p; split; auto.
Qed.

(*!ex C29_example : sigma = 1, a = 3, tau = 1: the accepted parameters, and prox(5/2) = 2 (middle branch) *)
Lemma C29_example_l : scad_init 1 3 = Ok tt /\ 0 < 1 <= 3 - 1 /\ scad_pr 1 3 1 (5/2) = 2.
Proof.
  split; [|split; [lra|]].
  - unfold scad_init. destruct (Rleb_spec 1 0) as [[? _]|[_ ->]]; [lra|]. destruct (Rleb_spec 3 2) as [[? _]|[_ ->]]; [lra|]. auto.
  - rewrite scad_pr_abs, sgn_pos, Rabs_right by lra. destruct (Rle_dec (5/2) (1 * (1 + 1))); [lra|].
    destruct (Rle_dec (5/2) (3 * 1)); [|lra]. field.
Qed.

(** ** Relaxed Mumford-Shah *)
Definition rms_fun (sigma kappa a : R) : R := Rmin (sigma * (a * a)) kappa.

Lemma rms_scalar_ok sigma kappa tau a : 0 < sigma -> 0 <= kappa -> 0 < tau ->
  sprox (rms_fun sigma kappa) tau a (rms_pr sigma kappa tau a).
Proof.
  intros Hs Hk Ht. rewrite sprox_unfold by auto. intro y. unfold rms_pr.
  set (c := 1 + 2 * tau * sigma). assert (Hc : 1 < c) by (unfold c; assert (0 < tau * sigma) by nra; lra).
  replace (1 + 2 * (tau * sigma)) with c by (unfold c; ring).
  set (t := sqrt (kappa / sigma * c)).
  assert (Hks : 0 <= kappa / sigma * c).
  { apply Rmult_le_pos; [|lra]. apply Rmult_le_pos; auto. left; apply Rinv_0_lt_compat; auto. }
  assert (Htt : t * t = kappa / sigma * c) by (apply sqrt_sqrt; auto).
  assert (Ht0 : 0 <= t) by apply sqrt_pos.
  assert (Htt2 : sigma * (t * t) = kappa * c) by (rewrite Htt; field; lra).
  assert (Hq : forall z, sigma * (a * a) * tau / c <= tau * (sigma * (z * z)) + (z - a) * (z - a) / 2).
  { intro z. assert (tau * (sigma * (z * z)) + (z - a) * (z - a) / 2 - sigma * (a * a) * tau / c = c / 2 * ((z - a / c) * (z - a / c))).
    { unfold c. field. fold c. lra. }
    assert (0 <= c / 2 * ((z - a / c) * (z - a / c))) by (apply Rmult_le_pos; [lra|apply Rle_0_sqr]). lra. }
  pose proof (Rle_0_sqr (y - a)) as Hy. unfold Rsqr in Hy. pose proof (Rabs2 a). pose proof (Rabs_pos a).
  destruct (Rleb_spec (Rabs a) t) as [[H1 ->]|[H1 ->]].
  - assert (Haa : sigma * (a * a) <= kappa * c).
    { rewrite <- Htt2, <- H. apply Rmult_le_compat_l; [lra|]. apply Rmult_le_compat; lra. }
    assert (Hv : tau * rms_fun sigma kappa (1 / c * a) + (1 / c * a - a) * (1 / c * a - a) / 2 <= sigma * (a * a) * tau / c).
    { unfold rms_fun. apply Rle_trans with (tau * (sigma * (1 / c * a * (1 / c * a))) + (1 / c * a - a) * (1 / c * a - a) / 2).
      - apply Rplus_le_compat_r, Rmult_le_compat_l; [lra|]. apply Rmin_l.
      - right. unfold c. field. fold c. lra. }
    eapply Rle_trans; [exact Hv|]. unfold rms_fun, Rmin. destruct (Rle_dec (sigma * (y * y)) kappa); [apply Hq|].
    assert (sigma * (a * a) * tau / c <= tau * kappa); [|lra].
    apply (Rmult_le_reg_r c); [lra|]. replace (sigma * (a * a) * tau / c * c) with (sigma * (a * a) * tau) by (field; lra). nra.
  - assert (Haa : kappa * c < sigma * (a * a)).
    { rewrite <- Htt2, <- H. apply Rmult_lt_compat_l; auto. nra. }
    assert (Hv : tau * rms_fun sigma kappa a + (a - a) * (a - a) / 2 <= tau * kappa).
    { unfold rms_fun. pose proof (Rmin_r (sigma * (a * a)) kappa). nra. }
    eapply Rle_trans; [exact Hv|]. unfold rms_fun, Rmin. destruct (Rle_dec (sigma * (y * y)) kappa); [|nra].
    eapply Rle_trans; [|apply Hq]. apply (Rmult_le_reg_r c); [lra|].
    replace (sigma * (a * a) * tau / c * c) with (sigma * (a * a) * tau) by (field; lra). nra.
Qed.

(*! C30_separable : RelaxedMumfordShah.prox is a global minimiser for the separable penalty
   sum_i min(sigma x_i^2, kappa), which on one-entry arrays is the function call evaluates *)
Lemma C30_separable_l : forall n fuel sigma kappa tau (x : Vec n), 0 < sigma -> 0 <= kappa -> 0 < tau ->
  (exists p, o_prox (obj (S fuel) (rms_body (n:=n) sigma kappa)) x tau = Ok p /\
    is_prox (etot (sumf (fun a => Rmin (sigma * (a * a)) kappa))) tau x p) /\
  (n = 1%nat -> o_call (obj (S fuel) (rms_body (n:=n) sigma kappa)) x = Ok (VNum (sumf (fun a => Rmin (sigma * (a * a)) kappa) x))).
Proof.
  intros n fuel sigma kappa tau x Hs Hk Ht. split.
  - simpl. rewrite check_tau_pos by auto. eexists; split; [reflexivity|]. apply sumf_prox.
    intros a _. apply rms_scalar_ok; auto.
  - intro Hn. subst n. simpl. unfold d_call; simpl. unfold rms_call, norm2, sumf. destruct x as [[|a [|b x]] Hx]; simpl in *; try discriminate.
    do 2 f_equal. rewrite !Rplus_0_r. reflexivity.
Qed.

(*! C30_rms_refuted : with two entries the result is not a minimiser of the function that call evaluates,
   min(sigma |x|^2, kappa) *)
Lemma C30_rms_refuted_l : forall fuel, exists x p : Vec 2,
  o_prox (obj (S fuel) (rms_body (n:=2) 1 3)) x 1 = Ok p /\
  (forall y, o_call (obj (S fuel) (rms_body (n:=2) 1 3)) y = Ok (VNum (Rmin (1 * norm2 y) 3))) /\
  ~ is_prox (etot (fun y : Vec 2 => Rmin (1 * norm2 y) 3)) 1 x p.
Proof.
  intro fuel. exists (nl [3; 3] : Vec 2), (nl [1; 1] : Vec 2). split; [|split].
  - simpl. rewrite check_tau_pos by lra. f_equal. apply nlist_eq. simpl.
    assert (H : rms_pr 1 3 1 3 = 1).
    { unfold rms_pr. replace (3 / 1 * (1 + 2 * 1 * 1)) with (3 * 3) by field. rewrite sqrt_square by lra. rewrite Rabs_right by lra.
      destruct (Rleb_spec 3 3) as [[_ ->]|[? _]]; [|lra]. field. }
    rewrite H. reflexivity.
  - intro y. reflexivity.
  - intros [_ H]. specialize (H (nl [3; 3] : Vec 2) I). cbn [eval etot] in H. revert H.
    unfold norm2, vsub; simpl. rewrite (Rmin_left (1 * (1 * 1 + (1 * 1 + 0))) 3) by lra.
    rewrite (Rmin_right (1 * (3 * 3 + (3 * 3 + 0))) 3) by lra. intro H. lra.
Qed.

(*!ex C30_example : sigma = 1, kappa = 3, tau = 1: 3 is shrunk to 1, 4 is kept *)
Lemma C30_example_l : rms_pr 1 3 1 3 = 1 /\ rms_pr 1 3 1 4 = 4.
Proof.
  unfold rms_pr. replace (3 / 1 * (1 + 2 * 1 * 1)) with (3 * 3) by field. rewrite sqrt_square by lra. rewrite !Rabs_right by lra.
  destruct (Rleb_spec 3 3) as [[_ ->]|[? _]]; [|lra]. destruct (Rleb_spec 4 3) as [[? _]|[_ ->]]; [lra|]. split; [field|auto].
Qed.

(** ** Quadratic envelope of the cardinality *)

Lemma qec_weak mu p z : 0 <= mu -> 0 <= p -> 0 <= z ->
  qec_fun mu p + Rmax 0 (sqrt (2 * mu) - p) * (z - p) - (z - p) * (z - p) / (2 * 1) <= qec_fun mu z.
Proof.
  intros Hm Hp Hz. unfold qec_fun. rewrite !Rabs_pos_eq by auto. set (t := sqrt (2 * mu)).
  pose proof (Rle_0_sqr (z - t)) as H1. pose proof (Rle_0_sqr (z - p)) as H2. pose proof (Rle_0_sqr (p - t)) as H3. unfold Rsqr in *.
  unfold Rmax. destruct (Rle_dec 0 (t - p)), (Rle_dec 0 (t - z)); nra.
Qed.

Lemma qec_scalar_ok mu tau a : 0 <= mu -> 0 < tau <= 1 -> sprox (qec_fun mu) tau a (qec_pr mu tau a).
Proof.
  intros Hm Ht.
  assert (He : forall y, qec_fun mu y = qec_fun mu (Rabs y)) by (intro; unfold qec_fun; rewrite Rabs_Rabsolu; auto).
  pose proof (Rabs_pos a) as H0. assert (Ha0 : a = 0 -> Rabs a = 0) by (intro; subst; apply Rabs_R0).
  unfold qec_pr. set (t := sqrt (2 * mu)) in *. assert (Ht0 : 0 <= t) by apply sqrt_pos.
  assert (Hst : forall p, 0 <= p -> tau * Rmax 0 (t - p) + p - Rabs a = 0 -> (a = 0 -> p = 0) -> sprox (qec_fun mu) tau a (p * sgn a)).
  { intros p Hp Hs Hz. apply even_prox; auto; [lra|].
    apply (weak_convex_min _ 1 tau (Rabs a) p (Rmax 0 (t - p))); auto; try lra. intros z Hzz. apply qec_weak; auto. }
  assert (Hst0 : Rabs a <= tau * t -> sprox (qec_fun mu) tau a (0 * sgn a)).
  { intro H. apply even_prox; auto; [lra|lra|].
    apply (weak_convex_min0 _ 1 tau (Rabs a) t); auto; try lra. intros z Hzz.
    pose proof (qec_weak mu 0 z Hm ltac:(lra) Hzz) as H1. fold t in H1. rewrite !Rminus_0_r, Rmax_right in H1 by auto. exact H1. }
  destruct (Rltb_spec (Rabs a) t) as [[H1 ->]|[H1 ->]].
  - destruct (Rleb_spec 1 tau) as [[H2 ->]|[H2 ->]].
    + assert (tau = 1) by lra. subst tau. apply Hst0. lra.
    + unfold Rmax at 1. destruct (Rle_dec 0 ((Rabs a - tau * t) / (1 - tau))) as [H3|H3].
      * set (p := (Rabs a - tau * t) / (1 - tau)) in *.
        assert (Hp : p * (1 - tau) = Rabs a - tau * t) by (unfold p; field; lra).
        apply Hst; auto.
        -- rewrite Rmax_right by nra. nra.
        -- intro H. specialize (Ha0 H). nra.
      * apply Hst0. assert (~ 0 <= Rabs a - tau * t); [|lra]. intro H. apply H3.
        apply Rmult_le_pos; auto. left. apply Rinv_0_lt_compat; lra.
  - apply Hst; auto. rewrite Rmax_left by lra. ring.
Qed.

Lemma qec_elem_fun mu a : qec_elem mu a = qec_fun mu a.
Proof. unfold qec_elem, qec_fun. simpl. rewrite Rmult_1_r. reflexivity. Qed.

(*! C31_card_exact : for mu >= 0 and tau <= 1 QuadraticEnvelopeCard.prox is a global minimiser of the function
   its call evaluates (the documented envelope) plus quadratic, for all inputs *)
Lemma C31_card_exact_l : forall n fuel mu tau (x : Vec n), 0 <= mu -> 0 < tau <= 1 ->
  let o := obj (S fuel) (sep_body (n:=n) (qec_elem mu) (qec_pr mu)) in
  impl_call o (etot (sumf (qec_fun mu))) /\
  exists p, o_prox o x tau = Ok p /\ is_prox (etot (sumf (qec_fun mu))) tau x p.
Proof.
  intros n fuel mu tau x Hm Ht o. split.
  - intros y _. unfold o; simpl. unfold d_call; simpl. unfold sumf. do 3 f_equal. apply map_ext. apply qec_elem_fun.
  - apply sep_prox_ok; [lra|]. intros a _. apply qec_scalar_ok; auto.
Qed.

(*! C31_card_refuted : for every mu > 0 and every tau > 1 there is an input on which it is not a minimiser: entries with
   2 mu <= x^2 < 2 mu tau are kept although 0 is better *)
Lemma C31_card_refuted_l : forall fuel mu tau, 0 < mu -> 1 < tau ->
  forall a, 2 * mu <= a * a < 2 * mu * tau ->
  exists p : Vec 1, o_prox (obj (S fuel) (sep_body (n:=1) (qec_elem mu) (qec_pr mu))) (nl [a] : Vec 1) tau = Ok p /\
    ~ is_prox (etot (sumf (qec_fun mu))) tau (nl [a] : Vec 1) p.
Proof.
  intros fuel mu tau Hm Ht a Ha. assert (Ht0 : 0 < tau) by lra.
  assert (Ht2 : sqrt (2 * mu) <= Rabs a).
  { rewrite <- (sqrt_square (Rabs a)) by apply Rabs_pos. rewrite Rabs2. apply sqrt_le_1_alt. lra. }
  assert (Hpr : qec_pr mu tau a = a).
  { unfold qec_pr. destruct (Rltb_spec (Rabs a) (sqrt (2 * mu))) as [[? _]|[_ ->]]; [lra|]. rewrite Rmult_comm. apply sgn_abs. }
  assert (Hb : ~ sprox (qec_fun mu) tau a (qec_pr mu tau a)).
  { rewrite Hpr. intro H. rewrite sprox_unfold in H by auto. specialize (H 0). unfold qec_fun in H.
    rewrite Rabs_R0, Rminus_0_r, (Rmax_right 0 (sqrt (2 * mu))), (Rmax_left 0 (sqrt (2 * mu) - Rabs a)) in H; [|lra|apply sqrt_pos].
    pose proof (sqrt_sqrt (2 * mu) ltac:(lra)). simpl in H. nra. }
  destruct (sep_prox_bad fuel (qec_elem mu) _ (qec_pr mu) (nl [a] : Vec 1) tau a Ht0 (or_introl eq_refl) Hb) as [p [H1 H2]].
  exists p; auto.
Qed.

(*!ex C31_example : mu = 2, tau = 1/2 (threshold 2): 3/2 is mapped to 1, 3 is kept, 1 goes to 0 *)
Lemma C31_example_l : qec_pr 2 (1/2) (3/2) = 1 /\ qec_pr 2 (1/2) 3 = 3 /\ qec_pr 2 (1/2) 1 = 0.
Proof.
  assert (Hs : sqrt (2 * 2) = 2) by (apply sqrt_square; lra).
  unfold qec_pr. rewrite Hs, !sgn_pos, !Rabs_right by lra.
  destruct (Rltb_spec (3/2) 2) as [[_ ->]|[? _]]; [|lra]. destruct (Rltb_spec 3 2) as [[? _]|[_ ->]]; [lra|].
  destruct (Rltb_spec 1 2) as [[_ ->]|[? _]]; [|lra]. destruct (Rleb_spec 1 (1/2)) as [[? _]|[_ ->]]; [lra|].
  rewrite (Rmax_right 0 ((3/2 - 1/2 * 2) / (1 - 1/2))) by lra.
  rewrite (Rmax_left 0) by lra. repeat split; field.
Qed.

(** A function that first increases and then decreases on [0,P], and increases
    beyond P, is minimal at 0 or at P. *)
Lemma two_phase h h' P : 0 <= P ->
  (forall c, 0 <= c -> derivable_pt_lim h c (h' c)) ->
  (forall u v, 0 <= u -> u <= v -> v < P -> 0 <= h' v -> 0 <= h' u) ->
  (forall c, P < c -> 0 <= h' c) ->
  forall z, 0 <= z -> h 0 <= h z \/ h P <= h z.
Proof.
  intros HP Hd H1 H2 z Hz. destruct (Rle_dec P z) as [H|H].
  - right. apply (mvt_le h h'); auto; intros c Hc; [apply Hd; lra | apply H2; lra].
  - destruct (Rle_dec 0 (h' z)) as [Hs|Hs].
    + left. apply (mvt_le h h'); auto; intros c Hc; [apply Hd; lra|].
      apply (H1 c z); lra.
    + right. apply (mvt_ge h h'); [lra| |]; intros c Hc; [apply Hd; lra|].
      destruct (Rle_dec 0 (h' c)) as [Hx|Hx]; [|lra]. exfalso. apply Hs. apply (H1 z c); lra.
Qed.

(** ** Log *)
Lemma log_den gamma : 0 < gamma -> 0 < ln (gamma + 1).
Proof. intro H. rewrite <- ln_1. apply ln_increasing; lra. Qed.

Lemma log_elem_nonneg sigma gamma z : 0 <= sigma -> 0 < gamma -> 0 <= log_elem sigma gamma z.
Proof.
  intros Hs Hg. unfold log_elem. pose proof (log_den gamma Hg). pose proof (Rabs_pos z).
  apply Rmult_le_pos; [apply Rmult_le_pos; auto; left; apply Rinv_0_lt_compat; auto|].
  rewrite <- ln_1. destruct (Req_dec z 0) as [->|Hz].
  - rewrite Rabs_R0. right. f_equal; ring.
  - left. apply ln_increasing; try lra. apply Rabs_pos_lt in Hz. nra.
Qed.

Lemma log_elem_0 sigma gamma : log_elem sigma gamma 0 = 0.
Proof. unfold log_elem. rewrite Rabs_R0, Rmult_0_r, Rplus_0_l, ln_1. ring. Qed.

Lemma log_deriv k gamma m c : 0 < gamma -> 0 <= c ->
  derivable_pt_lim (fun z => k * ln (gamma * z + 1) + (z - m) * (z - m) / 2) c
    ((gamma * (c * c) + (1 - gamma * m) * c + (k * gamma - m)) / (gamma * c + 1)).
Proof.
  intros Hg Hc. assert (Hp : 0 < gamma * c + 1) by nra.
  replace ((gamma * (c * c) + (1 - gamma * m) * c + (k * gamma - m)) / (gamma * c + 1)) with
    (k * (/ (gamma * c + 1) * (gamma * 1 + 0)) + (((1 - 0) * (c - m) + (c - m) * (1 - 0)) * / 2 + (c - m) * (c - m) * 0)) by (field; lra).
  apply derivable_pt_lim_plus.
  - apply (derivable_pt_lim_scal (fun z => ln (gamma * z + 1)) k).
    apply (derivable_pt_lim_comp (fun z => gamma * z + 1) ln).
    + apply derivable_pt_lim_plus; [|apply derivable_pt_lim_const].
      apply (derivable_pt_lim_scal id gamma). apply derivable_pt_lim_id.
    + apply derivable_pt_lim_ln; auto.
  - unfold Rdiv. apply (derivable_pt_lim_mult (fun z => (z - m) * (z - m)) (fun _ => / 2)); [|apply derivable_pt_lim_const].
    apply (derivable_pt_lim_mult (fun z => z - m) (fun z => z - m));
      (apply derivable_pt_lim_minus; [apply derivable_pt_lim_id | apply derivable_pt_lim_const]).
Qed.

Lemma log_scalar_ok sigma gamma tau a : 0 <= sigma -> 0 < gamma -> 0 < tau ->
  sprox (log_elem sigma gamma) tau a (log_pr sigma gamma tau a).
Proof.
  intros Hs Hg Ht. pose proof (log_den gamma Hg) as Hl. pose proof (Rabs_pos a) as Hm.
  assert (He : forall y, log_elem sigma gamma y = log_elem sigma gamma (Rabs y)) by (intro; unfold log_elem; rewrite Rabs_Rabsolu; auto).
  assert (Ha0 : a = 0 -> Rabs a = 0) by (intro; subst; apply Rabs_R0).
  unfold log_pr. set (m := Rabs a) in *. set (k := tau * sigma / ln (gamma + 1)).
  assert (Hk : 0 <= k) by (apply Rmult_le_pos; [nra|left; apply Rinv_0_lt_compat; auto]).
  set (b := gamma * m - 1). set (disc := b * b - 4 * gamma * (k * gamma - m)).
  set (val := fun z => tau * log_elem sigma gamma z + (z - m) * (z - m) / 2).
  set (h := fun z => k * ln (gamma * z + 1) + (z - m) * (z - m) / 2).
  assert (Hval : forall z, 0 <= z -> val z = h z).
  { intros z Hz. unfold val, h, log_elem, k. rewrite Rabs_pos_eq by auto. f_equal. field. lra. }
  set (q := fun c => gamma * (c * c) + (1 - gamma * m) * c + (k * gamma - m)).
  assert (Hd : forall c, 0 <= c -> derivable_pt_lim h c (q c / (gamma * c + 1))) by (intros; apply log_deriv; auto).
  assert (Hsign : forall c, 0 <= c -> 0 <= q c -> 0 <= q c / (gamma * c + 1)).
  { intros c Hc H. apply Rmult_le_pos; auto. left. apply Rinv_0_lt_compat. nra. }
  assert (Hsign2 : forall c, 0 <= c -> 0 <= q c / (gamma * c + 1) -> 0 <= q c).
  { intros c Hc H. assert (Hp : 0 < gamma * c + 1) by nra. replace (q c) with (q c / (gamma * c + 1) * (gamma * c + 1)) by (field; lra).
    apply Rmult_le_pos; lra. }
  (* completing the square: 4 gamma q = (2 gamma c - b)^2 - disc *)
  assert (Hsq : forall c, 4 * gamma * q c = (2 * gamma * c - b) * (2 * gamma * c - b) - disc).
  { intro c. unfold q, disc, b. ring. }
  change (tau * log_elem sigma gamma ((b + sqrt disc) / (2 * gamma)) +
    ((b + sqrt disc) / (2 * gamma) - m) * ((b + sqrt disc) / (2 * gamma) - m) / 2) with (val ((b + sqrt disc) / (2 * gamma))).
  change (tau * log_elem sigma gamma 0 + (0 - m) * (0 - m) / 2) with (val 0).
  destruct (Rleb_spec 0 disc) as [[HD ->]|[HD ->]].
  - set (r := (b + sqrt disc) / (2 * gamma)).
    assert (Hr : 2 * gamma * r = b + sqrt disc) by (unfold r; field; lra).
    pose proof (sqrt_pos disc) as Hsd. pose proof (sqrt_sqrt disc HD) as Hss.
    assert (Hge : forall c, r <= c -> 0 <= q c).
    { intros c Hc. assert (Hx : sqrt disc <= 2 * gamma * c - b) by nra.
      assert (disc <= (2 * gamma * c - b) * (2 * gamma * c - b)) by (rewrite <- Hss; apply Rmult_le_compat; lra).
      specialize (Hsq c). nra. }
    assert (Hv0 : val 0 = m * m / 2) by (unfold val; rewrite log_elem_0; field).
    assert (Hneg : r < 0 -> val 0 <= val r).
    { intro H. rewrite Hv0. unfold val. pose proof (log_elem_nonneg sigma gamma r Hs Hg). nra. }
    destruct (Rltb_spec (val r) (val 0)) as [[HV ->]|[HV ->]].
    + assert (Hr0 : 0 <= r) by (destruct (Rle_dec 0 r); auto; exfalso; assert (r < 0) as Hx by lra; specialize (Hneg Hx); lra).
      apply even_prox; auto.
      * intro H. specialize (Ha0 H). fold m in Ha0. exfalso. rewrite Hv0, Ha0 in HV. unfold val in HV.
        pose proof (log_elem_nonneg sigma gamma r Hs Hg). rewrite Ha0 in HV. nra.
      * intros z Hz. fold m. change (val r <= val z).
        assert (H2 : h 0 <= h z \/ h r <= h z).
        { apply (two_phase h (fun c => q c / (gamma * c + 1)) r); auto.
          - intros u v Hu Huv Hvr H. apply Hsign; auto. apply Hsign2 in H; [|lra].
            pose proof (Hsq v) as Sv. pose proof (Hsq u) as Su.
            (* v < r and q v >= 0 imply 2 gamma v - b <= - sqrt disc *)
            assert (Hv : 2 * gamma * v - b <= - sqrt disc).
            { destruct (Rle_dec (2 * gamma * v - b) (- sqrt disc)); auto. exfalso.
              assert (2 * gamma * v - b < sqrt disc) by nra.
              assert ((2 * gamma * v - b) * (2 * gamma * v - b) < disc) by nra. nra. }
            assert (Hu' : sqrt disc <= b - 2 * gamma * u) by nra.
            assert (disc <= (b - 2 * gamma * u) * (b - 2 * gamma * u)) by (rewrite <- Hss; apply Rmult_le_compat; lra). nra.
          - intros c Hc. apply Hsign; [lra|]. apply Hge; lra. }
        rewrite !Hval in * by lra. destruct H2; lra.
    + apply even_prox; auto; [lra|]. intros z Hz. fold m. change (val 0 <= val z).
      destruct (Rle_dec 0 r) as [Hr0|Hr0].
      * assert (H2 : h 0 <= h z \/ h r <= h z).
        { apply (two_phase h (fun c => q c / (gamma * c + 1)) r); auto.
          - intros u v Hu Huv Hvr H. apply Hsign; auto. apply Hsign2 in H; [|lra].
            pose proof (Hsq v) as Sv. pose proof (Hsq u) as Su.
            assert (Hv : 2 * gamma * v - b <= - sqrt disc).
            { destruct (Rle_dec (2 * gamma * v - b) (- sqrt disc)); auto. exfalso.
              assert (2 * gamma * v - b < sqrt disc) by nra.
              assert ((2 * gamma * v - b) * (2 * gamma * v - b) < disc) by nra. nra. }
            assert (Hu' : sqrt disc <= b - 2 * gamma * u) by nra.
            assert (disc <= (b - 2 * gamma * u) * (b - 2 * gamma * u)) by (rewrite <- Hss; apply Rmult_le_compat; lra). nra.
          - intros c Hc. apply Hsign; [lra|]. apply Hge; lra. }
        rewrite !Hval in * by lra. destruct H2; lra.
      * rewrite !Hval by lra. apply (mvt_le h (fun c => q c / (gamma * c + 1))); auto; intros c Hc; [apply Hd; lra|].
        apply Hsign; [lra|]. apply Hge; lra.
  - apply even_prox; auto; [lra|]. intros z Hz. fold m. change (val 0 <= val z).
    rewrite !Hval by lra. apply (mvt_le h (fun c => q c / (gamma * c + 1))); auto; intros c Hc; [apply Hd; lra|].
    apply Hsign; [lra|]. specialize (Hsq c). pose proof (Rle_0_sqr (2 * gamma * c - b)) as Hx. unfold Rsqr in Hx. nra.
Qed.

(*! C28_log_exact : for sigma >= 0, gamma > 0 and every tau > 0, Log.prox is a global minimiser of the function its
   call evaluates, sum_i sigma/log(gamma+1) log(gamma |x_i| + 1), plus quadratic, for all inputs *)
Lemma C28_log_exact_l : forall n fuel sigma gamma, 0 <= sigma -> 0 < gamma ->
  let o := obj (S fuel) (sep_body (n:=n) (log_elem sigma gamma) (log_pr sigma gamma)) in
  let f := etot (sumf (fun a => sigma / ln (gamma + 1) * ln (gamma * Rabs a + 1))) in
  impl_call o f /\ impl_prox o f.
Proof.
  intros n fuel sigma gamma Hs Hg o f. split.
  - intros x _. reflexivity.
  - intros x tau Ht. apply sep_prox_ok; auto. intros a _. apply log_scalar_ok; auto.
Qed.

(** ** Log1 *)
Lemma ln2_gt : / 2 < ln 2.
Proof.
  rewrite <- (ln_exp (/ 2)). apply ln_increasing; [apply exp_pos|].
  assert (H : exp (/ 2) * exp (/ 2) = exp 1) by (rewrite <- exp_plus; f_equal; field).
  pose proof exp_le_3. pose proof (exp_pos (/ 2)). nra.
Qed.

(*!ex C28_example : gamma = 1, sigma = log 2, tau = 1: prox(0) = 0 and prox(2) = (1 + sqrt 5)/2 *)
Lemma C28_example_l : log_pr (ln 2) 1 1 0 = 0 /\ log_pr (ln 2) 1 1 2 = (1 + sqrt 5) / 2 /\ 0 <= ln 2 /\ 0 < 1.
Proof.
  pose proof ln2_gt as Hl. split; [|split; [|split; lra]].
  - unfold log_pr. rewrite sgn_0. ring.
  - unfold log_pr. rewrite sgn_pos, Rabs_right by lra. replace (1 + 1) with 2 by ring.
    replace (1 * ln 2 / ln 2) with 1 by (field; lra).
    replace ((1 * 2 - 1) * (1 * 2 - 1) - 4 * 1 * (1 * 1 - 2)) with 5 by ring.
    destruct (Rleb_spec 0 5) as [[_ ->]|[? _]]; [|lra].
    assert (Hs : 2 < sqrt 5 < 3).
    { split; [rewrite <- (sqrt_square 2) by lra | rewrite <- (sqrt_square 3) by lra]; apply sqrt_lt_1; lra. }
    set (r := (1 * 2 - 1 + sqrt 5) / (2 * 1)). assert (Hr : r = (1 + sqrt 5) / 2) by (unfold r; field).
    match goal with |- context [Rltb ?u ?v] => assert (Hx : u < v) end.
    { rewrite log_elem_0. unfold log_elem. rewrite (Rabs_right r) by lra. replace (ln 2 / ln (1 + 1)) with 1 by (replace (1+1) with 2 by ring; field; lra).
      replace (1 * r + 1) with (1 + r) by ring.
      assert (Hr0 : 0 < r) by lra. pose proof (exp_ineq1 r ltac:(lra)) as He.
      apply ln_increasing in He; [|lra]. rewrite ln_exp in He. assert (r * r = r + 1) by (rewrite Hr; pose proof (sqrt_sqrt 5 ltac:(lra)); nra). nra. }
    rewrite (proj2 (Rltb_true _ _) Hx). rewrite Hr. ring.
Qed.
