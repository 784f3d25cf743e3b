(** * Proofs about the entrywise penalties on complex arrays (M_Cx.v) *)
From Coq Require Import Psatz ZArith Rtrigo1 Ratan Rpower.
From Verif Require Import Base Space Spec SpecOps ConvexFacts Sep VSum MatFacts Cplx M_ProxOp M_L1 M_Pen M_Proj M_L0 M_Cx S_Pen S_Pen2 S_Pen3 P_Pen P_Pen2 P_Pen3 P_L1 P_SVD P_Log1 P_Conv P_Cx P_ProxOp.
From Verif Require Export S_Cx.
Open Scope result_scope.

(** one entry: w has modulus |a| and the phase of z *)
Definition turn1 (a : R) (z w : C) : Prop := cscal (cmod z) w = cscal a z /\ cmod w = Rabs a.

Lemma turned_map n prc (pr : R -> R) (x : CArr n) : (forall i, (i < n)%nat -> turn1 (pr (cmod (cg x i))) (cg x i) (prc (cg x i))) ->
  turned x (vmap pr (cmodulus x)) (cmapv prc x).
Proof. intros H i Hi. unfold cmapv. rewrite cg_cvec, get_vmap, get_cmodulus by auto. apply H; auto. Qed.
Lemma sumf_RS n phi (x : Vec n) : sumf phi x = RS n (fun i => phi (get x i)).
Proof. exact (Rsum_map_lst n x phi). Qed.
Lemma sumf_sign_free n phi : sign_free (n:=n) (etot (sumf (fun a => phi (Rabs a)))).
Proof.
  intros x y H. split; [reflexivity|]. intros _. cbn [eval etot]. rewrite !sumf_RS.
  apply RS_ext. intros i Hi. rewrite H by auto. reflexivity.
Qed.
Lemma csumf_on n phi (z : CArr n) : eval (on_moduli (etot (sumf (fun a => phi (Rabs a))))) z = csumf phi z.
Proof.
  cbn [eval on_moduli etot]. rewrite sumf_RS. unfold csumf. apply RS_ext. intros i Hi.
  rewrite get_cmodulus by auto. rewrite Rabs_right by (apply Rle_ge, cmod_nonneg). reflexivity.
Qed.
Lemma csep_iff n phi tau prc pr (x : CArr n) : 0 < tau ->
  (forall i, (i < n)%nat -> turn1 (pr (cmod (cg x i))) (cg x i) (prc (cg x i))) ->
  (is_prox (etot (csumf phi)) tau x (cmapv prc x) <-> is_prox (etot (sumf (fun a => phi (Rabs a)))) tau (cmodulus x) (vmap pr (cmodulus x) : Vec n)).
Proof.
  intros Ht H. rewrite <- (C80_radial_l n _ tau x (cmapv prc x) (vmap pr (cmodulus x)) (sumf_sign_free n phi) Ht (turned_map n prc pr x H)).
  split; apply is_prox_ext; intros y; try (split; intros; exact I).
  - intros _. rewrite csumf_on. reflexivity.
  - intros _. rewrite csumf_on. reflexivity.
Qed.
Lemma csep_ok n phi tau prc pr (x : CArr n) : 0 < tau -> (forall z, turn1 (pr (cmod z)) z (prc z)) ->
  (forall a, sprox (fun a => phi (Rabs a)) tau a (pr a)) -> is_prox (etot (csumf phi)) tau x (cmapv prc x).
Proof.
  intros Ht H1 H2. apply (csep_iff n phi tau prc pr); auto. apply sumf_prox. auto.
Qed.

Lemma turn_self (z : C) : turn1 (cmod z) z z.
Proof. split; [reflexivity|]. rewrite Rabs_right; [reflexivity|apply Rle_ge, cmod_nonneg]. Qed.
Lemma turn_scal t (z : C) : turn1 (t * cmod z) z (cscal t z).
Proof.
  split; [unfold cscal; simpl; f_equal; ring|]. rewrite cmod_scal, Rabs_mult, (Rabs_right (cmod z)) by apply Rle_ge, cmod_nonneg. reflexivity.
Qed.
Lemma turn_0 (z : C) : turn1 0 z (0, 0).
Proof. split; [unfold cscal; simpl; f_equal; ring|]. change (0,0) with C0. rewrite cmod_C0, Rabs_R0. reflexivity. Qed.
Lemma turn_sign a (z : C) : turn1 (a * sgn (cmod z)) z (cscal a (csign_new z)).
Proof.
  unfold csign_new. change (@norm C_IPS z) with (cmod z). pose proof (cmod_nonneg z). destruct (Reqb_spec (cmod z) 0) as [[H0 ->]|[H0 ->]].
  - rewrite H0, sgn_0, Rmult_0_r. replace (cscal a (0, 0)) with ((0,0) : C) by (unfold cscal; simpl; f_equal; ring).
    apply turn_0.
  - rewrite sgn_pos by lra. change (turn1 (a * 1) z (cscal a (cscal (/ cmod z) z))).
    replace (cscal a (cscal (/ cmod z) z)) with (cscal (a * / cmod z) z) by (unfold cscal; simpl; f_equal; ring).
    replace (a * 1) with (a * / cmod z * cmod z) by (field; auto). apply turn_scal.
Qed.
Lemma turn_eq a b z w v : turn1 a z w -> a = b -> w = v -> turn1 b z v.
Proof. intros H <- <-. exact H. Qed.

Lemma huberc_turn alpha tau z : 0 < alpha -> 0 < tau -> turn1 (huber_pr alpha tau (cmod z)) z (huberc_pr alpha tau z).
Proof.
  intros Ha Ht. unfold huber_pr, huberc_pr. change (@norm C_IPS z) with (cmod z). pose proof (cmod_nonneg z).
  rewrite (Rabs_right (cmod z)) by lra. destruct (Rltb_spec alpha (cmod z)) as [[H1 ->]|[H1 ->]].
  - unfold soft, csoft. change (@norm C_IPS z) with (cmod z). rewrite (Rabs_right (cmod z)), sgn_pos by lra.
    destruct (Reqb_spec (cmod z) 0) as [[E ->]|[E ->]]; [lra|].
    change (turn1 (Rmax (cmod z - tau * 1) 0 * 1) z (cscal (Rmax (cmod z - tau * 1) 0 / cmod z) z)).
    set (m := Rmax _ _). replace (m * 1) with (m / cmod z * cmod z) by (field; auto). apply turn_scal.
  - change (turn1 (cmod z / (1 + tau * (1 / alpha))) z (cscal (/ (1 + tau * (1 / alpha))) z)).
    replace (cmod z / (1 + tau * (1 / alpha))) with (/ (1 + tau * (1 / alpha)) * cmod z) by (unfold Rdiv; ring). apply turn_scal.
Qed.
Lemma hardc_turn t z : turn1 (hard t (cmod z)) z (hardc t z).
Proof.
  unfold hard, hardc. change (@norm C_IPS z) with (cmod z). rewrite (Rabs_right (cmod z)) by apply Rle_ge, cmod_nonneg.
  destruct (Rleb (cmod z) t); [apply turn_0|apply turn_self].
Qed.
Lemma logc_turn sigma gamma tau z : turn1 (log_pr sigma gamma tau (cmod z)) z (logc_pr csign_new sigma gamma tau z).
Proof.
  unfold log_pr, logc_pr, log_elem. change (@norm C_IPS z) with (cmod z). rewrite (Rabs_right (cmod z)) by apply Rle_ge, cmod_nonneg.
  apply turn_sign.
Qed.
Lemma qecc_turn mu tau z : turn1 (qec_pr mu tau (cmod z)) z (qecc_pr csign_new mu tau z).
Proof.
  unfold qec_pr, qecc_pr. change (@norm C_IPS z) with (cmod z). rewrite (Rabs_right (cmod z)) by apply Rle_ge, cmod_nonneg.
  apply turn_sign.
Qed.
Lemma gemanc_turn sigma gamma tau z : turn1 (geman_pr sigma gamma tau (cmod z)) z (gemanc_pr csign_new sigma gamma tau z).
Proof.
  unfold geman_pr, gemanc_pr, geman_elem. change (@norm C_IPS z) with (cmod z). rewrite (Rabs_right (cmod z)) by apply Rle_ge, cmod_nonneg.
  match goal with |- turn1 (if ?c then _ else _) _ _ => destruct c end; [|apply turn_0].
  match goal with |- turn1 (if ?c then _ else _) _ _ => destruct c end; [|apply turn_0].
  match goal with |- turn1 (sgn _ * ?u) _ _ => rewrite (Rmult_comm _ u) end. apply turn_sign.
Qed.
Lemma rmsc_turn sigma kappa tau z : turn1 (rms_pr sigma kappa tau (cmod z)) z (rmsc_pr sigma kappa tau z).
Proof.
  unfold rms_pr, rmsc_pr. change (@norm C_IPS z) with (cmod z). rewrite (Rabs_right (cmod z)) by apply Rle_ge, cmod_nonneg.
  match goal with |- turn1 (if ?c then _ else _) _ _ => destruct c end; [apply turn_scal|apply turn_self].
Qed.
Lemma scadc_turn sigma al tau z : 0 < sigma -> 1 < al -> 0 < tau <= al - 1 -> turn1 (scad_pr sigma al tau (cmod z)) z (scadc_pr csign_new sigma al tau z).
Proof.
  intros Hs Ha Ht. unfold scad_pr, scadc_pr. change (@norm C_IPS z) with (cmod z). pose proof (cmod_nonneg z). rewrite (Rabs_right (cmod z)) by lra.
  match goal with |- turn1 (if Rleb _ ?f then _ else _) _ _ => set (first := f) end.
  destruct (Rleb_spec (cmod z) first) as [[H1 ->]|[H1 ->]].
  - rewrite (Rmult_comm (sgn _)). apply turn_sign.
  - match goal with |- turn1 (if ?c then _ else _) _ _ => destruct c end; [|apply turn_self].
    assert (Hz : 0 < cmod z).
    { assert (0 <= first); [|lra]. unfold first. apply Rmult_le_pos; [|left; apply Rinv_0_lt_compat; lra]. apply Rmult_le_pos; nra. }
    assert (E : csign_new z = cscal (/ cmod z) z).
    { unfold csign_new. change (@norm C_IPS z) with (cmod z). destruct (Reqb_spec (cmod z) 0) as [[E ->]|[E ->]]; [lra|reflexivity]. }
    rewrite E, sgn_pos by auto.
    eapply turn_eq; [apply (turn_scal (/ (al - 1 - tau) * ((al - 1) - al * sigma * tau * / cmod z)) z)| |].
    + unfold Rdiv. replace (/ (al - 1 - tau) * (al - 1 - al * sigma * tau * / cmod z) * cmod z) with
        (/ (al - 1 - tau) * ((al - 1) * cmod z - al * sigma * tau * (/ cmod z * cmod z))) by ring.
      rewrite Rinv_l by lra. ring.
    + destruct z as [a b]. unfold cscal, vsub; simpl. f_equal; ring.
Qed.

Lemma csep_prox_ok n fuel elem phi prc pr (x : CArr n) tau : 0 < tau -> (forall z, turn1 (pr (cmod z)) z (prc tau z)) ->
  (forall a, sprox (fun a => phi (Rabs a)) tau a (pr a)) ->
  exists p, o_prox (obj (S fuel) (csep_body (n:=n) elem prc)) x tau = Ok p /\ is_prox (etot (csumf phi)) tau x p.
Proof.
  intros Ht H1 H2. simpl. rewrite check_tau_pos by auto. eexists; split; [reflexivity|]. apply (csep_ok n phi tau (prc tau) pr); auto.
Qed.

Lemma csep_call_ok n fuel elem phi prc : (forall z, elem z = phi (cmod z)) ->
  impl_call (obj (S fuel) (csep_body (n:=n) elem prc)) (etot (csumf phi)).
Proof.
  intros H y _. change (Ok (VNum (RS n (fun i => elem (cg y i)))) = Ok (VNum (RS n (fun i => phi (cmod (cg y i)))))). do 2 f_equal. apply RS_ext. intros i _. apply H.
Qed.

(*! C80_huber : Huber on complex arrays: call is the sum of the Huber function of the moduli, and prox is the exact
   proximal point exactly when no modulus lies in the open band alpha < |x_i| < alpha + tau *)
Lemma C80_huber_l : forall n fuel alpha tau (x : CArr n), 0 < alpha -> 0 < tau ->
  let o := obj (S fuel) (csep_body (n:=n) (huberc_elem alpha) (huberc_pr alpha)) in
  let f := etot (csumf (fun r => if Rle_dec r alpha then r * r / (2 * alpha) else r - alpha / 2)) in
  impl_call o f /\
  exists p, o_prox o x tau = Ok p /\ (is_prox f tau x p <-> forall i, (i < n)%nat -> ~ (alpha < cmod (cg x i) < alpha + tau)).
Proof.
  intros n fuel alpha tau x Ha Ht o f. split.
  - apply csep_call_ok. intro z. unfold huberc_elem.
    change (@norm C_IPS z) with (cmod z). destruct (Rltb_spec alpha (cmod z)) as [[H ->]|[H ->]]; destruct (Rle_dec _ _); try lra; reflexivity.
  - unfold o. simpl. rewrite check_tau_pos by auto. eexists; split; [reflexivity|].
    unfold f. rewrite (csep_iff n _ tau (huberc_pr alpha tau) (huber_pr alpha tau) x Ht) by (intros; apply huberc_turn; auto).
    destruct (C20_huber_exact_iff_l n 0 alpha tau (cmodulus x) Ha Ht) as [p [Hp Hiff]].
    assert (Ep : p = vmap (huber_pr alpha tau) (cmodulus x)).
    { simpl in Hp. rewrite check_tau_pos in Hp by auto. injection Hp as <-. reflexivity. }
    rewrite <- Ep. transitivity (is_prox (etot (sumf (huber_elem alpha))) tau (cmodulus x) p).
    + assert (Hx : forall y : Vec n, sumf (fun a => if Rle_dec (Rabs a) alpha then Rabs a * Rabs a / (2 * alpha) else Rabs a - alpha / 2) y = sumf (huber_elem alpha) y).
      { intro y. unfold sumf. f_equal. apply map_ext. intro a. unfold huber_elem. destruct (Rltb_spec alpha (Rabs a)) as [[H ->]|[H ->]]; destruct (Rle_dec _ _); try lra; reflexivity. }
      split; apply is_prox_ext; try (intros; split; intros; exact I); intros y _; cbn [eval etot]; [apply Hx|symmetry; apply Hx].
    + rewrite Hiff. assert (L : length (lst (cmodulus x)) = n) by exact (proj2_sig (cmodulus x : nlist R n)). split.
      * intros H i Hi Hb. apply (H (cmod (cg x i))).
        -- rewrite <- (get_cmodulus n x i Hi). unfold get. apply (nth_In (lst (cmodulus x))). rewrite L. exact Hi.
        -- rewrite Rabs_right by (apply Rle_ge, cmod_nonneg). exact Hb.
      * intros H a Hin. apply (In_nth _ _ 0) in Hin. destruct Hin as [i [Hi Ea]]. change (i < length (lst (cmodulus x)))%nat in Hi. rewrite L in Hi.
        change (get (cmodulus x) i = a) in Ea. rewrite get_cmodulus in Ea by auto. rewrite <- Ea.
        rewrite Rabs_right by (apply Rle_ge, cmod_nonneg). apply H; auto.
Qed.

(*! C80_l0 : L0 on complex arrays: call counts the entries of non-zero modulus; prox is the exact proximal point of
   (tau sigma^2 / 2) times that count, as on real arrays *)
Lemma C80_l0_l : forall n fuel sigma tau (x : CArr n), 0 <= sigma -> 0 < tau ->
  let o := obj (S fuel) (csep_body (n:=n) l0c_elem (l0c_pr sigma)) in
  impl_call o (etot (csumf (fun r => if Req_EM_T r 0 then 0 else 1))) /\
  exists p, o_prox o x tau = Ok p /\ is_prox (etot (csumf (fun r => if Req_EM_T r 0 then 0 else tau * sigma * sigma / 2))) tau x p.
Proof.
  intros n fuel sigma tau x Hs Ht o. split.
  - apply csep_call_ok. intro z. unfold l0c_elem.
    change (@norm C_IPS z) with (cmod z). pose proof (cmod_nonneg z).
    destruct (Rltb_spec 0 (cmod z)) as [[H0 ->]|[H0 ->]]; destruct (Req_EM_T _ 0); try lra; reflexivity.
  - unfold o. simpl. rewrite check_tau_pos by auto. eexists; split; [reflexivity|].
    rewrite (csep_iff n _ tau (l0c_pr sigma tau) (l0_pr sigma tau) x Ht) by (intros; apply hardc_turn).
    destruct (C27_what_it_computes_l n 0 sigma tau (cmodulus x) Hs Ht) as [p [Hp Hpx]].
    simpl in Hp. rewrite check_tau_pos in Hp by auto. injection Hp as <-.
    revert Hpx. apply is_prox_ext; try (intros; split; intros; exact I). intros y _. cbn [eval etot]. unfold card_fun, sumf. f_equal. apply map_ext. intro a.
    destruct (Req_EM_T a 0) as [->|Hne]; [rewrite Rabs_R0; destruct (Req_EM_T 0 0); [reflexivity|lra]|].
    destruct (Req_EM_T (Rabs a) 0) as [E|]; [|reflexivity]. destruct (Req_dec a 0); [lra|]. apply Rabs_no_R0 in H. contradiction.
Qed.

(*! C80_log : with the np.sign of numpy 2, Log on complex arrays: call is the documented function of the moduli and
   prox a global minimiser of it plus |y-x|^2/(2 tau), for all inputs *)
Lemma C80_log_l : forall n fuel sigma gamma, 0 <= sigma -> 0 < gamma ->
  let o := obj (S fuel) (csep_body (n:=n) (logc_elem sigma gamma) (logc_pr csign_new sigma gamma)) in
  let f := etot (csumf (fun r => sigma / ln (gamma + 1) * ln (gamma * r + 1))) in
  impl_call o f /\ impl_prox o f.
Proof.
  intros n fuel sigma gamma Hs Hg o f. split; [apply csep_call_ok; reflexivity|]. intros x tau Ht.
  apply (csep_prox_ok n fuel _ _ _ (log_pr sigma gamma tau) x tau Ht).
  - intro z. apply logc_turn.
  - intro a. apply log_scalar_ok; auto.
Qed.

(*! C80_geman : with the np.sign of numpy 2, Geman on complex arrays is exact in the same sense *)
Lemma C80_geman_l : forall n fuel sigma gamma, 0 <= sigma -> 0 < gamma ->
  let o := obj (S fuel) (csep_body (n:=n) (gemanc_elem sigma gamma) (gemanc_pr csign_new sigma gamma)) in
  let f := etot (csumf (fun r => sigma * r / (r + gamma))) in
  impl_call o f /\ impl_prox o f.
Proof.
  intros n fuel sigma gamma Hs Hg o f. split; [apply csep_call_ok; reflexivity|]. intros x tau Ht.
  apply (csep_prox_ok n fuel _ _ _ (geman_pr sigma gamma tau) x tau Ht).
  - intro z. apply gemanc_turn.
  - intro a. apply geman_scalar_ok; auto.
Qed.

(*! C80_qe_card : with the np.sign of numpy 2, QuadraticEnvelopeCard on complex arrays: call is the envelope of the
   moduli and, for tau <= 1, prox a global minimiser *)
Lemma C80_qe_card_l : forall n fuel mu tau (x : CArr n), 0 <= mu -> 0 < tau <= 1 ->
  let o := obj (S fuel) (csep_body (n:=n) (qecc_elem mu) (qecc_pr csign_new mu)) in
  let f := etot (csumf (fun r => mu - / 2 * (Rmax 0 (sqrt (2 * mu) - r)) ^ 2)) in
  impl_call o f /\ exists p, o_prox o x tau = Ok p /\ is_prox f tau x p.
Proof.
  intros n fuel mu tau x Hm Ht o f. split.
  - apply csep_call_ok. intro z. unfold qecc_elem. change (@norm C_IPS z) with (cmod z). ring.
  - apply (csep_prox_ok n fuel _ _ _ (qec_pr mu tau) x tau (proj1 Ht)).
    + intro z. apply qecc_turn.
    + intro a. apply (qec_scalar_ok mu tau a Hm Ht).
Qed.

(*! C80_rms : RelaxedMumfordShah.prox on complex arrays is a global minimiser for sum_i min(sigma |x_i|^2, kappa) *)
Lemma C80_rms_l : forall n sigma kappa tau (x : CArr n), 0 < sigma -> 0 <= kappa -> 0 < tau ->
  is_prox (etot (csumf (fun r => Rmin (sigma * (r * r)) kappa))) tau x (cmapv (rmsc_pr sigma kappa tau) x).
Proof.
  intros n sigma kappa tau x Hs Hk Ht. apply (csep_ok n _ tau _ (rms_pr sigma kappa tau)); auto.
  - intro z. apply rmsc_turn.
  - intro a. pose proof (rms_scalar_ok sigma kappa tau a Hs Hk Ht) as H. revert H. apply is_prox_ext; try (intros; split; intros; exact I).
    intros y _. cbn [eval etot]. rewrite <- Rabs_mult, (Rabs_right (y * y)) by nra. reflexivity.
Qed.

(*! C80_scad : with the np.sign of numpy 2 and tau <= a - 1, SCAD.prox on complex arrays is a global minimiser of the
   documented SCAD function of the moduli plus the quadratic *)
Lemma C80_scad_l : forall n fuel sigma al tau (x : CArr n), scad_init sigma al = Ok tt -> 0 < tau <= al - 1 ->
  exists p, o_prox (obj (S fuel) (scadc_body csign_new (n:=n) sigma al)) x tau = Ok p /\ is_prox (etot (csumf (scad_fun sigma al))) tau x p.
Proof.
  intros n fuel sigma al tau x Hi Ht. unfold scad_init in Hi.
  destruct (Rleb_spec sigma 0) as [[? E]|[? E]]; rewrite E in Hi; [discriminate|]. destruct (Rleb_spec al 2) as [[? E2]|[? E2]]; rewrite E2 in Hi; [discriminate|].
  simpl. rewrite check_tau_pos by lra. eexists; split; [reflexivity|].
  apply (csep_ok n _ tau _ (scad_pr sigma al tau)); [lra| |].
  - intro z. apply scadc_turn; lra.
  - intro a. pose proof (scad_scalar_ok sigma al tau a ltac:(lra) ltac:(lra) Ht) as H1. revert H1. apply is_prox_ext; try (intros; split; intros; exact I).
    intros y _. cbn [eval etot]. apply scad_even.
Qed.
