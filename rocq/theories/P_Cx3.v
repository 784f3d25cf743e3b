(** * Proofs about operators on complex arrays (M_Cx.v): phases, and the functions that numpy evaluates differently *)
From Coq Require Import Psatz ZArith Rtrigo1 Ratan Rpower.
From Verif Require Import Base Space Spec SpecOps ConvexFacts Sep VSum MatFacts Cplx M_ProxOp M_L1 M_Pen M_Proj M_L0 M_Cx S_Pen S_Pen2 S_Pen3 P_Pen P_Pen2 P_Pen3 P_L1 P_L21 P_SVD P_Log1 DFT P_Conv P_Cx P_ProxOp P_Cx2.
From Verif Require Export S_Cx.
Open Scope result_scope.

Lemma cdist_eq (w z : C) : cabs2 (csub w z) = (cmod w - cmod z) * (cmod w - cmod z) -> cscal (cmod z) w = cscal (cmod w) z.
Proof.
  intro H. pose proof (cmod_sq w) as Hw. pose proof (cmod_sq z) as Hz. pose proof (cmod_nonneg w) as H1. pose proof (cmod_nonneg z) as H2.
  set (a := cmod w) in *. set (b := cmod z) in *. destruct w as [p q], z as [s t]. unfold cabs2, csub, cscal in *; simpl in *.
  assert (E : p * s + q * t = a * b) by lra.
  assert (K : (b * p - a * s) * (b * p - a * s) + (b * q - a * t) * (b * q - a * t) = 0).
  { replace (_ + _) with ((b * b) * (p * p + q * q) + (a * a) * (s * s + t * t) - 2 * (a * b) * (p * s + q * t)) by ring.
    rewrite <- Hw, <- Hz, E. ring. }
  set (u := b * p - a * s) in *. set (v := b * q - a * t) in *.
  assert (u = 0 /\ v = 0) as [Hu Hv] by (split; nra). unfold u, v in *. f_equal; lra.
Qed.

(*! C80_phase : every proximal point of a function of the moduli has the phase of its argument in every entry *)
Lemma C80_phase_l : forall n (F : efun (Vec n)) tau (z w : CArr n), 0 < tau -> is_prox (on_moduli F) tau z w ->
  forall i, (i < n)%nat -> cscal (cmod (cg z i)) (cg w i) = cscal (cmod (cg w i)) (cg z i).
Proof.
  intros n F tau z w Ht [Hd Hp]. set (v := turn z (cmodulus w)).
  assert (Hv : turned z (cmodulus w) v) by apply turn_turned.
  assert (Em : cmodulus v = cmodulus w).
  { apply vec_ext. intros i Hi. rewrite (turned_mod n z _ v i Hv Hi), get_cmodulus by auto. apply Rabs_right, Rle_ge, cmod_nonneg. }
  assert (Hdv : edom (on_moduli F) v) by (simpl; rewrite Em; exact Hd).
  pose proof (Hp v Hdv) as H. cbn [eval on_moduli] in H. rewrite Em in H.
  assert (H' : norm2 (w [-] z) <= norm2 (v [-] z)).
  { apply (Rmult_le_reg_l (/ (2 * tau))); [apply Rinv_0_lt_compat; lra|]. lra. }
  rewrite (turned_dist n z _ v Hv) in H'. pose proof (mod_dist n w z) as H''.
  assert (E : norm2 (w [-] z) - norm2 (cmodulus w [-] cmodulus z) = 0) by lra.
  rewrite carr_dist2, vec_dist2, <- RS_sub in E.
  intros i Hi. apply cdist_eq.
  match type of E with RS _ ?h = 0 => assert (A0 : forall j, (j < n)%nat -> 0 <= h j) by
    (intros j Hj; cbv beta; rewrite !get_cmodulus by auto; pose proof (cdist_ge (cg w j) (cg z j)); lra) end.
  assert (A := RS_zero_all n _ A0 E i Hi). cbv beta in A. rewrite !get_cmodulus in A by auto. lra.
Qed.
Lemma csum_phase n phi tau (z w : CArr n) : 0 < tau -> is_prox (etot (csumf phi)) tau z w ->
  forall i, (i < n)%nat -> cscal (cmod (cg z i)) (cg w i) = cscal (cmod (cg w i)) (cg z i).
Proof.
  intros Ht H. apply (C80_phase_l n (etot (sumf (fun a => phi (Rabs a)))) tau z w Ht).
  revert H. apply is_prox_ext; try (intros; split; intros; exact I). intros y _. rewrite csumf_on. reflexivity.
Qed.

(** a non-zero real entry where the argument has a non-zero imaginary part cannot come from a minimiser *)
Lemma real_not_parallel (z w : C) : snd z <> 0 -> snd w = 0 -> w <> C0 -> cscal (cmod z) w <> cscal (cmod w) z.
Proof.
  intros Hz Hw H0 E. apply H0. apply cmod_eq0. injection E as _ E. rewrite Hw in E. nra.
Qed.
Lemma old_real t z : snd (cscal t (csign_old z)) = 0.
Proof. unfold csign_old, cscal; simpl. ring. Qed.
Lemma cg_cmapv n f (x : CArr n) i : (i < n)%nat -> cg (cmapv f x) i = f (cg x i).
Proof. intro H. unfold cmapv. rewrite cg_cvec by auto. reflexivity. Qed.
Lemma old_bad n phi tau prc (x : CArr n) i : 0 < tau -> (i < n)%nat -> (exists t, prc (cg x i) = cscal t (csign_old (cg x i)) \/ prc (cg x i) = C0) ->
  snd (cg x i) <> 0 -> cg (cmapv prc x) i <> C0 -> ~ is_prox (etot (csumf phi)) tau x (cmapv prc x).
Proof.
  intros Ht Hi [t Hp] Hx H0 H. pose proof (csum_phase n phi tau x _ Ht H i Hi) as E. rewrite cg_cmapv in * by auto.
  revert E. apply real_not_parallel; auto. destruct Hp as [Hp|Hp]; [|contradiction]. rewrite Hp. apply old_real.
Qed.

(*! C80_old_sign_log_refuted : with the np.sign of numpy < 2, Log.prox returns a real number for every entry: it is not a
   minimiser as soon as one entry of x with a non-zero imaginary part is not sent to 0 *)
Lemma C80_old_sign_log_refuted_l : forall n fuel sigma gamma tau (x p : CArr n) i, 0 < tau -> (i < n)%nat ->
  o_prox (obj (S fuel) (csep_body (n:=n) (logc_elem sigma gamma) (logc_pr csign_old sigma gamma))) x tau = Ok p ->
  snd (cg x i) <> 0 -> cg p i <> C0 ->
  ~ is_prox (etot (csumf (fun r => sigma / ln (gamma + 1) * ln (gamma * r + 1)))) tau x p.
Proof.
  intros n fuel sigma gamma tau x p i Ht Hi Hp Hx H0. simpl in Hp. rewrite check_tau_pos in Hp by auto. injection Hp as <-.
  eapply old_bad; eauto. unfold logc_pr. eexists. left. reflexivity.
Qed.
(*! C80_old_sign_geman_refuted : the same for Geman *)
Lemma C80_old_sign_geman_refuted_l : forall n fuel sigma gamma tau (x p : CArr n) i, 0 < tau -> (i < n)%nat ->
  o_prox (obj (S fuel) (csep_body (n:=n) (gemanc_elem sigma gamma) (gemanc_pr csign_old sigma gamma))) x tau = Ok p ->
  snd (cg x i) <> 0 -> cg p i <> C0 ->
  ~ is_prox (etot (csumf (fun r => sigma * r / (r + gamma)))) tau x p.
Proof.
  intros n fuel sigma gamma tau x p i Ht Hi Hp Hx H0. simpl in Hp. rewrite check_tau_pos in Hp by auto. injection Hp as <-.
  eapply old_bad; eauto. unfold gemanc_pr.
  match goal with |- context[if ?c then _ else _] => destruct c end; [|exists 0; right; reflexivity].
  match goal with |- context[if ?c then _ else _] => destruct c end; [|exists 0; right; reflexivity].
  eexists. left. reflexivity.
Qed.
(*! C80_old_sign_qe_card_refuted : the same for QuadraticEnvelopeCard *)
Lemma C80_old_sign_qe_card_refuted_l : forall n fuel mu tau (x p : CArr n) i, 0 < tau -> (i < n)%nat ->
  o_prox (obj (S fuel) (csep_body (n:=n) (qecc_elem mu) (qecc_pr csign_old mu))) x tau = Ok p ->
  snd (cg x i) <> 0 -> cg p i <> C0 ->
  ~ is_prox (etot (csumf (fun r => mu - / 2 * (Rmax 0 (sqrt (2 * mu) - r)) ^ 2))) tau x p.
Proof.
  intros n fuel mu tau x p i Ht Hi Hp Hx H0. simpl in Hp. rewrite check_tau_pos in Hp by auto. injection Hp as <-.
  eapply old_bad; eauto. unfold qecc_pr. eexists. left. reflexivity.
Qed.
(*! C80_old_sign_scad_refuted : the same for SCAD, for an entry with modulus at most a sigma (larger ones are returned as they are) *)
Lemma C80_old_sign_scad_refuted_l : forall n fuel sigma al tau (x p : CArr n) i, scad_init sigma al = Ok tt -> 0 < tau < al - 1 -> (i < n)%nat ->
  o_prox (obj (S fuel) (scadc_body csign_old (n:=n) sigma al)) x tau = Ok p ->
  snd (cg x i) <> 0 -> cmod (cg x i) <= al * sigma -> cg p i <> C0 ->
  ~ is_prox (etot (csumf (scad_fun sigma al))) tau x p.
Proof.
  intros n fuel sigma al tau x p i Hin Ht Hi Hp Hx Hm H0 H. unfold scad_init in Hin.
  destruct (Rleb_spec sigma 0) as [[? E]|[? E]]; rewrite E in Hin; [discriminate|]. destruct (Rleb_spec al 2) as [[? E2]|[? E2]]; rewrite E2 in Hin; [discriminate|].
  simpl in Hp. rewrite check_tau_pos in Hp by lra. injection Hp as <-.
  pose proof (csum_phase n _ tau x _ (proj1 Ht) H i Hi) as P. rewrite cg_cmapv in * by auto.
  revert P H0. unfold scadc_pr. change (@norm C_IPS (cg x i)) with (cmod (cg x i)). set (z := cg x i) in *.
  match goal with |- context[Rleb _ ?f] => destruct (Rleb (cmod z) f) end.
  - intros P H0. revert P. apply real_not_parallel; auto. apply old_real.
  - destruct (Rleb_spec (cmod z) (al * sigma)) as [[_ ->]|[? _]]; [|lra]. intros P _.
    set (w := (/ (al - 1 - tau) [*] ((al - 1) [*] (z : C_IPS) [-] (al * sigma * tau) [*] csign_old z) : C)) in P.
    assert (Hs : fst (csign_old z) <> 0).
    { unfold csign_old; simpl. destruct (Reqb_spec (fst z) 0) as [[Z ->]|[Z ->]]; (destruct (Rtotal_order (snd z) 0) as [L|[L|L]]; [rewrite sgn_neg by auto| contradiction|rewrite sgn_pos by auto]; lra) || (destruct (Rtotal_order (fst z) 0) as [L|[L|L]]; [rewrite sgn_neg by auto| contradiction|rewrite sgn_pos by auto]; lra). }
    (* the cross product of w and z vanishes *)
    assert (Cr : fst w * snd z = snd w * fst z).
    { assert (P1 : cmod z * fst w = cmod w * fst z) by exact (f_equal fst P). assert (P2 : cmod z * snd w = cmod w * snd z) by exact (f_equal snd P).
      clearbody w. assert (Hz : cmod z <> 0) by (intro Z; apply cmod_eq0 in Z; rewrite Z in Hx; apply Hx; reflexivity).
      apply (Rmult_eq_reg_l (cmod z)); auto. rewrite <- !Rmult_assoc, P1, P2. ring. }
    unfold w in Cr. unfold vsub in Cr; simpl in Cr. unfold csign_old in *; simpl in *.
    set (s := if Reqb (fst z) 0 then sgn (snd z) else sgn (fst z)) in *.
    assert (K : / (al - 1 - tau) * (al * sigma * tau) * s * snd z = 0) by lra.
    assert (I0 : 0 < / (al - 1 - tau)) by (apply Rinv_0_lt_compat; lra).
    assert (0 < al * sigma * tau) by (apply Rmult_lt_0_compat; [apply Rmult_lt_0_compat|]; lra).
    apply Rmult_integral in K. destruct K as [K|K]; [|contradiction]. apply Rmult_integral in K. destruct K as [K|K]; [|contradiction].
    apply Rmult_integral in K. lra.
Qed.

(*! C80_scad_call : SCAD.__call__ on a complex array exceeds the documented value by Im(x_i)^2/(a-1) for every entry with
   sigma < |x_i| <= a sigma (the code squares x_i, not |x_i|): it is correct exactly when all those entries are real *)
Lemma C80_scad_call_l : forall n fuel sign sigma al (x : CArr n), 2 < al -> 0 < sigma ->
  exists v, o_call (obj (S fuel) (scadc_body sign (n:=n) sigma al)) x = Ok (VNum v) /\
    v = csumf (scad_fun sigma al) x + RS n (fun i => if Rle_dec (cmod (cg x i)) sigma then 0 else if Rle_dec (cmod (cg x i)) (al * sigma) then snd (cg x i) ^ 2 / (al - 1) else 0) /\
    (v = csumf (scad_fun sigma al) x <-> forall i, (i < n)%nat -> sigma < cmod (cg x i) <= al * sigma -> snd (cg x i) = 0).
Proof.
  intros n fuel sign sigma al x Ha Hs. eexists; split; [reflexivity|].
  assert (E : scadc_call sigma al x = csumf (scad_fun sigma al) x + RS n (fun i => if Rle_dec (cmod (cg x i)) sigma then 0 else if Rle_dec (cmod (cg x i)) (al * sigma) then snd (cg x i) ^ 2 / (al - 1) else 0)).
  { unfold scadc_call, csumf. rewrite csum_fst, <- RS_add. apply RS_ext. intros i Hi. unfold scadc_elem, scad_fun.
    change (@norm C_IPS (cg x i)) with (cmod (cg x i)). set (z := cg x i). pose proof (cmod_nonneg z) as H0. rewrite (Rabs_right (cmod z)) by lra.
    pose proof (cmod_sq z) as Hz. unfold cabs2 in Hz.
    destruct (Rleb_spec (cmod z) sigma) as [[H ->]|[H ->]]; destruct (Rle_dec (cmod z) sigma); try lra; [simpl; ring|].
    destruct (Rleb_spec (cmod z) (al * sigma)) as [[H1 ->]|[H1 ->]]; destruct (Rle_dec (cmod z) (al * sigma)); try lra; [|simpl; field].
    simpl. rewrite Hz. field. lra. }
  rewrite E. split; [reflexivity|]. set (D := RS n _). split.
  - intro H. assert (D0 : D = 0) by lra. intros i Hi Hm.
    unfold D in D0. match type of D0 with RS _ ?h = 0 => assert (A0 : forall j, (j < n)%nat -> 0 <= h j) by
      (intros j Hj; destruct (Rle_dec (cmod (cg x j)) sigma); [lra|]; destruct (Rle_dec (cmod (cg x j)) (al * sigma)); [|lra];
       apply Rmult_le_pos; [apply pow2_ge_0|left; apply Rinv_0_lt_compat; lra]) end.
    assert (K := RS_zero_all n _ A0 D0 i Hi).
    cbv beta in K. destruct (Rle_dec (cmod (cg x i)) sigma); [lra|]. destruct (Rle_dec (cmod (cg x i)) (al * sigma)); [|lra].
    assert (I0 : 0 < / (al - 1)) by (apply Rinv_0_lt_compat; lra). unfold Rdiv in K. apply Rmult_integral in K. destruct K as [K|K]; [|lra].
    simpl in K. apply Rmult_integral in K. destruct K as [K|K]; lra.
  - intro H. assert (D0 : D = 0); [|lra]. unfold D. apply eq_trans with (RS n (fun _ => 0)); [|apply RS_zero]. apply RS_ext. intros i Hi.
    destruct (Rle_dec (cmod (cg x i)) sigma) as [L|L]; [reflexivity|]. destruct (Rle_dec (cmod (cg x i)) (al * sigma)) as [L'|L']; [|reflexivity].
    assert (Z : snd (cg x i) = 0) by (apply H; [exact Hi|split; [apply Rnot_le_lt; exact L|exact L']]). rewrite Z. unfold Rdiv. simpl. ring.
Qed.
