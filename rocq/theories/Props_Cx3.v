(** Property theorems for Cx3: statements only; every proof is [exact] a lemma of P_Cx3.v.
    Generated from the tagged lemmas of that file. *)
From Coq Require Import Psatz ZArith Rtrigo1 Ratan Rpower.
From Verif Require Import Base Space Spec SpecOps ConvexFacts Sep VSum MatFacts Cplx M_ProxOp M_L1 M_Pen M_Proj M_L0 M_Cx S_Pen S_Pen2 S_Pen3 P_Pen P_Pen2 P_Pen3 P_L1 P_L21 P_SVD P_Log1 DFT P_Conv P_Cx P_ProxOp P_Cx2.
From Verif Require Import S_Cx.
From Verif Require Import P_Cx3.
Open Scope result_scope.


(** every proximal point of a function of the moduli has the phase of its argument in every
    entry *)
Theorem C80_phase : forall n (F : efun (Vec n)) tau (z w : CArr n), 0 < tau -> is_prox (on_moduli F) tau z w ->
  forall i, (i < n)%nat -> cscal (cmod (cg z i)) (cg w i) = cscal (cmod (cg w i)) (cg z i).
Proof. exact C80_phase_l. Qed.
Print Assumptions C80_phase.

(** with the np.sign of numpy < 2, Log.prox returns a real number for every entry: it is not a
    minimiser as soon as one entry of x with a non-zero imaginary part is not sent to 0 *)
Theorem C80_old_sign_log_refuted : forall n fuel sigma gamma tau (x p : CArr n) i, 0 < tau -> (i < n)%nat ->
  o_prox (obj (S fuel) (csep_body (n:=n) (logc_elem sigma gamma) (logc_pr csign_old sigma gamma))) x tau = Ok p ->
  snd (cg x i) <> 0 -> cg p i <> C0 ->
  ~ is_prox (etot (csumf (fun r => sigma / ln (gamma + 1) * ln (gamma * r + 1)))) tau x p.
Proof. exact C80_old_sign_log_refuted_l. Qed.
Print Assumptions C80_old_sign_log_refuted.

(** the same for Geman *)
Theorem C80_old_sign_geman_refuted : forall n fuel sigma gamma tau (x p : CArr n) i, 0 < tau -> (i < n)%nat ->
  o_prox (obj (S fuel) (csep_body (n:=n) (gemanc_elem sigma gamma) (gemanc_pr csign_old sigma gamma))) x tau = Ok p ->
  snd (cg x i) <> 0 -> cg p i <> C0 ->
  ~ is_prox (etot (csumf (fun r => sigma * r / (r + gamma)))) tau x p.
Proof. exact C80_old_sign_geman_refuted_l. Qed.
Print Assumptions C80_old_sign_geman_refuted.

(** the same for QuadraticEnvelopeCard *)
Theorem C80_old_sign_qe_card_refuted : forall n fuel mu tau (x p : CArr n) i, 0 < tau -> (i < n)%nat ->
  o_prox (obj (S fuel) (csep_body (n:=n) (qecc_elem mu) (qecc_pr csign_old mu))) x tau = Ok p ->
  snd (cg x i) <> 0 -> cg p i <> C0 ->
  ~ is_prox (etot (csumf (fun r => mu - / 2 * (Rmax 0 (sqrt (2 * mu) - r)) ^ 2))) tau x p.
Proof. exact C80_old_sign_qe_card_refuted_l. Qed.
Print Assumptions C80_old_sign_qe_card_refuted.

(** the same for SCAD, for an entry with modulus at most a sigma (larger ones are returned as
    they are) *)
Theorem C80_old_sign_scad_refuted : forall n fuel sigma al tau (x p : CArr n) i, scad_init sigma al = Ok tt -> 0 < tau < al - 1 -> (i < n)%nat ->
  o_prox (obj (S fuel) (scadc_body csign_old (n:=n) sigma al)) x tau = Ok p ->
  snd (cg x i) <> 0 -> cmod (cg x i) <= al * sigma -> cg p i <> C0 ->
  ~ is_prox (etot (csumf (scad_fun sigma al))) tau x p.
Proof. exact C80_old_sign_scad_refuted_l. Qed.
Print Assumptions C80_old_sign_scad_refuted.

(** SCAD.__call__ on a complex array exceeds the documented value by Im(x_i)^2/(a-1) for every
    entry with sigma < |x_i| <= a sigma (the code squares x_i, not |x_i|): it is correct
    exactly when all those entries are real *)
Theorem C80_scad_call : forall n fuel sign sigma al (x : CArr n), 2 < al -> 0 < sigma ->
  exists v, o_call (obj (S fuel) (scadc_body sign (n:=n) sigma al)) x = Ok (VNum v) /\
    v = csumf (scad_fun sigma al) x + RS n (fun i => if Rle_dec (cmod (cg x i)) sigma then 0 else if Rle_dec (cmod (cg x i)) (al * sigma) then snd (cg x i) ^ 2 / (al - 1) else 0) /\
    (v = csumf (scad_fun sigma al) x <-> forall i, (i < n)%nat -> sigma < cmod (cg x i) <= al * sigma -> snd (cg x i) = 0).
Proof. exact C80_scad_call_l. Qed.
Print Assumptions C80_scad_call.
