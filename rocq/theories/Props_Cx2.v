(** Property theorems for Cx2: statements only; every proof is [exact] a lemma of P_Cx2.v.
    Generated from the tagged lemmas of that file. *)
From Coq Require Import Psatz ZArith Rtrigo1 Ratan Rpower.
From Verif Require Import Base Space Spec SpecOps ConvexFacts Sep VSum MatFacts Cplx M_ProxOp M_L1 M_Pen M_Proj M_L0 M_Cx S_Pen S_Pen2 S_Pen3 P_Pen P_Pen2 P_Pen3 P_L1 P_SVD P_Log1 P_Conv P_Cx P_ProxOp.
From Verif Require Import S_Cx.
From Verif Require Import P_Cx2.
Open Scope result_scope.


(** Huber on complex arrays: call is the sum of the Huber function of the moduli, and prox is
    the exact proximal point exactly when no modulus lies in the open band alpha < |x_i| <
    alpha + tau *)
Theorem C80_huber : forall n fuel alpha tau (x : CArr n), 0 < alpha -> 0 < tau ->
  let o := obj (S fuel) (csep_body (n:=n) (huberc_elem alpha) (huberc_pr alpha)) in
  let f := etot (csumf (fun r => if Rle_dec r alpha then r * r / (2 * alpha) else r - alpha / 2)) in
  impl_call o f /\
  exists p, o_prox o x tau = Ok p /\ (is_prox f tau x p <-> forall i, (i < n)%nat -> ~ (alpha < cmod (cg x i) < alpha + tau)).
Proof. exact C80_huber_l. Qed.
Print Assumptions C80_huber.

(** L0 on complex arrays: call counts the entries of non-zero modulus; prox is the exact
    proximal point of (tau sigma^2 / 2) times that count, as on real arrays *)
Theorem C80_l0 : forall n fuel sigma tau (x : CArr n), 0 <= sigma -> 0 < tau ->
  let o := obj (S fuel) (csep_body (n:=n) l0c_elem (l0c_pr sigma)) in
  impl_call o (etot (csumf (fun r => if Req_EM_T r 0 then 0 else 1))) /\
  exists p, o_prox o x tau = Ok p /\ is_prox (etot (csumf (fun r => if Req_EM_T r 0 then 0 else tau * sigma * sigma / 2))) tau x p.
Proof. exact C80_l0_l. Qed.
Print Assumptions C80_l0.

(** with the np.sign of numpy 2, Log on complex arrays: call is the documented function of the
    moduli and prox a global minimiser of it plus |y-x|^2/(2 tau), for all inputs *)
Theorem C80_log : forall n fuel sigma gamma, 0 <= sigma -> 0 < gamma ->
  let o := obj (S fuel) (csep_body (n:=n) (logc_elem sigma gamma) (logc_pr csign_new sigma gamma)) in
  let f := etot (csumf (fun r => sigma / ln (gamma + 1) * ln (gamma * r + 1))) in
  impl_call o f /\ impl_prox o f.
Proof. exact C80_log_l. Qed.
Print Assumptions C80_log.

(** with the np.sign of numpy 2, Geman on complex arrays is exact in the same sense *)
Theorem C80_geman : forall n fuel sigma gamma, 0 <= sigma -> 0 < gamma ->
  let o := obj (S fuel) (csep_body (n:=n) (gemanc_elem sigma gamma) (gemanc_pr csign_new sigma gamma)) in
  let f := etot (csumf (fun r => sigma * r / (r + gamma))) in
  impl_call o f /\ impl_prox o f.
Proof. exact C80_geman_l. Qed.
Print Assumptions C80_geman.

(** with the np.sign of numpy 2, QuadraticEnvelopeCard on complex arrays: call is the envelope
    of the moduli and, for tau <= 1, prox a global minimiser *)
Theorem C80_qe_card : forall n fuel mu tau (x : CArr n), 0 <= mu -> 0 < tau <= 1 ->
  let o := obj (S fuel) (csep_body (n:=n) (qecc_elem mu) (qecc_pr csign_new mu)) in
  let f := etot (csumf (fun r => mu - / 2 * (Rmax 0 (sqrt (2 * mu) - r)) ^ 2)) in
  impl_call o f /\ exists p, o_prox o x tau = Ok p /\ is_prox f tau x p.
Proof. exact C80_qe_card_l. Qed.
Print Assumptions C80_qe_card.

(** RelaxedMumfordShah.prox on complex arrays is a global minimiser for sum_i min(sigma |x_i|^2,
    kappa) *)
Theorem C80_rms : forall n sigma kappa tau (x : CArr n), 0 < sigma -> 0 <= kappa -> 0 < tau ->
  is_prox (etot (csumf (fun r => Rmin (sigma * (r * r)) kappa))) tau x (cmapv (rmsc_pr sigma kappa tau) x).
Proof. exact C80_rms_l. Qed.
Print Assumptions C80_rms.

(** with the np.sign of numpy 2 and tau <= a - 1, SCAD.prox on complex arrays is a global
    minimiser of the documented SCAD function of the moduli plus the quadratic *)
Theorem C80_scad : forall n fuel sigma al tau (x : CArr n), scad_init sigma al = Ok tt -> 0 < tau <= al - 1 ->
  exists p, o_prox (obj (S fuel) (scadc_body csign_new (n:=n) sigma al)) x tau = Ok p /\ is_prox (etot (csumf (scad_fun sigma al))) tau x p.
Proof. exact C80_scad_l. Qed.
Print Assumptions C80_scad.
