(** Property theorems for Pen2: statements only; every proof is [exact] a lemma of P_Pen2.v.
    Generated from the tagged lemmas of that file. *)
From Verif Require Import Base Space Spec ConvexFacts Sep M_ProxOp SpecOps P_ProxOp M_L1 P_L1 M_Pen P_Pen Smooth.
From Coq Require Import Psatz Rtrigo1 Ratan Rpower Ranalysis.
From Verif Require Import S_Pen2.
From Verif Require Import P_Pen2.
Open Scope result_scope.


(** SCAD.call is the sum of the documented SCAD function over the entries *)
Theorem C29_scad_call : forall n fuel sigma al,
  impl_call (obj fuel (sep_body (n:=n) (scad_elem sigma al) (scad_pr sigma al))) (etot (sumf (scad_fun sigma al))).
Proof. exact C29_scad_call_l. Qed.
Print Assumptions C29_scad_call.

(** for every accepted sigma, a and every step tau <= a-1, SCAD.prox is a global minimiser of
    the SCAD penalty plus quadratic, for all inputs. For larger steps see the next theorem. *)
Theorem C29_scad_exact : forall n fuel sigma al tau (x : Vec n),
  scad_init sigma al = Ok tt -> 0 < tau <= al - 1 ->
  exists p, o_prox (obj (S fuel) (sep_body (n:=n) (scad_elem sigma al) (scad_pr sigma al))) x tau = Ok p /\
    is_prox (etot (sumf (scad_fun sigma al))) tau x p.
Proof. exact C29_scad_exact_l. Qed.
Print Assumptions C29_scad_exact.

(** for every accepted sigma, a and every tau > a-1 there is an input on which SCAD.prox is not
    a minimiser (at |x| = sigma(1+tau) it soft-thresholds although keeping x is better) *)
Theorem C29_scad_refuted : forall fuel sigma al tau, scad_init sigma al = Ok tt -> al - 1 < tau ->
  exists x p : Vec 1, o_prox (obj (S fuel) (sep_body (n:=1) (scad_elem sigma al) (scad_pr sigma al))) x tau = Ok p /\
    ~ is_prox (etot (sumf (scad_fun sigma al))) tau x p.
Proof. exact C29_scad_refuted_l. Qed.
Print Assumptions C29_scad_refuted.

(** sigma = 1, a = 3, tau = 1: the accepted parameters, and prox(5/2) = 2 (middle branch) *)
Example C29_example : scad_init 1 3 = Ok tt /\ 0 < 1 <= 3 - 1 /\ scad_pr 1 3 1 (5/2) = 2.
Proof. exact C29_example_l. Qed.

(** RelaxedMumfordShah.prox is a global minimiser for the separable penalty sum_i min(sigma
    x_i^2, kappa), which on one-entry arrays is the function call evaluates *)
Theorem C30_separable : forall n fuel sigma kappa tau (x : Vec n), 0 < sigma -> 0 <= kappa -> 0 < tau ->
  (exists p, o_prox (obj (S fuel) (rms_body (n:=n) sigma kappa)) x tau = Ok p /\
    is_prox (etot (sumf (fun a => Rmin (sigma * (a * a)) kappa))) tau x p) /\
  (n = 1%nat -> o_call (obj (S fuel) (rms_body (n:=n) sigma kappa)) x = Ok (VNum (sumf (fun a => Rmin (sigma * (a * a)) kappa) x))).
Proof. exact C30_separable_l. Qed.
Print Assumptions C30_separable.

(** with two entries the result is not a minimiser of the function that call evaluates,
    min(sigma |x|^2, kappa) *)
Theorem C30_rms_refuted : forall fuel, exists x p : Vec 2,
  o_prox (obj (S fuel) (rms_body (n:=2) 1 3)) x 1 = Ok p /\
  (forall y, o_call (obj (S fuel) (rms_body (n:=2) 1 3)) y = Ok (VNum (Rmin (1 * norm2 y) 3))) /\
  ~ is_prox (etot (fun y : Vec 2 => Rmin (1 * norm2 y) 3)) 1 x p.
Proof. exact C30_rms_refuted_l. Qed.
Print Assumptions C30_rms_refuted.

(** sigma = 1, kappa = 3, tau = 1: 3 is shrunk to 1, 4 is kept *)
Example C30_example : rms_pr 1 3 1 3 = 1 /\ rms_pr 1 3 1 4 = 4.
Proof. exact C30_example_l. Qed.

(** for mu >= 0 and tau <= 1 QuadraticEnvelopeCard.prox is a global minimiser of the function
    its call evaluates (the documented envelope) plus quadratic, for all inputs *)
Theorem C31_card_exact : forall n fuel mu tau (x : Vec n), 0 <= mu -> 0 < tau <= 1 ->
  let o := obj (S fuel) (sep_body (n:=n) (qec_elem mu) (qec_pr mu)) in
  impl_call o (etot (sumf (qec_fun mu))) /\
  exists p, o_prox o x tau = Ok p /\ is_prox (etot (sumf (qec_fun mu))) tau x p.
Proof. exact C31_card_exact_l. Qed.
Print Assumptions C31_card_exact.

(** for every mu > 0 and every tau > 1 there is an input on which it is not a minimiser: entries
    with 2 mu <= x^2 < 2 mu tau are kept although 0 is better *)
Theorem C31_card_refuted : forall fuel mu tau, 0 < mu -> 1 < tau ->
  forall a, 2 * mu <= a * a < 2 * mu * tau ->
  exists p : Vec 1, o_prox (obj (S fuel) (sep_body (n:=1) (qec_elem mu) (qec_pr mu))) (nl [a] : Vec 1) tau = Ok p /\
    ~ is_prox (etot (sumf (qec_fun mu))) tau (nl [a] : Vec 1) p.
Proof. exact C31_card_refuted_l. Qed.
Print Assumptions C31_card_refuted.

(** mu = 2, tau = 1/2 (threshold 2): 3/2 is mapped to 1, 3 is kept, 1 goes to 0 *)
Example C31_example : qec_pr 2 (1/2) (3/2) = 1 /\ qec_pr 2 (1/2) 3 = 3 /\ qec_pr 2 (1/2) 1 = 0.
Proof. exact C31_example_l. Qed.

(** for sigma >= 0, gamma > 0 and every tau > 0, Log.prox is a global minimiser of the function
    its call evaluates, sum_i sigma/log(gamma+1) log(gamma |x_i| + 1), plus quadratic, for
    all inputs *)
Theorem C28_log_exact : forall n fuel sigma gamma, 0 <= sigma -> 0 < gamma ->
  let o := obj (S fuel) (sep_body (n:=n) (log_elem sigma gamma) (log_pr sigma gamma)) in
  let f := etot (sumf (fun a => sigma / ln (gamma + 1) * ln (gamma * Rabs a + 1))) in
  impl_call o f /\ impl_prox o f.
Proof. exact C28_log_exact_l. Qed.
Print Assumptions C28_log_exact.

(** gamma = 1, sigma = log 2, tau = 1: prox(0) = 0 and prox(2) = (1 + sqrt 5)/2 *)
Example C28_example : log_pr (ln 2) 1 1 0 = 0 /\ log_pr (ln 2) 1 1 2 = (1 + sqrt 5) / 2 /\ 0 <= ln 2 /\ 0 < 1.
Proof. exact C28_example_l. Qed.
