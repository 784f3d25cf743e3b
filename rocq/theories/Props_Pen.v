(** Property theorems for Pen: statements only; every proof is [exact] a lemma of P_Pen.v.
    Generated from the tagged lemmas of that file. *)
From Verif Require Import Base Space Spec ConvexFacts Sep M_ProxOp SpecOps P_ProxOp M_L1 P_L1 M_Pen.
From Coq Require Import Psatz Rtrigo1 Ratan Rpower Ranalysis.
From Verif Require Import S_Pen.
From Verif Require Import P_Pen.
Open Scope result_scope.



(** Huber.call is the sum of the Huber function: a^2/(2 alpha) for |a| <= alpha, |a| - alpha/2
    above *)
Theorem C20_huber_call : forall n fuel alpha, 0 < alpha ->
  impl_call (obj fuel (sep_body (n:=n) (huber_elem alpha) (huber_pr alpha)))
    (etot (sumf (fun a => if Rle_dec (Rabs a) alpha then a * a / (2 * alpha) else Rabs a - alpha / 2))).
Proof. exact C20_huber_call_l. Qed.
Print Assumptions C20_huber_call.

(** Huber.prox is the exact proximal point of the Huber function at x exactly when no entry of x
    lies in the open band alpha < |x_i| < alpha + tau; whenever one does, the returned
    vector is not a minimiser *)
Theorem C20_huber_exact_iff : forall n fuel alpha tau (x : Vec n), 0 < alpha -> 0 < tau ->
  exists p, o_prox (obj (S fuel) (sep_body (n:=n) (huber_elem alpha) (huber_pr alpha))) x tau = Ok p /\
    (is_prox (etot (sumf (huber_elem alpha))) tau x p <->
     forall a, In a (proj1_sig (x : nlist R n)) -> ~ (alpha < Rabs a < alpha + tau)).
Proof. exact C20_huber_exact_iff_l. Qed.
Print Assumptions C20_huber_exact_iff.

(** concrete failure: alpha = 1, tau = 1, x = 3/2 gives 1/2 where the minimiser is 3/4 *)
Theorem C20_huber_refuted :
  huber_pr 1 1 (3/2) = 1/2 /\ ~ sprox (huber_elem 1) 1 (3/2) (1/2) /\ sprox (huber_elem 1) 1 (3/2) (3/4).
Proof. exact C20_huber_refuted_l. Qed.
Print Assumptions C20_huber_refuted.

(** L0.call is the number of non-zero entries (sigma is not applied) *)
Theorem C27_call : forall n fuel sigma,
  impl_call (obj fuel (sep_body (n:=n) l0_elem (l0_pr sigma))) (etot (card_fun 1)).
Proof. exact C27_call_l. Qed.
Print Assumptions C27_call.

(** what L0.prox returns is the exact proximal point of (tau sigma^2 / 2) |x|_0, for every sigma
    >= 0 and tau > 0 (so it is right for sigma |x|_0 only when tau*sigma = 2 or sigma = 0) *)
Theorem C27_what_it_computes : forall n fuel sigma tau (x : Vec n), 0 <= sigma -> 0 < tau ->
  exists p, o_prox (obj (S fuel) (sep_body (n:=n) l0_elem (l0_pr sigma))) x tau = Ok p /\
    is_prox (etot (card_fun (tau * sigma * sigma / 2))) tau x p.
Proof. exact C27_what_it_computes_l. Qed.
Print Assumptions C27_what_it_computes.

(** for every sigma > 0 and tau > 0 with tau*sigma <> 2 there is a one-entry array on which
    L0.prox is not a minimiser of sigma |y|_0 + |y-x|^2/(2 tau): the threshold is tau*sigma
    instead of sqrt(2 tau sigma) *)
Theorem C27_l0_refuted : forall fuel sigma tau, 0 < sigma -> 0 < tau -> tau * sigma <> 2 ->
  exists (x p : Vec 1), o_prox (obj (S fuel) (sep_body (n:=1) l0_elem (l0_pr sigma))) x tau = Ok p /\
    ~ is_prox (etot (card_fun sigma)) tau x p.
Proof. exact C27_l0_refuted_l. Qed.
Print Assumptions C27_l0_refuted.

(** sigma = 1, tau = 2 (the case where it is right): 3 is kept, 1 is set to zero *)
Example C27_example : exists p, o_prox (obj 1 (sep_body (n:=2) l0_elem (l0_pr 1))) (nl [3; 1] : Vec 2) 2 = Ok p /\
  proj1_sig (p : nlist R 2) = [3; 0] /\ is_prox (etot (card_fun 1)) 2 (nl [3; 1] : Vec 2) p.
Proof. exact C27_example_l. Qed.
