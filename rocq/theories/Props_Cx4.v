(** Property theorems for Cx4: statements only; every proof is [exact] a lemma of P_Cx4.v.
    Generated from the tagged lemmas of that file. *)
From Coq Require Import Psatz ZArith Rtrigo1 Ratan Rpower.
From Verif Require Import Base Space Spec SpecOps ConvexFacts Sep VSum MatFacts Cplx M_ProxOp M_L1 M_Pen M_Proj M_L0 M_Cx S_Pen S_Pen2 S_Pen3 P_Pen P_Pen2 P_Pen3 P_L1 P_L21 P_SVD P_Log1 DFT P_Conv P_Cx P_ProxOp P_Cx2 P_Cx3.
From Verif Require Import S_Cx.
From Verif Require Import P_Cx4.
Open Scope result_scope.


(** ETP.prox compares complex numbers: for every sigma, gamma > 0, tau > 0 a purely imaginary
    entry of modulus at least 1/gamma is sent to 0, however large it is. This is not a
    minimiser when |b|^2/2 > tau sigma/(1 - e^-gamma) *)
Theorem C80_etp_refuted : forall W fuel sigma gamma tau b, lambert W -> 0 <= sigma -> 0 < gamma -> 0 < tau -> / gamma <= Rabs b ->
  tau * (sigma / (1 - exp (- gamma))) < b * b / 2 ->
  exists p, o_prox (obj (S fuel) (csep_body (n:=1) (etpc_elem sigma gamma) (etpc_pr csign_new W sigma gamma))) (cvec 1 (fun _ => (0, b))) tau = Ok p /\
    p = cvec 1 (fun _ => C0) /\
    ~ is_prox (etot (csumf (fun r => sigma / (1 - exp (- gamma)) * (1 - exp (- gamma * r))))) tau (cvec 1 (fun _ => (0, b))) p.
Proof. exact C80_etp_refuted_l. Qed.
Print Assumptions C80_etp_refuted.

(** L21 sums complex squares: a group whose entries are all purely imaginary has the value 0, is
    sent to 0 by prox and returned unchanged by proxdual, whatever its norm. The value is
    wrong unless the group is 0; prox is not a minimiser as soon as the norm exceeds tau
    sigma; the result of proxdual is outside the dual ball as soon as the norm exceeds sigma *)
Theorem C80_l21_refuted : forall m sigma tau (r : Vec m), 0 < sigma -> 0 < tau ->
  let c : CArr m := cvec m (fun i => (0, get r i)) in
  norm c = norm r /\
  l21c_call sigma [c] = 0 /\ l21c_col sigma tau c = vzero /\ l21c_dcol sigma c = c /\
  (tau * sigma < norm c -> ~ is_prox (etot (fun y : CArr m => sigma * norm y)) tau c (l21c_col sigma tau c)) /\
  (sigma < norm c -> ~ (norm (l21c_dcol sigma c) <= sigma)).
Proof. exact C80_l21_refuted_l. Qed.
Print Assumptions C80_l21_refuted.

(** L21_plus_L1.prox (0 <= rho < 1) on a complex group is the exact proximal point of sigma (rho
    sum |x_i| + (1-rho) ||x||); its call evaluates that function on real groups, but on a
    purely imaginary group it misses the whole second term *)
Theorem C80_l21l1 : forall m sigma rho tau (c : CArr m), 0 < sigma -> 0 <= rho < 1 -> 0 < tau ->
  let f (y : CArr m) := rho * sigma * RS m (fun i => cmod (cg y i)) + (1 - rho) * sigma * norm y in
  (exists p, l21l1c_col sigma rho tau c = Ok p /\ is_prox (etot f) tau c p) /\
  ((exists r : Vec m, c = cvec m (fun i => (get r i, 0))) -> fst (l21l1c_val sigma rho c) = f c) /\
  (forall r : Vec m, c = cvec m (fun i => (0, get r i)) -> fst (l21l1c_val sigma rho c) = f c - (1 - rho) * sigma * norm c).
Proof. exact C80_l21l1_l. Qed.
Print Assumptions C80_l21l1.
