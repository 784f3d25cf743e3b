(** Property theorems for Pen3: statements only; every proof is [exact] a lemma of P_Pen3.v.
    Generated from the tagged lemmas of that file. *)
From Verif Require Import Base Space Spec ConvexFacts Sep M_ProxOp SpecOps P_ProxOp M_L1 P_L1 M_Pen P_Pen Smooth P_Pen2.
From Coq Require Import Psatz Rtrigo1 Ratan Rpower Ranalysis FunctionalExtensionality.
From Verif Require Import S_Pen3.
From Verif Require Import P_Pen3.
Open Scope result_scope.


(** for every accepted sigma, gamma and every tau > 0, ETP.call is sum_i sigma (1 - exp(-gamma
    |x_i|)) / (1 - exp(-gamma)) and ETP.prox is a global minimiser of that function plus
    |y-x|^2/(2 tau), for all inputs *)
Theorem C70_etp_exact : forall W n fuel sigma gamma, lambert W -> etp_init sigma gamma = Ok tt ->
  let o := obj (S fuel) (sep_body (n:=n) (etp_elem sigma gamma) (etp_pr W sigma gamma)) in
  let f := etot (sumf (fun a => sigma * (1 - exp (- gamma * Rabs a)) / (1 - exp (- gamma)))) in
  impl_call o f /\ impl_prox o f.
Proof. exact C70_etp_exact_l. Qed.
Print Assumptions C70_etp_exact.

(** the constructors of ETP and Geman raise ValueError exactly when sigma < 0 or gamma <= 0 *)
Theorem C70_init : forall sigma gamma, (etp_init sigma gamma = Ok tt /\ geman_init sigma gamma = Ok tt <-> 0 <= sigma /\ 0 < gamma) /\
  (etp_init sigma gamma = Err ValueError /\ geman_init sigma gamma = Err ValueError <-> sigma < 0 \/ gamma <= 0).
Proof. exact C70_init_l. Qed.
Print Assumptions C70_init.

(** a Lambert function exists and sigma = 1, gamma = 1 is accepted; sigma = 0 leaves every entry
    unchanged *)
Example C70_example : (exists W, lambert W) /\ etp_init 1 1 = Ok tt /\ forall W a, lambert W -> a <> 0 -> etp_pr W 0 1 1 a = a.
Proof. exact C70_example_l. Qed.

(** for every accepted sigma, gamma and every tau > 0, Geman.call is sum_i sigma |x_i| / (|x_i|
    + gamma) and Geman.prox (closed-form cubic root, compared with zero) is a global
    minimiser of that function plus |y-x|^2/(2 tau), for all inputs *)
Theorem C71_geman_exact : forall n fuel sigma gamma, geman_init sigma gamma = Ok tt ->
  let o := obj (S fuel) (sep_body (n:=n) (geman_elem sigma gamma) (geman_pr sigma gamma)) in
  let f := etot (sumf (fun a => sigma * Rabs a / (Rabs a + gamma))) in
  impl_call o f /\ impl_prox o f.
Proof. exact C71_geman_exact_l. Qed.
Print Assumptions C71_geman_exact.

(** in the branch where Geman.prox evaluates the closed form every step is defined: the number
    under the square root is positive, the divisor is not zero and the argument of arccos
    lies in [-1, 1]; so no NaN can arise *)
Theorem C71_defined : forall sigma gamma tau a, 0 < gamma ->
  let b := 2 * gamma - Rabs a in let c := gamma * gamma - 2 * gamma * Rabs a in let d := gamma * sigma * tau - gamma * gamma * Rabs a in
  let f := - ((c - b * b / 3) ^ 3) / 27 in let g := (2 * b ^ 3 - 9 * b * c + 27 * d) / 27 in
  g * g / 4 - f <= 0 -> 0 < f /\ 2 * sqrt f <> 0 /\ -1 <= - (g / (2 * sqrt f)) <= 1.
Proof. exact C71_defined_l. Qed.
Print Assumptions C71_defined.

(** sigma = gamma = 1, accepted; with tau = 1 the input 1/8 is sent to 0 *)
Example C71_example : geman_init 1 1 = Ok tt /\ geman_pr 1 1 1 (1/8) = 0.
Proof. exact C71_example_l. Qed.
