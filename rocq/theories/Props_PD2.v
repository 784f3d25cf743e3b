(** Property theorems for PD2: statements only; every proof is [exact] a lemma of P_PD2.v.
    Generated from the tagged lemmas of that file. *)
From Coq Require Import Psatz.
From Verif Require Import Base Space Spec VSum ConvexFacts Smooth M_ProxOp SpecOps P_ProxOp M_Norms P_Norms M_Loop LoopFacts LoopFacts2 SeqFacts M_PG M_PD SplitMath P_PG2 P_PG3 P_Split2 P_Split3 P_PD.
From Verif Require Import S_PD2.
From Verif Require Import P_PD2.
Open Scope result_scope.
Open Scope R_scope.


(** if rmatvec returns its argument itself (as an in-place identity does), the in-place addition
    of z corrupts y: f = g = x^2/2, A the identity, z = 1, tau = mu = theta = 1, start (-1,
    1), g first: every run returns x = -1 although x^2 + x has its only minimum at -1/2 *)
Theorem C57_alias_refuted : forall n,
  impl_prox half1 half1_fun /\ impl_proxdual half1 half1_fun /\ is_conj half1_fun half1_fun /\
  (exists y tr, PrimalDual half1 half1 (id_linop R_IPS) (Some (fun v => v)) (-1 : R_IPS) (Scalar 1) (Scalar 1) (Some (1 : R_IPS)) (Some (1 : R_IPS)) 1 n true = Ok (-1, y, tr)) /\
  (forall x, is_min (eadd (elin half1_fun (1 : R_IPS)) (epre half1_fun (lapp (id_linop R_IPS)))) x <-> x = -(1/2)).
Proof. exact C57_alias_refuted_l. Qed.
Print Assumptions C57_alias_refuted.

(** f = (x-1)^2/2, g = x^2/2, A = multiplication by 1/2, tau = mu = 1 meet the hypotheses of the
    PrimalDual theorems, with saddle point (4/5, 2/5); array steps [1; 1/2] are admissible
    for two iterations *)
Example C57_example : let f := etot (E:=R_IPS) (fun x : R_IPS => 1 / 2 * ((x - 1) * (x - 1))) in let A := scal_linop R_IPS (1/2) in
  impl_prox shifted1 f /\ impl_proxdual half1 half1_fun /\ convex f /\ convex half1_fun /\ is_conj half1_fun half1_fun /\
  (forall u, exists p, is_prox half1_fun 1 u p) /\ (forall a : R_IPS, 1 * 1 * norm2 (lapp A a) <= norm2 a) /\
  saddle A f half1_fun (vzero : R_IPS) (4/5 : R_IPS) (2/5 : R_IPS) /\ steps_ok (Arr [1; 1/2]) 2.
Proof. exact C57_example_l. Qed.
