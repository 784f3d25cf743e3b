(** Property theorems for Cx: statements only; every proof is [exact] a lemma of P_Cx.v.
    Generated from the tagged lemmas of that file. *)
From Coq Require Import Psatz ZArith Rtrigo1 Ratan Rpower.
From Verif Require Import Base Space Spec SpecOps ConvexFacts Sep VSum MatFacts Cplx M_ProxOp M_L1 M_Pen M_Proj M_L0 M_Cx S_Pen S_Pen3 P_Pen P_Pen2 P_Pen3 P_L1 P_Conv.
From Verif Require Import S_Cx.
From Verif Require Import P_Cx.
Open Scope result_scope.


(** for every function F of n real numbers that does not see their signs and every tau > 0:
    turning the entries of p to the phases of z gives a proximal point of the same function
    of the moduli at the complex array z exactly when p is a proximal point of F at the
    array of moduli *)
Theorem C80_radial : forall n (F : efun (Vec n)) tau (z w : CArr n) (p : Vec n), sign_free F -> 0 < tau -> turned z p w ->
  (is_prox (on_moduli F) tau z w <-> is_prox F tau (cmodulus z) p).
Proof. exact C80_radial_l. Qed.
Print Assumptions C80_radial.
