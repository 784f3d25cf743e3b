(** Property theorems for Int3: statements only; every proof is [exact] a lemma of P_Int3.v.
    Generated from the tagged lemmas of that file. *)
From Coq Require Import String Psatz.
From Verif Require Import Base Space Spec SpecOps Sep VSum MatFacts ConvexFacts M_ProxOp M_L1 M_Pen M_Loop P_Cx2 S_Pen2 M_Int P_Int.
From Verif Require Import S_Int.
From Verif Require Import P_Int3.
Open Scope result_scope.
Open Scope R_scope.


(** called on an array of integers, Huber and SCAD return the sum of the documented terms with
    the fractional part of every term dropped *)
Theorem C83_values : forall n fuel (x : Vec n), int_vec x ->
  (forall alpha, 0 < alpha -> exists t, (forall i, (i < n)%nat -> toward_zero (if Rle_dec (Rabs (get x i)) alpha then get x i * get x i / (2 * alpha) else Rabs (get x i) - alpha / 2) (t i)) /\
     o_call (obj fuel (ihuber_body true alpha)) x = Ok (VNum (RS n t))) /\
  (forall sigma al, exists t, (forall i, (i < n)%nat -> toward_zero (scad_fun sigma al (get x i)) (t i)) /\ o_call (obj fuel (iscad_body true sigma al)) x = Ok (VNum (RS n t))).
Proof. exact C83_values_l. Qed.
Print Assumptions C83_values.
