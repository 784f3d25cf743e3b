(** Property theorems for QE4: statements only; every proof is [exact] a lemma of P_QE4.v.
    Generated from the tagged lemmas of that file. *)
From Coq Require Import Permutation Sorting.
From Verif Require Import Base Space Spec SpecOps ConvexFacts Sep M_ProxOp M_L1 M_Pen P_L1 P_Pen MatFacts VSum M_Proj M_L0 P_L0 M_SVD M_QE P_QE P_QE2 P_QE3.
From Verif Require Import P_QE4.


(** for every r0 >= 1, length, input and 0 < tau < 1, whatever sorting permutation argsort picks
    among ties, QuadraticEnvelopeCardIndicator.prox returns (its level search always finds a
    level) a global minimiser of Q(u) + |u - y|^2/(2 tau), where Q is the quadratic envelope
    of the indicator of {at most r0 non-zeros} *)
Theorem C31_cardind_prox : forall argsort, argsort_ok argsort -> forall n r0 (Q : efun (Vec n)) fuel (y : Vec n) tau, is_qenv r0 Q -> (0 < r0)%nat -> 0 < tau < 1 ->
  exists p, o_prox (obj (S fuel) (ci_body argsort r0)) y tau = Ok p /\ is_prox Q tau y p.
Proof. exact C31_cardind_prox_l. Qed.
Print Assumptions C31_cardind_prox.

(** for every r0 >= 2, length and input QuadraticEnvelopeCardIndicator.call returns the value of
    that envelope, which is finite everywhere *)
Theorem C31_cardind_call : forall argsort, argsort_ok argsort -> forall n r0 (Q : efun (Vec n)) fuel (x : Vec n), is_qenv r0 Q -> (2 <= r0)%nat ->
  edom Q x /\ o_call (obj fuel (ci_body argsort r0)) x = Ok (VNum (eval Q x)).
Proof. exact C31_cardind_call_l. Qed.
Print Assumptions C31_cardind_call.

(** with r0 = 1 the call raises ValueError (argmax of an empty array) on every array with two or
    more non-zeros *)
Theorem C31_cardind_call_refuted : forall argsort n fuel (x : Vec n), argsort_ok argsort -> (2 <= nnz x)%nat ->
  o_call (obj fuel (ci_body argsort 1)) x = Err ValueError.
Proof. exact C31_cardind_call_refuted_l. Qed.
Print Assumptions C31_cardind_call_refuted.

(** for every r0 >= 1, every length n > r0 and every tau >= 1 the constant arrays with entries
    above tau are returned unchanged (line 192 thresholds and ignores r0), which is not a
    minimiser: zeroing n - r0 entries is strictly better *)
Theorem C31_cardind_tau_refuted : forall argsort n r0 (Q : efun (Vec n)) fuel tau c, is_qenv r0 Q -> (0 < r0 < n)%nat -> 1 <= tau < c ->
  let y := vtab n (fun _ => c) in
  o_prox (obj (S fuel) (ci_body argsort r0)) y tau = Ok y /\ ~ is_prox Q tau y y.
Proof. exact C31_cardind_tau_refuted_l. Qed.
Print Assumptions C31_cardind_tau_refuted.

(** an envelope in the sense of the specification exists for every length and r0 >= 2; and with
    r0 = 1, tau = 1/2 the array (3, 2) is sent to (8/3, 2/3), a case in which the level
    search runs *)
Example C31_cardind_example : (forall n r0, (2 <= r0)%nat -> exists Q : efun (Vec n), is_qenv r0 Q) /\
  exists p : Vec 2, o_prox (obj 1 (ci_body isort 1)) (vtab 2 (fun i => nth i [3; 2] 0)) (1 / 2) = Ok p /\ lst p = [8 / 3; 2 / 3].
Proof. exact C31_cardind_example_l. Qed.
