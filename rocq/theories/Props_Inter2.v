(** Property theorems for Inter2: statements only; every proof is [exact] a lemma of P_Inter2.v.
    Generated from the tagged lemmas of that file. *)
From Coq Require Import Psatz Classical.
From Verif Require Import Base VSum MatFacts M_Loop LoopFacts LoopFacts2 SeqConv M_Inter P_Inter.
From Verif Require Import P_Inter2.
Open Scope result_scope.
Open Scope R_scope.


(** with the stopping test disabled (tol <= 0) the result converges, as the number of sweeps
    grows, to the exact projection of each input column on constraints |x_i2 - x_i1| <=
    S'(i1,i2) with S' between S and S + 1e-10; the regulariser 1e-10 in the code is the only
    source of the difference *)
Theorem C37_converges : forall k n sg S x, (0 < n)%nat -> length x = (k * n)%nat -> sig_is k sg S ->
  forall j, (j < n)%nat -> exists S' P, (forall i1 i2, (i1 < i2 < k)%nat -> S i1 i2 <= S' i1 i2 <= S i1 i2 + / 10 ^ 10) /\ is_colproj k (Kset k S') (rcol n x j) P /\
    forall e, 0 < e -> exists N, forall niter tol, (N <= niter)%nat -> tol <= 0 -> exists r, inter_proj k n sg niter tol x = Ok (r, r) /\ forall i, (i < k)%nat -> Rabs (rcol n r j i - P i) < e.
Proof. exact C37_converges_l. Qed.
Print Assumptions C37_converges.
