(** Property theorems for SR3: statements only; every proof is [exact] a lemma of P_SR3.v.
    Generated from the tagged lemmas of that file. *)
From Coq Require Import Psatz.
From Verif Require Import Base Space Spec Sep ConvexFacts Smooth M_ProxOp SpecOps P_ProxOp M_Norms P_Norms M_L1 P_L1 M_Loop LoopFacts LoopFacts2 SeqFacts M_SR3 P_PG2.
From Verif Require Import P_SR3.
Open Scope result_scope.
Open Scope R_scope.


(** the inner LSQR of SR3, exact arithmetic, any operator B, data d, start x0 that is not
    already a least-squares solution, any iteration limit and stopping threshold: it never
    raises; its iterates strictly decrease |d - B x| at every pass, each by an exact line
    search (the new residual is orthogonal to the step's image); and it returns the last
    iterate, unless the result is NaN, which happens only after some pass had reached an
    exact least-squares solution *)
Theorem C69_lsqr : forall (E G : IPS) p (B : linop E G) (d : G) (Reg : E -> Vec p) n z x0 thr, ladj B (d [-] lapp B x0) <> vzero ->
  exists xs k r, lsqr B Reg (Some d) n z (Some x0) thr = Ok r /\ (k <= n)%nat /\ (n <> 0%nat -> (0 < k)%nat) /\ xs 0%nat = x0 /\
    (forall j, (j < k)%nat -> norm2 (d [-] lapp B (xs (S j))) < norm2 (d [-] lapp B (xs j)) /\
       << d [-] lapp B (xs (S j)), lapp B (xs (S j) [-] xs j) >> = 0) /\
    (r = Some (xs k) \/ (r = None /\ (k < n)%nat /\ is_min (etot (fun x => norm2 (d [-] lapp B x))) (xs k))).
Proof. exact C69_lsqr_l. Qed.
Print Assumptions C69_lsqr.

(** a start that already is a least-squares solution is not kept: one pass or more always
    returns NaN *)
Theorem C69_exact_start_refuted : forall (E G : IPS) p (B : linop E G) (d : G) (Reg : E -> Vec p) n z x0 thr,
  ladj B (d [-] lapp B x0) = vzero -> lsqr B Reg (Some d) (S n) z (Some x0) thr = Ok None.
Proof. exact C69_exact_start_refuted_l. Qed.
Print Assumptions C69_exact_start_refuted.
