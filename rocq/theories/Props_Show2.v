(** Property theorems for Show2: statements only; every proof is [exact] a lemma of P_Show2.v.
    Generated from the tagged lemmas of that file. *)
From Coq Require Import String.
From Verif Require Import Base Space Spec SpecOps VSum MatFacts M_ProxOp M_Norms M_Loop M_PG M_Split M_Multi M_PD M_Heap M_AndShow M_Show LoopFacts P_Heap P_Show.
From Verif Require Import S_Heap S_Show.
From Verif Require Import P_Show2.
Open Scope result_scope.
Open Scope R_scope.


(** PrimalDual on a square operator whose adjoint returns new arrays (or without z), with or
    without the log, in either order, returns the vectors of the silent by-value run, the
    arrays handed to the callback keep them and the caller's arrays are unchanged; the log
    can only add an exception raised by evaluating f or g or printing a line *)
Theorem C84_primal_dual : forall (E : IPS) (show : bool) (f g : Op E) (Hf Hgd : hprox E) (A : linop E E) (Am At : hlin E) (Cf Cg : hcall E) fmt (h : heap E)
    (x0 : ref) (v : E) tau mu (y0 : option ref) (vy0 : option E) z theta niter (gfirst : bool),
  confined Hf (o_prox f) -> confined Hgd (o_proxdual g) -> lin_reads Am (lapp A) -> (makes_new At (ladj A) \/ z = None /\ lin_reads At (ladj A)) ->
  calls_only Cf (o_call f) -> calls_only Cg (o_call g) -> holds h x0 v -> holds_opt h y0 vy0 ->
  same_or (log_error show [o_call f; o_call g] fmt) (fun p q => let '(h', x, y, tr) := p in let '(vx, vy, vtr) := q in
          holds h' x vx /\ holds h' y vy /\ Forall2 (holds2 h') tr vtr /\ keeps h h')
       (sPrimalDual show Hf Hgd Am At Cf Cg fmt h x0 tau mu y0 z theta niter gfirst)
       (PrimalDual f g A None v tau mu vy0 z theta niter gfirst).
Proof. exact spd_sim. Qed.
Print Assumptions C84_primal_dual.
