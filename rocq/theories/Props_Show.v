(** Property theorems for Show: statements only; every proof is [exact] a lemma of P_Show.v.
    Generated from the tagged lemmas of that file. *)
From Coq Require Import String.
From Verif Require Import Base Space Spec VSum MatFacts M_ProxOp M_Norms M_Loop M_PG M_Split M_Multi M_PD M_Heap M_AndShow M_Show LoopFacts P_Heap.
From Verif Require Import S_Heap S_Show.
From Verif Require Import P_Show.
Open Scope result_scope.
Open Scope R_scope.


(** Orthogonal(f, Q, b=b)(x) evaluates f at Qx + b, and changes no array, if Q returns new
    arrays (f itself may write into its argument) *)
Theorem C84_orthogonal_call : forall (E : IPS) (L : hlin E) (A : E -> E) (b : E) (C : hcall E) (c : E -> result pyval), makes_new L A -> calls_confined C c ->
  calls_only (horth_call L b C) (fun x => c (A x [+] b)).
Proof. exact orth_call_only. Qed.
Print Assumptions C84_orthogonal_call.

(** with an operator that returns the array it is given (pylops.Identity by default),
    Orthogonal(f, Q, b=b)(x) adds b to the caller's x: evaluating twice gives f(x + b), then
    f(x + 2b), and x holds x + 2b afterwards; the sum of that function and a linear term v,
    evaluated once, gives f(x + b) + <v, x + b> instead of f(x + b) + <v, x> *)
Theorem C84_orthogonal_call_refuted : forall (E : IPS) (b v : E) (c : E -> result pyval) (h : heap E) (r : ref) (x : E) k1 k2, holds h r x -> c (x [+] b) = Ok k1 -> c (x [+] b [+] b) = Ok k2 ->
  let C := horth_call hl_self b (hc_reads c) in
  (exists h1 h2, C h r = Ok (h1, k1) /\ holds h1 r (x [+] b) /\ C h1 r = Ok (h2, k2) /\ holds h2 r (x [+] b [+] b)) /\
  (exists h1, hsum_call C v h r = Ok (h1, VNum (as_num k1 + << v, x [+] b >>))).
Proof. exact orth_call_self. Qed.
Print Assumptions C84_orthogonal_call_refuted.

(** ProximalPoint, with or without the log, returns the vector of the silent by-value run, the
    arrays handed to the callback keep the iterates and the caller's arrays are unchanged;
    the log can only add an exception raised by evaluating the function or printing a line *)
Theorem C84_proximal_point : forall (E : IPS) (show : bool) (f : Op E) (H : hprox E) (C : hcall E) fmt (h : heap E) (x0 : ref) (v : E) tau niter tol,
  reads_only H (o_prox f) -> calls_only C (o_call f) -> holds h x0 v ->
  same_or (log_error show [o_call f] fmt) (fun p q => let '(h', x, tr) := p in holds h' x (fst q) /\ Forall2 (holds h') tr (snd q) /\ keeps h h')
       (sProximalPoint show H C fmt h x0 tau niter tol) (ProximalPoint f v tau niter tol).
Proof. exact spp_sim. Qed.
Print Assumptions C84_proximal_point.

(** the same for HQS *)
Theorem C84_hqs : forall (E : IPS) (show : bool) (f g : Op E) (Hf Hg : hprox E) (Cf Cg : hcall E) fmt (h : heap E) (x0 z0 : option ref) (vx0 vz0 : option E) tau niter (gfirst : bool),
  reads_only Hf (o_prox f) -> reads_only Hg (o_prox g) -> calls_only Cf (o_call f) -> calls_only Cg (o_call g) -> holds_opt h x0 vx0 -> holds_opt h z0 vz0 ->
  same_or (log_error show [o_call f; o_call g] fmt) (fun p q => let '(h', x, z, tr) := p in let '(vx, vz, vtr) := q in
          holds h' x vx /\ holds h' z vz /\ Forall2 (holds2 h') tr vtr /\ keeps h h')
       (sHQS show Hf Hg Cf Cg fmt h x0 tau niter z0 gfirst) (HQS f g vx0 tau niter vz0 gfirst).
Proof. exact shqs_sim. Qed.
Print Assumptions C84_hqs.

(** the same for ADMM, whose proximal operators may write into their arguments *)
Theorem C84_admm : forall (E : IPS) (show : bool) (f g : Op E) (Hf Hg : hprox E) (Cf Cg : hcall E) fmt (h : heap E) (x0 z0 : option ref) (vx0 vz0 : option E) tau niter (gfirst : bool),
  confined Hf (o_prox f) -> confined Hg (o_prox g) -> calls_only Cf (o_call f) -> calls_only Cg (o_call g) -> holds_opt h x0 vx0 -> holds_opt h z0 vz0 ->
  same_or (log_error show [o_call f; o_call g] fmt) (fun p q => let '(h', x, z, tr) := p in let '(vx, vz, vtr) := q in
          holds h' x vx /\ holds h' z vz /\ Forall2 (holds2 h') tr vtr /\ keeps h h')
       (sADMM show Hf Hg Cf Cg fmt h x0 tau niter z0 gfirst) (ADMM f g vx0 tau niter vz0 gfirst).
Proof. exact sadmm_sim. Qed.
Print Assumptions C84_admm.

(** the same for DouglasRachfordSplitting, if the operator called first leaves its argument
    alone *)
Theorem C84_douglas_rachford : forall (E : IPS) (show : bool) (f g : Op E) (Hf Hg : hprox E) (Cf Cg : hcall E) fmt (h : heap E) (x0 : ref) (v : E) tau eta niter (gfirst : bool),
  (if gfirst then reads_only Hg (o_prox g) /\ confined Hf (o_prox f) else reads_only Hf (o_prox f) /\ confined Hg (o_prox g)) ->
  calls_only Cf (o_call f) -> calls_only Cg (o_call g) -> holds h x0 v ->
  same_or (log_error show [o_call f; o_call g] fmt) (fun p q => let '(h', x, y, tr) := p in let '(vx, vy, vtr) := q in
          holds h' x vx /\ holds h' y vy /\ Forall2 (holds2 h') tr vtr /\ keeps h h')
       (sDouglasRachford show Hf Hg Cf Cg fmt h x0 tau eta niter gfirst) (DouglasRachford f g v tau eta niter gfirst).
Proof. exact sdr_sim. Qed.
Print Assumptions C84_douglas_rachford.

(** the same for ProximalGradient without backtracking, for every eta, acceleration and
    tolerance; the proximal operator of g may write into its argument *)
Theorem C84_proximal_gradient : forall (E : IPS) (show : bool) (f g : Op E) (Hg : hprox E) (Cf Cg : hcall E) fmt (h : heap E) (x0 : ref) (v : E) epsg tau beta eta niter niterback accel tol,
  confined Hg (o_prox g) -> calls_only Cf (o_call f) -> calls_only Cg (o_call g) -> holds h x0 v ->
  same_or (log_error show [o_call f; o_call g] fmt) (fun p q => let '(h', x, tr) := p in holds h' x (fst q) /\ Forall2 (holds h') tr (snd q) /\ keeps h h')
       (sProximalGradient show f Hg Cf Cg fmt h x0 epsg tau eta niter accel tol)
       (ProximalGradient f g v epsg (Some tau) false beta eta niter niterback accel tol).
Proof. exact spg_sim. Qed.
Print Assumptions C84_proximal_gradient.
