(** Property theorems for Show3: statements only; every proof is [exact] a lemma of P_Show3.v.
    Generated from the tagged lemmas of that file. *)
From Coq Require Import String Psatz.
From Verif Require Import Base Space Spec SpecOps VSum MatFacts ConvexFacts M_ProxOp M_Norms M_Loop M_PG M_Split M_Multi M_PD M_Heap M_AndShow M_Show LoopFacts S_Seq S_PD Compact P_PD P_Iter2 P_Heap P_Show.
From Verif Require Import S_Heap S_Show.
From Verif Require Import P_Show3.
Open Scope result_scope.
Open Scope R_scope.


(** switching the log on changes the result of ADMM when f is Orthogonal(f0, Q, b=b) with an
    operator Q that returns the array it is given (pylops.Identity by default): for every
    number of iterations the silent run returns (x, z) and the run with show=True returns (x
    + b, z) *)
Theorem C84_admm_refuted : forall (E : IPS) (f g : Op E) (Hf Hg : hprox E) (c0 : E -> result pyval) (b : E) (Cg : hcall E) fmt (h : heap E) (x0 z0 : option ref) (vx0 vz0 : option E) tau niter vx vz vtr,
  confined Hf (o_prox f) -> confined Hg (o_prox g) -> (forall v, o_call f v = c0 (v [+] b)) -> calls_only Cg (o_call g) ->
  (forall v, exists k, c0 v = Ok k) -> (forall v, exists k, o_call g v = Ok k) -> (forall v l, fmt v l = Ok tt) -> holds_opt h x0 vx0 -> holds_opt h z0 vz0 -> (0 < niter)%nat ->
  ADMM f g vx0 tau niter vz0 false = Ok (vx, vz, vtr) ->
  let C := horth_call hl_self b (hc_reads c0) in
  (exists h' x z tr, sADMM false Hf Hg C Cg fmt h x0 tau niter z0 false = Ok (h', x, z, tr) /\ holds h' x vx /\ holds h' z vz) /\
  (exists h' x z tr, sADMM true Hf Hg C Cg fmt h x0 tau niter z0 false = Ok (h', x, z, tr) /\ holds h' x (vx [+] b) /\ holds h' z vz).
Proof. exact admm_show. Qed.
Print Assumptions C84_admm_refuted.

(** ProximalPoint on f = Orthogonal(f0, Q, b=b) with f0 = 1/2|.|^2 and an operator Q that
    returns the array it is given, that is on 1/2|x + b|^2: silently, n iterations return -b
    + (1+tau)^(-n) (x0 + b), which tends to the minimiser -b; with show=True (n up to 19, so
    that every iteration is logged) they return b/tau + (1+tau)^(-n) (x0 - b/tau), which
    heads for b/tau *)
Theorem C84_point_refuted : forall (E : IPS) fuel (f0 : Op E) (b : E) (H : hprox E) fmt (h : heap E) (x0 : ref) (v : E) tau n,
  let half := etot (fun v : E => norm2 v / 2) in let f := obj (S fuel) (orth_body f0 (id_linop E) false b 1) in let C := horth_call hl_self b (hc_reads (o_call f0)) in
  impl_prox f0 half -> impl_call f0 half -> confined H (o_prox f) -> (forall v l, fmt v l = Ok tt) -> holds h x0 v -> 0 < tau ->
  is_min (epre half (fun x => x [+] b)) (vopp b) /\
  (exists h' x tr, sProximalPoint false H C fmt h x0 tau n None = Ok (h', x, tr) /\ holds h' x (vopp b [+] (/ (1 + tau)) ^ n [*] (v [+] b))) /\
  ((n <= 19)%nat -> exists h' x tr, sProximalPoint true H C fmt h x0 tau n None = Ok (h', x, tr) /\
     holds h' x (/ tau [*] b [+] (/ (1 + tau)) ^ n [*] (v [-] / tau [*] b))).
Proof. exact point_show. Qed.
Print Assumptions C84_point_refuted.

(** the same with a tolerance, without or with the log: started at 0 with tol=0 (never met), n
    iterations return (1 - (1+tau)^(-n)) b/tau for every n, and stay on the wrong side of 0 *)
Theorem C84_point_tol_refuted : forall (E : IPS) fuel (show : bool) (f0 : Op E) (b : E) (H : hprox E) fmt (h : heap E) (x0 : ref) tau n,
  let half := etot (fun v : E => norm2 v / 2) in let f := obj (S fuel) (orth_body f0 (id_linop E) false b 1) in let C := horth_call hl_self b (hc_reads (o_call f0)) in
  impl_prox f0 half -> impl_call f0 half -> confined H (o_prox f) -> (forall v l, fmt v l = Ok tt) -> holds h x0 vzero -> 0 < tau -> b <> vzero ->
  exists h' x tr, sProximalPoint show H C fmt h x0 tau n (Some 0) = Ok (h', x, tr) /\ holds h' x ((1 - (/ (1 + tau)) ^ n) / tau [*] b).
Proof. exact point_tol. Qed.
Print Assumptions C84_point_tol_refuted.
