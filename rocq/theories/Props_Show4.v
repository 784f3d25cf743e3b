(** Property theorems for Show4: statements only; every proof is [exact] a lemma of P_Show4.v.
    Generated from the tagged lemmas of that file. *)
From Coq Require Import String Psatz.
From Verif Require Import Base Space Spec SpecOps VSum MatFacts ConvexFacts M_ProxOp M_Norms M_Loop M_PG M_Split M_Multi M_PD M_Heap M_AndShow M_Show LoopFacts S_Seq S_PD Compact Fejer P_ProxOp P_PD P_PD2 P_Iter2 P_Heap P_Show P_Show2 P_Show3.
From Verif Require Import S_Heap S_Show.
From Verif Require Import P_Show4.
Open Scope result_scope.
Open Scope R_scope.


(** PrimalDual with z and an identity operator that returns the array it is given
    (pylops.Identity by default): the in-place sum with z changes the dual variable itself,
    and the run returns the vectors of the by-value model in which the dual variable is
    replaced by its sum with z; the primal arrays handed to the callback keep the primal
    iterates, the caller's arrays are unchanged *)
Theorem C84_primal_dual_identity : forall (E : IPS) (show : bool) (f g : Op E) (Hf Hgd : hprox E) (Cf Cg : hcall E) fmt (h : heap E)
    (x0 : ref) (v : E) tau mu (y0 : option ref) (vy0 : option E) (z : E) theta niter (gfirst : bool),
  confined Hf (o_prox f) -> confined Hgd (o_proxdual g) -> calls_only Cf (o_call f) -> calls_only Cg (o_call g) -> holds h x0 v -> holds_opt h y0 vy0 ->
  same_or (log_error show [o_call f; o_call g] fmt) (fun p q => let '(h', x, y, tr) := p in let '(vx, vy, vtr) := q in
          holds h' x vx /\ holds h' y vy /\ Forall2 (fun a b => holds h' (fst a) (fst b)) tr vtr /\ keeps h h')
       (sPrimalDual show Hf Hgd hl_self hl_self Cf Cg fmt h x0 tau mu y0 (Some z) theta niter gfirst)
       (PrimalDual f g (id_linop E) (Some (fun y => y)) v tau mu vy0 (Some z) theta niter gfirst).
Proof. exact spd_self. Qed.
Print Assumptions C84_primal_dual_identity.

(** what PrimalDual with z and an operator returning the array it is given computes: for convex
    f, g, steps with tau mu <= 1, either order, in finite dimension and if a pair (xo, yo)
    with -(yo + z) in the subdifferential of f at xo and yo in that of g at xo + z/mu
    exists, its x converges to a minimiser of f(x) + <z, x> + g(x + z/mu), that is of
    another function than f(x) + <z, x> + g(x), depending on the step mu *)
Theorem C57_alias_limit : forall (E : IPS) proxf proxg (f g gs : efun E) x0 tau mu y0 z gfirst, bw E ->
  impl_prox proxf f -> impl_proxdual proxg gs -> convex f -> convex g -> is_conj g gs -> (forall u, exists p, is_prox g 1 u p) ->
  0 < tau -> 0 < mu -> tau * mu <= 1 -> (exists xo yo, is_subgrad f xo (vopp (yo [+] z)) /\ is_subgrad g (xo [+] / mu [*] z) yo) ->
  exists xs ys xl, (forall n, exists tr, PrimalDual proxf proxg (id_linop E) (Some (fun y => y)) x0 (Scalar tau) (Scalar mu) y0 (Some z) 1 n gfirst = Ok (xs n, ys n, tr)) /\
    is_min (eadd (elin f z) (epre g (fun x => x [+] / mu [*] z))) xl /\ vcv xs xl.
Proof. exact alias_limit. Qed.
Print Assumptions C57_alias_limit.

(** f = g = x^2/2, tau = mu = 1/2, z = 1: the hypotheses are met; the limit is -3/2, not -1/2 *)
Example C57_alias_limit_example : bw R_IPS /\ convex half1_fun /\ (forall u, exists p, is_prox half1_fun 1 u p) /\ 1 / 2 * (1 / 2) <= 1 /\
  is_subgrad half1_fun (-(3 / 2) : R_IPS) (vopp ((1 / 2 : R_IPS) [+] (1 : R_IPS))) /\ is_subgrad half1_fun ((-(3 / 2) : R_IPS) [+] / (1 / 2) [*] (1 : R_IPS)) (1 / 2 : R_IPS) /\
  is_min (eadd (elin half1_fun (1 : R_IPS)) (epre half1_fun (fun x : R_IPS => x [+] / (1 / 2) [*] (1 : R_IPS)))) (-(3 / 2) : R_IPS).
Proof. exact alias_limit_ex. Qed.

(** f = x^2/2 with a proximal operator returning new arrays, its value computed from values,
    multiplication by 2 into new arrays and the identity returning its argument meet the
    hypotheses; one logged iteration of ProximalPoint from the array 4 with tau = 1 returns
    2; the value of Orthogonal(f, identity, b=1) does not leave its argument alone *)
Example C84_example : let fmt := fun (_ : R_IPS) (_ : list pyval) => Ok tt in let h := [4] : heap R_IPS in
  confined (hp_fresh (o_prox half1)) (o_prox half1) /\ calls_only (hc_reads (o_call half1)) (o_call half1) /\
  makes_new (hl_new (lapp (scal_linop R_IPS 2))) (lapp (scal_linop R_IPS 2)) /\ lin_reads hl_self (lapp (id_linop R_IPS)) /\ holds h 0%nat (4 : R_IPS) /\
  (exists h' x tr, sProximalPoint true (hp_fresh (o_prox half1)) (hc_reads (o_call half1)) fmt h 0%nat 1 1%nat None = Ok (h', x, tr) /\ holds h' x (2 : R_IPS) /\ holds h' 0%nat (4 : R_IPS)) /\
  ~ calls_only (horth_call hl_self (1 : R_IPS) (hc_reads (o_call half1))) (fun x => o_call half1 (x [+] (1 : R_IPS))).
Proof. exact show_ex. Qed.
