(** Property theorems for Heap3: statements only; every proof is [exact] a lemma of P_Heap3.v.
    Generated from the tagged lemmas of that file. *)
From Verif Require Import Base Space Spec SpecOps VSum MatFacts M_ProxOp M_Norms M_Loop M_PG M_Split M_Multi M_Dyk M_L2 M_Inter M_Heap LoopFacts P_L2 P_Heap P_Heap2.
From Verif Require Import S_Heap.
From Verif Require Import P_Heap3.
Open Scope result_scope.
Open Scope R_scope.


(** HQS(gfirst=True) with f = L2(q=q) and no data: x is right but the returned z is the result
    of proxg minus tau*alpha*q *)
Theorem C79_hqs_shift : forall (E F : IPS) (ext : L2Ext E F) cfg (st : L2St ext) o q (f g : Op E) (Hg : hprox E) (h : heap E) x0 z0 vx0 vz0 tau niter,
  l2_d cfg = NoB o -> l2_q cfg = Some q -> (forall x t, o_prox f x t = snd (l2_prox ext cfg st x t)) -> reads_only Hg (o_prox g) ->
  holds_opt h x0 vx0 -> holds_opt h z0 vz0 -> 0 < tau -> (0 < niter)%nat ->
  same (fun p q' => let '(h', x, z, tr) := p in let '(vx, vz, vtr) := q' in holds h' x vx /\ holds h' z (vz [-] (tau * l2_alpha cfg) [*] q))
       (hHQS (l2_hprox ext cfg st) Hg h x0 [tau] niter z0 true) (HQS f g vx0 [tau] niter vz0 true).
Proof. exact hqs_shift. Qed.
Print Assumptions C79_hqs_shift.

(** the vector z returned by HQS need not belong to the domain of g: with f = L2(q=1), g the
    indicator of [0, 1], x0 = 0 and tau = 1 the returned z is -1, for every number of
    iterations *)
Theorem C79_hqs_domain_refuted : forall (F : IPS) (ext : L2Ext R_IPS F) cfg (st : L2St ext) o (g : Op R_IPS) (Hg : hprox R_IPS) (h : heap R_IPS) x0 niter,
  l2_d cfg = NoB o -> l2_q cfg = Some (1 : R_IPS) -> l2_alpha cfg = 1 -> st_sigma st = 1 -> impl_prox g (indic (fun x : R_IPS => 0 <= x <= 1)) -> reads_only Hg (o_prox g) ->
  holds h x0 (0 : R_IPS) -> (0 < niter)%nat ->
  exists h' x z tr, hHQS (l2_hprox ext cfg st) Hg h (Some x0) [1] niter None true = Ok (h', x, z, tr) /\ holds h' z (-1 : R_IPS).
Proof. exact hqs_domain. Qed.
Print Assumptions C79_hqs_domain_refuted.

(** HQS uses the caller's arrays without copying them: with f = L2(q=q) called first, the array
    passed as z0 holds z0 - tau*alpha*q after the call *)
Theorem C79_hqs_caller_refuted : forall (E F : IPS) (ext : L2Ext E F) cfg (st : L2St ext) o q (pg : E -> R -> result E) (h : heap E) x0 z0 vx0 vz0 tau niter h' x z tr,
  l2_d cfg = NoB o -> l2_q cfg = Some q -> holds h x0 vx0 -> holds h z0 vz0 -> 0 < tau -> (0 < niter)%nat ->
  hHQS (l2_hprox ext cfg st) (hp_fresh pg) h (Some x0) [tau] niter (Some z0) false = Ok (h', x, z, tr) ->
  holds h' z0 (vz0 [-] (tau * l2_alpha cfg) [*] q).
Proof. exact hqs_caller. Qed.
Print Assumptions C79_hqs_caller_refuted.

(** with an operator that stores its result in its argument (Intersection), all the arrays that
    ProximalPoint hands to the callback are one and the same array, which ends up holding
    the last iterate *)
Theorem C79_point_history_refuted : forall (E : IPS) (f : Op E) (h : heap E) x0 v tau niter tol h' x tr, holds h x0 v ->
  hProximalPoint (hp_inplace (o_prox f)) f h x0 tau niter tol = Ok (h', x, tr) -> Forall (eq x) tr.
Proof. exact pp_history. Qed.
Print Assumptions C79_point_history_refuted.

(** the inherited gradient of the Moreau envelope is (x - prox(x)) / sigmame when prox leaves
    its argument alone *)
Theorem C79_moreau_grad : forall (E : IPS) (H : hprox E) f s (h : heap E) r x p, reads_only H f -> holds h r x -> f x s = Ok p ->
  exists h' g, h_moreau_grad H s h r = Ok (h', g) /\ holds h' g (/ s [*] (x [-] p)) /\ keeps h h'.
Proof. exact grad_reads. Qed.
Print Assumptions C79_moreau_grad.

(** for an operator that stores its result in its argument (Intersection) the inherited gradient
    is always zero, and the caller's array is overwritten with the proximal point *)
Theorem C79_moreau_grad_refuted : forall (E : IPS) f s (h : heap E) r x p, holds h r x -> f x s = Ok p ->
  exists h' g, h_moreau_grad (hp_inplace f) s h r = Ok (h', g) /\ holds h' g vzero /\ holds h' r p.
Proof. exact grad_inplace. Qed.
Print Assumptions C79_moreau_grad_refuted.

(** PPXA on f1 = L2(q=q) and f2 = L2() over the reals, with x0 = 0, tau = 1/2, eta = 1, equal
    weights and any tolerance up to |q|/4, returns (1 - niter) q/2 - q/2^(niter+1), which
    grows without bound, while the minimiser of f1 + f2 is -q/2 *)
Theorem C79_ppxa_refuted : forall (F : IPS) (ext : L2Ext R_IPS F) cfg cfg' (st st' : L2St ext) o o' (q : R) (h : heap R_IPS) x0 tol niter,
  l2_d cfg = NoB o -> l2_q cfg = Some (q : R_IPS) -> l2_alpha cfg = 1 -> st_sigma st = 1 -> l2_d cfg' = NoB o' -> l2_q cfg' = None -> st_sigma st' = 1 ->
  holds h x0 (0 : R_IPS) -> tol <= Rabs q / 4 ->
  (exists h' tr, hPPXA [l2_hprox ext cfg st; l2_hprox ext cfg' st'] h (HCommon x0) (/ 2) 1 (Some [/ 2; / 2]) niter Rabs (Some tol)
     = Ok (h', ((1 - INR niter) / 2 * q - q * (/ 2) ^ (niter + 1) : R_IPS), tr)) /\
  (forall u : R_IPS, is_min (eadd (etot (l2_call ext cfg st)) (etot (l2_call ext cfg' st'))) u <-> u = (- / 2 * q : R)).
Proof. exact ppxa_div. Qed.
Print Assumptions C79_ppxa_refuted.

(** parallel_dykstra_prox (the prox of a Sum of three functions) on L2(q=q), L2(), L2() over the
    reals, with equal weights, unit steps, x0 = 0 and any tolerance up to |q|/6, returns
    -niter q/6, which grows without bound; the proximal point of the weighted sum is -q/6 *)
Theorem C79_sum_refuted : forall (F : IPS) (ext : L2Ext R_IPS F) cfg cfg' (st st' : L2St ext) o o' (q : R) (h : heap R_IPS) x0 tol niter,
  l2_d cfg = NoB o -> l2_q cfg = Some (q : R_IPS) -> l2_alpha cfg = 1 -> st_sigma st = 1 -> l2_d cfg' = NoB o' -> l2_q cfg' = None -> st_sigma st' = 1 ->
  holds h x0 (0 : R_IPS) -> tol <= Rabs q / 6 ->
  let f := etot (E := R_IPS) (l2_call ext cfg st) in let g := etot (E := R_IPS) (l2_call ext cfg' st') in
  (exists h', hparallel_dykstra_prox [l2_hprox ext cfg st; l2_hprox ext cfg' st'; l2_hprox ext cfg' st'] h x0 [1; 1; 1] [1; 1; 1] niter Rabs tol = Ok (h', (- INR niter * q / 6 : R_IPS))) /\
  (forall u : R_IPS, is_prox (escal (/ 3) (eadd f (eadd g g))) 1 (0 : R_IPS) u <-> u = (- q / 6 : R)).
Proof. exact sum_div. Qed.
Print Assumptions C79_sum_refuted.

(** the hypotheses hold for L2(q=1) and L2() over the reals: the first operator overwrites its
    argument (it is confined but does not only read), the second only reads; and the by-
    value and the in-memory runs of Douglas-Rachford from 0 return -1/2 and -3/4 after two
    iterations *)
Example C79_example : let ext := mkL2Ext (fun _ x => x) unit (fun _ => tt) (fun _ x => x) (fun _ x _ _ => x) (fun _ _ x _ _ => x) : L2Ext R_IPS R_IPS in
  let c1 := mkL2 (NoB None) (Some (1 : R_IPS)) 1 false (fun _ => 1%nat) false Legacy DenseDefault in
  let c2 := mkL2 (NoB None) None 1 false (fun _ => 1%nat) false Legacy DenseDefault in
  let s1 := l2_init ext c1 1 None in let s2 := l2_init ext c2 1 None in
  let o1 := mkOp (fun _ => Ok (VNum 0)) (fun x t => snd (l2_prox ext c1 s1 x t)) (fun _ _ => Ok vzero) (fun _ => Ok None) false : Op R_IPS in
  let o2 := mkOp (fun _ => Ok (VNum 0)) (fun x t => snd (l2_prox ext c2 s2 x t)) (fun _ _ => Ok vzero) (fun _ => Ok None) false : Op R_IPS in
  confined (l2_hprox ext c1 s1) (o_prox o1) /\ ~ reads_only (l2_hprox ext c1 s1) (o_prox o1) /\ reads_only (l2_hprox ext c2 s2) (o_prox o2) /\
  (exists y tr, DouglasRachford o1 o2 (0 : R_IPS) 1 1 2 false = Ok ((- / 2 : R_IPS), y, tr)) /\
  (exists h' x y tr, hDouglasRachford (l2_hprox ext c1 s1) (l2_hprox ext c2 s2) [0 : R_IPS] 0%nat 1 1 2 false = Ok (h', x, y, tr) /\ holds h' x (- (3 / 4) : R_IPS)).
Proof. exact heap_example. Qed.
