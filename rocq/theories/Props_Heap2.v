(** Property theorems for Heap2: statements only; every proof is [exact] a lemma of P_Heap2.v.
    Generated from the tagged lemmas of that file. *)
From Verif Require Import Base Space Spec VSum MatFacts M_ProxOp M_Norms M_Loop M_PG M_Split M_Multi M_Dyk M_L2 M_Inter M_Heap SpecOps LoopFacts P_L2 S_Inter P_Inter P_Heap.
From Verif Require Import S_Heap.
From Verif Require Import P_Heap2.
Open Scope result_scope.
Open Scope R_scope.


(** L2.prox writes at most into its argument and computes the value of the by-value model *)
Theorem C79_l2_confined : forall (E F : IPS) (ext : L2Ext E F) cfg (st : L2St ext), confined (l2_hprox ext cfg st) (fun x tau => snd (l2_prox ext cfg st x tau)).
Proof. exact l2_confined. Qed.
Print Assumptions C79_l2_confined.

(** without a q-term, or with data b and no operator, or with an operator and a solver other
    than cgls, L2.prox changes no array *)
Theorem C79_l2_reads : forall (E F : IPS) (ext : L2Ext E F) cfg (st : L2St ext),
  l2_q cfg = None \/ (exists b, l2_d cfg = OnlyB b) \/ (exists A b, l2_d cfg = WithOp A true b) \/ (exists A b, l2_d cfg = WithOp A false b /\ l2_solv cfg <> Cgls) ->
  reads_only (l2_hprox ext cfg st) (fun x tau => snd (l2_prox ext cfg st x tau)).
Proof. exact l2_reads. Qed.
Print Assumptions C79_l2_reads.

(** DouglasRachfordSplitting with f = L2(q=q) = 1/2 |x|^2 + <q, x> and g = L2() = 1/2 |x|^2 (tau
    = eta = 1, f first) returns -q + (x0 + q) / 2^niter, which tends to -q, while the
    minimiser of f + g is -q/2: L2.prox overwrites the array y of the solver *)
Theorem C79_dr_l2_refuted : forall (E F : IPS) (ext : L2Ext E F) cfg cfg' (st st' : L2St ext) o o' (q : E) (h : heap E) x0 v niter,
  l2_d cfg = NoB o -> l2_q cfg = Some q -> l2_alpha cfg = 1 -> st_sigma st = 1 ->
  l2_d cfg' = NoB o' -> l2_q cfg' = None -> st_sigma st' = 1 -> holds h x0 v -> (0 < niter)%nat ->
  (exists h' x y tr, hDouglasRachford (l2_hprox ext cfg st) (l2_hprox ext cfg' st') h x0 1 1 niter false = Ok (h', x, y, tr) /\
     holds h' x ((- 1) [*] q [+] (/ 2) ^ niter [*] (v [+] q)) /\ holds h' y ((- 1) [*] q [+] (/ 2) ^ niter [*] (v [+] q))) /\
  (forall u, is_min (eadd (etot (l2_call ext cfg st)) (etot (l2_call ext cfg' st'))) u <-> u = (- / 2) [*] q).
Proof. exact dr_l2. Qed.
Print Assumptions C79_dr_l2_refuted.

(** when the operator called first stores its result in its argument (as Intersection does),
    DouglasRachfordSplitting with eta = 1 performs exactly the iterations of HQS started
    from z0 = x0 (the reflection 2 x - y collapses to x): the returned vectors and the
    arrays x handed to the callback are those of HQS *)
Theorem C79_dr_inplace : forall (E : IPS) (f g : Op E) (Hg : hprox E) (h : heap E) x0 v tau niter, confined Hg (o_prox g) -> holds h x0 v -> (0 < niter)%nat ->
  same (fun p q => let '(h', x, y, tr) := p in let '(vx, vz, vtr) := q in
          holds h' x vx /\ holds h' y vz /\ Forall2 (fun r w => holds h' (fst r) (fst w)) tr vtr /\ keeps h h')
       (hDouglasRachford (hp_inplace (o_prox f)) Hg h x0 tau 1 niter false) (HQS f g None [tau] niter (Some v) false).
Proof. exact dr_inplace. Qed.
Print Assumptions C79_dr_inplace.

(** Intersection.prox stores its result in the array it was given, and returns that array *)
Theorem C79_intersection : forall k n sg niter tol (h : heap (Vec (k * n))) r x tau v, holds h r x -> inter_vec k n sg niter tol x tau = Ok v ->
  inter_hprox k n sg niter tol h r tau = Ok (wr h r v, r) /\ holds (wr h r v) r v /\ keeps_but r h (wr h r v).
Proof. exact inter_writes. Qed.
Print Assumptions C79_intersection.

(** DouglasRachfordSplitting with f = Intersection(k=2, n=1, sigma=0) (equal entries), g =
    x_0^2/2 + 3 (x_1 - 1)^2/2, tau = eta = 1 and x0 = 0 returns, after six or more
    iterations, a vector whose entries are 0.6 up to 0.01, while the minimiser has entries
    0.75: Intersection.prox overwrites the array y of the solver *)
Theorem C79_dr_intersection_refuted : forall (g : Op (Vec (2 * 1))) (Hg : hprox (Vec (2 * 1))) h x0 ni tol niter, impl_prox g (etot misfit2) -> confined Hg (o_prox g) ->
  holds h x0 vzero -> (0 < ni)%nat -> (6 <= niter)%nat ->
  (exists h' x y tr vx, hDouglasRachford (inter_hprox 2 1 (SigNum 0) ni tol) Hg h x0 1 1 niter false = Ok (h', x, y, tr) /\ holds h' x vx /\
     Rabs (get vx 0 - 3 / 5) <= / 100 /\ Rabs (get vx 1 - 3 / 5) <= / 100) /\
  (forall u, is_min (eadd (indic (fun u => get u 0 = get u 1)) (etot misfit2)) u <-> get u 0 = 3 / 4 /\ get u 1 = 3 / 4).
Proof. exact dr_inter. Qed.
Print Assumptions C79_dr_intersection_refuted.

(** an operator g as required: the proximal operator of the misfit, computing a new array *)
Example C79_intersection_example : let g := mkOp (fun x => Ok (VNum (misfit2 x))) (fun x t => Ok (vtab (2 * 1) (fun i => match i with O => get x 0 / (1 + t) | _ => (get x 1 + 3 * t) / (1 + 3 * t) end))) (fun _ _ => Ok vzero) (fun _ => Ok None) false : Op (Vec (2 * 1)) in
  impl_prox g (etot misfit2) /\ confined (hp_fresh (o_prox g)) (o_prox g).
Proof. exact dr_inter_ex. Qed.
