(** Property theorems for Heap: statements only; every proof is [exact] a lemma of P_Heap.v.
    Generated from the tagged lemmas of that file. *)
From Verif Require Import Base Space Spec VSum MatFacts M_ProxOp M_Norms M_Loop M_PG M_Split M_Multi M_Dyk M_L2 M_Inter M_Heap LoopFacts.
From Verif Require Import S_Heap.
From Verif Require Import P_Heap.
Open Scope result_scope.
Open Scope R_scope.


(** if the operator called first leaves its argument alone, DouglasRachfordSplitting returns
    exactly the vectors of the model that passes arrays by value, every array handed to the
    callback keeps its content until the end, and the caller's arrays are unchanged; the
    other operator may write into its argument *)
Theorem C79_douglas_rachford : forall (E : IPS) (f g : Op E) (Hf Hg : hprox E) (h : heap E) (x0 : ref) (v : E) tau eta niter (gfirst : bool),
  (if gfirst then reads_only Hg (o_prox g) /\ confined Hf (o_prox f) else reads_only Hf (o_prox f) /\ confined Hg (o_prox g)) ->
  holds h x0 v ->
  same (fun p q => let '(h', x, y, tr) := p in let '(vx, vy, vtr) := q in
          holds h' x vx /\ holds h' y vy /\ Forall2 (holds2 h') tr vtr /\ keeps h h')
       (hDouglasRachford Hf Hg h x0 tau eta niter gfirst) (DouglasRachford f g v tau eta niter gfirst).
Proof. exact dr_sim. Qed.
Print Assumptions C79_douglas_rachford.

(** if the operator leaves its argument alone, ProximalPoint returns the vector of the by-value
    model, the arrays handed to the callback keep the successive iterates until the end, and
    the caller's arrays are unchanged *)
Theorem C79_proximal_point : forall (E : IPS) (f : Op E) (H : hprox E) (h : heap E) (x0 : ref) (v : E) tau niter tol, reads_only H (o_prox f) -> holds h x0 v ->
  same (fun p q => let '(h', x, tr) := p in holds h' x (fst q) /\ Forall2 (holds h') tr (snd q) /\ keeps h h')
       (hProximalPoint H f h x0 tau niter tol) (ProximalPoint f v tau niter tol).
Proof. exact pp_sim. Qed.
Print Assumptions C79_proximal_point.

(** the vector returned by ProximalPoint is right, and the caller's arrays are unchanged, even
    when the operator writes into its argument *)
Theorem C79_proximal_point_value : forall (E : IPS) (f : Op E) (H : hprox E) (h : heap E) (x0 : ref) (v : E) tau niter tol, confined H (o_prox f) -> holds h x0 v ->
  same (fun p q => let '(h', x, tr) := p in holds h' x (fst q) /\ keeps h h')
       (hProximalPoint H f h x0 tau niter tol) (ProximalPoint f v tau niter tol).
Proof. exact pp_value. Qed.
Print Assumptions C79_proximal_point_value.

(** if neither operator touches its argument, HQS returns exactly the vectors of the by-value
    model, every array handed to the callback keeps its content, and the caller's arrays are
    unchanged *)
Theorem C79_hqs : forall (E : IPS) (f g : Op E) (Hf Hg : hprox E) (h : heap E) (x0 z0 : option ref) (vx0 vz0 : option E) tau niter (gfirst : bool),
  reads_only Hf (o_prox f) -> reads_only Hg (o_prox g) -> holds_opt h x0 vx0 -> holds_opt h z0 vz0 ->
  same (fun p q => let '(h', x, z, tr) := p in let '(vx, vz, vtr) := q in
          holds h' x vx /\ holds h' z vz /\ Forall2 (holds2 h') tr vtr /\ keeps h h')
       (hHQS Hf Hg h x0 tau niter z0 gfirst) (HQS f g vx0 tau niter vz0 gfirst).
Proof. exact hqs_sim. Qed.
Print Assumptions C79_hqs.

(** in HQS the variable computed last in an iteration (x with gfirst=True, z otherwise) is right
    even when the operators write into their arguments *)
Theorem C79_hqs_last : forall (E : IPS) (f g : Op E) (Hf Hg : hprox E) (h : heap E) (x0 z0 : option ref) (vx0 vz0 : option E) tau niter (gfirst : bool),
  confined Hf (o_prox f) -> confined Hg (o_prox g) -> holds_opt h x0 vx0 -> holds_opt h z0 vz0 ->
  same (fun p q => let '(h', x, z, tr) := p in let '(vx, vz, vtr) := q in if gfirst then holds h' x vx else holds h' z vz)
       (hHQS Hf Hg h x0 tau niter z0 gfirst) (HQS f g vx0 tau niter vz0 gfirst).
Proof. exact hqs_last. Qed.
Print Assumptions C79_hqs_last.

(** ADMM gives its operators temporaries only: whatever they write into their arguments, it
    returns exactly the vectors of the by-value model, the arrays handed to the callback
    keep their content, and the caller's arrays are unchanged *)
Theorem C79_admm : forall (E : IPS) (f g : Op E) (Hf Hg : hprox E) (h : heap E) (x0 z0 : option ref) (vx0 vz0 : option E) tau niter (gfirst : bool),
  confined Hf (o_prox f) -> confined Hg (o_prox g) -> holds_opt h x0 vx0 -> holds_opt h z0 vz0 ->
  same (fun p q => let '(h', x, z, tr) := p in let '(vx, vz, vtr) := q in
          holds h' x vx /\ holds h' z vz /\ Forall2 (holds2 h') tr vtr /\ keeps h h')
       (hADMM Hf Hg h x0 tau niter z0 gfirst) (ADMM f g vx0 tau niter vz0 gfirst).
Proof. exact admm_sim. Qed.
Print Assumptions C79_admm.

(** if no operator touches its argument, PPXA returns exactly the vectors of the by-value model
    and the caller's arrays are unchanged *)
Theorem C79_ppxa : forall (E : IPS) (os : list (Op E)) (Hs : list (hprox E)) (h : heap E) x0 v0 tau eta weights niter (amax : E -> R) tol,
  Forall2 (fun H o => reads_only H (o_prox o)) Hs os -> holds_init h x0 v0 ->
  same (fun p q => let '(h', x, tr) := p in x = fst q /\ tr = snd q /\ keeps h h')
       (hPPXA Hs h x0 tau eta weights niter amax tol) (PPXA os v0 tau eta weights niter amax tol).
Proof. exact ppxa_sim. Qed.
Print Assumptions C79_ppxa.

(** ConsensusADMM gives its operators temporaries only: whatever they write into their
    arguments, it returns exactly the vectors of the by-value model and the caller's arrays
    are unchanged *)
Theorem C79_consensus_admm : forall (E : IPS) (os : list (Op E)) (Hs : list (hprox E)) (h : heap E) x0 v0 tau niter (amax : E -> R) tol,
  Forall2 (fun H o => confined H (o_prox o)) Hs os -> holds h x0 v0 ->
  same (fun p q => let '(h', x, tr) := p in x = fst q /\ tr = snd q /\ keeps h h')
       (hConsensusADMM Hs h x0 tau niter amax tol) (ConsensusADMM os v0 tau niter amax tol).
Proof. exact cadmm_sim. Qed.
Print Assumptions C79_consensus_admm.

(** if no operator touches its argument, parallel_dykstra_prox (the prox of a Sum of three or
    more functions) returns exactly the vector of the by-value model and the caller's arrays
    are unchanged *)
Theorem C79_dykstra_prox : forall (E : IPS) (os : list (Op E)) (Hs : list (hprox E)) (h : heap E) x0 v0 weights taus niter (amax : E -> R) tol,
  Forall2 (fun H o => reads_only H (o_prox o)) Hs os -> holds h x0 v0 ->
  same (fun p q => snd p = q /\ keeps h (fst p)) (hparallel_dykstra_prox Hs h x0 weights taus niter amax tol) (parallel_dykstra_prox amax v0 os weights taus niter tol).
Proof. exact dyk_sim. Qed.
Print Assumptions C79_dykstra_prox.
