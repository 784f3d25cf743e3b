(** Property theorems for Dyk3: statements only; every proof is [exact] a lemma of P_Dyk3.v.
    Generated from the tagged lemmas of that file. *)
From Coq Require Import Psatz Classical.
From Verif Require Import Base Space Spec SpecOps ConvexFacts VSum MatFacts M_ProxOp M_Norms M_Loop LoopFacts LoopFacts2 SeqConv M_PG M_Multi M_Dyk P_Multi P_Dyk P_Dyk2 P_Proj.
From Verif Require Import S_Dyk3.
From Verif Require Import P_Dyk3.
Open Scope result_scope.
Open Scope R_scope.


(** GenericIntersectionProx of three or more projections on convex sets (or two with
    use_parallel): the sweeps follow the documented recursion, u + z_1 + ... + z_m equals
    the input before every sweep, at most niter sweeps run and the loop ends at the first
    one passing the test, the result lies in the last set, and when all iterates of the last
    sweep agree it is the projection of the input on the intersection *)
Theorem C35_cyclic : forall (E : IPS) amax (projs : list (E -> result E)) (C : nat -> E -> Prop) x0 tau par, let m := length projs in
  0 < tau -> (2 < m)%nat \/ (m = 2%nat /\ par = true) -> (forall i p, nth_error projs i = Some p -> proj_impl p (C i)) -> (forall i, (i < m)%nat -> convex_set (C i)) ->
  exists U Z, cyclic_seq m C x0 U Z /\ (forall k, U k 0%nat [+] VS m (Z k) = x0) /\
    forall niter tol, exists k, gi_prox amax projs niter tol par x0 tau = Ok (U k 0%nat) /\ stops_when (cyc_small amax tol m U) niter k /\
      ((0 < k)%nat -> C (m - 1)%nat (U k 0%nat)) /\
      ((0 < k)%nat -> (forall i, (i < m)%nat -> U (k - 1)%nat (S i) = U k 0%nat) -> is_proj (fun v => forall i, (i < m)%nat -> C i v) x0 (U k 0%nat)).
Proof. exact C35_cyclic_l. Qed.
Print Assumptions C35_cyclic.

(** when the sets share a point and tol > 0 the loop stops by itself: some N bounds the number
    of sweeps whatever niter is *)
Theorem C35_cyclic_stops : forall (E : IPS) amax (projs : list (E -> result E)) (C : nat -> E -> Prop) x0 tau par tol, let m := length projs in
  0 < tau -> (2 < m)%nat \/ (m = 2%nat /\ par = true) -> (forall i p, nth_error projs i = Some p -> proj_impl p (C i)) -> (forall i, (i < m)%nat -> convex_set (C i)) ->
  (forall w, amax w <= norm w) -> 0 < tol -> (exists z, forall i, (i < m)%nat -> C i z) ->
  exists U Z N, cyclic_seq m C x0 U Z /\ cyc_small amax tol m U N /\ forall niter, (N <= niter)%nat -> gi_prox amax projs niter tol par x0 tau = Ok (U N 0%nat).
Proof. exact C35_cyclic_stops_l. Qed.
Print Assumptions C35_cyclic_stops.

(** GenericIntersectionProx with no projection raises ValueError, with one it returns exactly
    that projection, otherwise Dykstra's algorithm runs; a non-positive tau raises
    ValueError *)
Theorem C38_intersection_arity : forall (E : IPS) amax niter tol par (x : E) tau,
  gi_prox amax [] niter tol par x tau = Err ValueError /\
  (forall p, 0 < tau -> gi_prox amax [p] niter tol par x tau = p x) /\
  (forall p q, 0 < tau -> gi_prox amax [p; q] niter tol par x tau = if par then cyclic_dykstra amax x [p; q] niter tol else dykstra_two amax x p q niter tol) /\
  (forall p q r l, 0 < tau -> gi_prox amax (p :: q :: r :: l) niter tol par x tau = cyclic_dykstra amax x (p :: q :: r :: l) niter tol) /\
  (forall projs, tau <= 0 -> gi_prox amax projs niter tol par x tau = Err ValueError).
Proof. exact C38_intersection_arity_l. Qed.
Print Assumptions C38_intersection_arity.

(** Sum of one operator returns exactly that operator's prox, of two runs the two-operator loop
    unless use_parallel, of more the parallel loop; weights given with no operator raise
    ValueError *)
Theorem C38_sum_arity : forall (E : IPS) amax niter tol par orig,
  (forall w, sum_init (E:=E) [] (ListWeights w) niter tol par orig = Err ValueError /\ sum_init (E:=E) [] (ArrayWeights w) niter tol par orig = Err ValueError) /\
  (forall (a : Op E) weights, exists o, sum_init [a] weights niter tol par orig = Ok o /\ forall x tau, 0 < tau -> sum_prox amax o x tau = (o, o_prox a x tau)) /\
  (forall (a b : Op E) weights, exists o, sum_init [a; b] weights niter tol false orig = Ok o /\ forall x tau, 0 < tau ->
     sum_prox amax o x tau = (o, dykstra_two amax x (fun v => o_prox a v tau) (fun v => o_prox b v tau) niter tol)) /\
  (forall (os : list (Op E)) weights o x tau, sum_init os weights niter tol par orig = Ok o -> tau <= 0 -> sum_prox amax o x tau = (o, Err ValueError)).
Proof. exact C38_sum_arity_l. Qed.
Print Assumptions C38_sum_arity.

(** Sum([]) without weights does not raise the documented ValueError but ZeroDivisionError,
    whatever the other arguments *)
Theorem C38_empty_sum_refuted : forall (E : IPS) niter tol par orig, sum_init (E:=E) [] NoWeights niter tol par orig = Err ZeroDivisionError.
Proof. exact C38_empty_sum_refuted_l. Qed.
Print Assumptions C38_empty_sum_refuted.

(** calling a Sum of operators whose calls give either the indicator of a set (as a Boolean) or
    a number: False exactly when the point is outside some set, otherwise the sum of all the
    values when at least one is a number, and True when none is *)
Theorem C38_sum_call : forall (E : IPS) (os : list (Op E)) f x, (forall i o, nth_error os i = Some o -> call_of o (f i)) -> let F := esum (length os) f in
  (~ edom F x -> sum_call os x = Ok (VBool false)) /\
  (edom F x -> (exists o, In o os /\ num_op o x) -> sum_call os x = Ok (VNum (eval F x))) /\
  (edom F x -> ~ (exists o, In o os /\ num_op o x) -> sum_call os x = Ok (VBool true)).
Proof. exact C38_sum_call_l. Qed.
Print Assumptions C38_sum_call.

(** the half-lines x <= 1, 0 <= x and x <= 2: the hypotheses of the cyclic theorems hold, and
    from the input 3 two sweeps return 1 *)
Example C35_example : let projs := [(fun v => Ok (line_max 1 v)); (fun v => Ok (line_min 0 v)); (fun v => Ok (line_max 2 v))] in
  (forall i p, nth_error projs i = Some p -> proj_impl p (three_lines i)) /\ (forall i, convex_set (three_lines i)) /\ (exists z, forall i, three_lines i z) /\
  gi_prox (E:=R_IPS) Rabs projs 100 (1/10) false (3 : R_IPS) 1 = Ok 1.
Proof. exact C35_example_l. Qed.

(** the indicator of {1} and the identity function: at 1 the sum is the number 1, at 0 it is
    False *)
Example C38_example : let f := fun i : nat => match i with O => indic (E:=R_IPS) (fun x : R => x = 1) | _ => etot (E:=R_IPS) (fun x : R => x) end in
  (forall i o, nth_error [ex_ind; ex_num] i = Some o -> call_of o (f i)) /\ sum_call [ex_ind; ex_num] (1 : R_IPS) = Ok (VNum 1) /\ sum_call [ex_ind; ex_num] (0 : R_IPS) = Ok (VBool false).
Proof. exact C38_example_l. Qed.
