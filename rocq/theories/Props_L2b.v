(** Property theorems for L2b: statements only; every proof is [exact] a lemma of P_L2b.v.
    Generated from the tagged lemmas of that file. *)
From Verif Require Import Base Space Spec SpecOps ConvexFacts M_ProxOp M_L2 P_L2.
From Verif Require Import S_L2b.
From Verif Require Import P_L2b.


(** L2 with an operator solved iteratively, every sequence of prox calls, rejected ones
    included: call number j (from 1) raises ValueError when its step is not positive and
    otherwise returns what the solver returns for the documented system, iteration budget
    niter(j) and, as starting point, the last accepted result when warm=True (x0 before
    there is one) and always x0 when warm=False *)
Theorem C13_l2_start : forall (E F : IPS) (ext : L2Ext E F) cfg A b sigma x0 (calls : list (E * R)), l2_d cfg = WithOp A false b ->
  let solve (k : nat) (s : option E) (x : E) (tau : R) :=
    match l2_solv cfg with
    | Cgls => x_reginv ext (comp_linop (scal_linop F (sqrt (tau * sigma))) A) (sqrt (tau * sigma) [*] b) (sub_q cfg tau x) (l2_niter cfg k) s
    | _ => x_iter ext (fun v => v [+] (tau * sigma) [*] ladj A (A v)) (sub_q cfg tau (x [+] tau [*] (sigma [*] ladj A b))) (l2_niter cfg k) s
    end in
  let rs := l2_session ext cfg (l2_init ext cfg sigma x0) (calls_of calls) in
  length rs = length calls /\
  forall j x tau, nth_error calls j = Some (x, tau) ->
    nth_error rs j = Some (if Rleb tau 0 then Err ValueError else Ok (solve (S j) (if l2_warm cfg then last_ok x0 (firstn j rs) else x0) x tau)).
Proof. exact C13_l2_start_l. Qed.
Print Assumptions C13_l2_start.

(** an object with an operator on the real line solved iteratively, with the solver that returns
    its starting point (so that the theorem shows the start): with warm=True and x0 absent,
    three calls with steps 1, -1, 1 return zero, ValueError and zero plus one *)
Example C13_l2_start_example :
  let ext := mkL2Ext (E:=R_IPS) (F:=R_IPS) (fun _ y => y) R (fun _ => 0) (fun _ y => y) (fun _ _ _ (s : option R) => match s with Some p => p + 1 | None => 0 end) (fun _ _ y _ _ => y) in
  let cfg := mkL2 (E:=R_IPS) (F:=R_IPS) (WithOp (scal_linop R_IPS 2) false (1 : R_IPS)) None 1 true (fun _ => 10%nat) true Legacy DenseDefault in
  l2_d cfg = WithOp (scal_linop R_IPS 2) false (1 : R_IPS) /\ l2_session ext cfg (l2_init ext cfg 1 None) (calls_of (E:=R_IPS) [(3, 1); (3, -1); (4, 1)]) = [Ok 0; Err ValueError; Ok (0 + 1)].
Proof. exact C13_l2_start_example_l. Qed.
