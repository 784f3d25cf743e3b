(** Property theorems for PD: statements only; every proof is [exact] a lemma of P_PD.v.
    Generated from the tagged lemmas of that file. *)
From Coq Require Import Psatz.
From Verif Require Import Base Space Spec VSum ConvexFacts Smooth M_ProxOp SpecOps P_ProxOp M_Norms P_Norms M_Loop LoopFacts LoopFacts2 SeqFacts M_PG M_PD SplitMath P_PG2 P_PG3 P_Split2 P_Split3.
From Verif Require Import S_PD.
From Verif Require Import P_PD.
Open Scope result_scope.
Open Scope R_scope.


(** proxf implements prox of f, proxg's proxdual the prox of the conjugate gs; scalar or array
    steps that are positive and long enough; any theta, z, y0 and update order; rmatvec
    returns a fresh array (or z is None). PrimalDual never raises, follows the documented
    recursion of the chosen order, calls back once per iteration; an iteration that leaves x
    and y unchanged (with the extrapolated point equal to x) is at a saddle point, and then
    x minimises f + <z,.> + g(A .) *)
Theorem C57_recursion : forall (E F : IPS) (A : linop E F) proxf proxg f g gs alias x0 tau mu y0 z theta n gfirst,
  impl_prox proxf f -> impl_proxdual proxg gs -> convex f -> convex g -> is_conj g gs -> (forall u, exists p, is_prox g 1 u p) ->
  steps_ok tau n -> steps_ok mu n -> alias = None \/ z = None ->
  exists xs hs ys, PrimalDual proxf proxg A alias x0 tau mu y0 z theta n gfirst = Ok (xs n, ys n, map (fun j => (xs j, ys j)) (seq 1 n)) /\
    xs 0%nat = x0 /\ hs 0%nat = x0 /\ ys 0%nat = y0vec y0 /\ pd_doc A f gs (zvec z) (step_at tau) (step_at mu) theta gfirst xs hs ys n /\
    forall j, (j < n)%nat -> xs (S j) = xs j -> ys (S j) = ys j -> hs j = xs j ->
      saddle A f gs (zvec z) (xs j) (ys j) /\ is_min (eadd (elin f (zvec z)) (epre g (lapp A))) (xs j).
Proof. exact C57_recursion_l. Qed.
Print Assumptions C57_recursion.

(** theta = 1, constant steps with tau mu |A a|^2 <= |a|^2, either order. With the potential of
    that order (g first: distance^2/(2 step) plus cross terms; f first: the natural metric),
    at every iteration and against every (u, v): potential' + (L(x',v) - L(u,y')) <=
    potential, and the potential is never negative (it bounds |x-u|^2/(2tau) when g is
    first). Hence the iterates are Fejer monotone towards every saddle point, and the
    averages of the first N iterates have primal-dual gap at most (initial potential)/N *)
Theorem C57_certificates : forall (E F : IPS) (A : linop E F) proxf proxg f gs alias x0 tau mu y0 z n gfirst,
  impl_prox proxf f -> impl_proxdual proxg gs -> convex f -> convex gs -> 0 < tau -> 0 < mu -> alias = None \/ z = None ->
  (forall a, tau * mu * norm2 (lapp A a) <= norm2 a) ->
  let L := lagr A f gs (zvec z) in
  exists xs ys, PrimalDual proxf proxg A alias x0 (Scalar tau) (Scalar mu) y0 z 1 n gfirst = Ok (xs n, ys n, map (fun j => (xs j, ys j)) (seq 1 n)) /\
    xs 0%nat = x0 /\ ys 0%nat = y0vec y0 /\
    let P := pd_potential A tau mu gfirst xs ys in
    (forall j u v, (j <= n)%nat -> 0 <= P j u v /\ (gfirst = true -> / (2 * tau) * norm2 (xs j [-] u) <= P j u v)) /\
    (forall j u v, (j < n)%nat -> edom f u -> edom gs v -> P (S j) u v + (L (xs (S j)) v - L u (ys (S j))) <= P j u v) /\
    (forall j xo yo, (j < n)%nat -> saddle A f gs (zvec z) xo yo -> P (S j) xo yo <= P j xo yo) /\
    (forall N u v, (1 <= N <= n)%nat -> edom f u -> edom gs v ->
       L (avg N (fun j => xs (S j))) v - L u (avg N (fun j => ys (S j))) <= P 0%nat u v / INR N).
Proof. exact C57_certificates_l. Qed.
Print Assumptions C57_certificates.
