(** Property theorems for AndShow: statements only; every proof is [exact] a lemma of P_AndShow.v.
    Generated from the tagged lemmas of that file. *)
From Coq Require Import Psatz String.
From Verif Require Import Base Space Spec ConvexFacts Smooth VSum MatFacts M_ProxOp SpecOps M_Loop LoopFacts LoopFacts2 Trace SeqFacts M_PG P_PG P_PG2 P_PG3 M_Anderson P_Anderson P_Anderson2 P_Anderson3 M_AndShow.
From Verif Require Import P_AndShow.
Open Scope result_scope.
Open Scope R_scope.


(** with safeguard=True and a tolerance (any number, also 0), or with show=True and fewer than
    20 iterations, the safeguard is what [1] describes: in every iteration the new iterate
    either decreases f by at least tau/2 |grad f|^2 or is the plain proximal gradient step
    from the previous iterate; f, g, history length and pseudo-inverse are arbitrary *)
Theorem C56_safeguard : forall (E : IPS) show pinv (proxf proxg : Op E) f df g x0 epsg tau niter nhistory epsr tol x tr,
  impl_call proxf (etot f) -> (forall x, o_grad proxf x = Ok (Some (df x))) -> impl_prox proxg g -> 0 < tau -> (forall e, In e epsg -> 0 < e) ->
  (tol <> None \/ (show = true /\ (niter < 20)%nat)) ->
  AndersonShow show pinv proxf proxg x0 epsg tau niter nhistory epsr true tol = Ok (x, tr) ->
  exists xs k, x = xs k /\ tr = map xs (seq 1 k) /\ (k <= niter)%nat /\
    (exists e, (epsg = [e] \/ nth_error epsg 0 = Some e) /\ is_prox g (e * tau) (x0 [-] tau [*] df x0) (xs 0%nat)) /\
    forall j, (j < k)%nat -> exists e, (epsg = [e] \/ nth_error epsg j = Some e) /\
      (f (xs (S j)) <= f (xs j) - tau * norm2 (df (xs j)) / 2 \/ is_prox g (e * tau) (xs j [-] tau [*] df (xs j)) (xs (S j))).
Proof. exact C56_safeguard_l. Qed.
Print Assumptions C56_safeguard.

(** show=True does not change the result, the callbacks or an exception when a tolerance is
    given, or when safeguard=False and f and g can be evaluated; arbitrary operators and
    arguments *)
Theorem C56_show : forall (E : IPS) show pinv (proxf proxg : Op E) x0 epsg tau niter nhistory epsr safeguard tol,
  (tol <> None \/ (safeguard = false /\ (forall x, exists v, get_val proxf x = Ok v) /\ (forall x, exists v, get_val proxg x = Ok v))) ->
  AndersonShow show pinv proxf proxg x0 epsg tau niter nhistory epsr safeguard tol = AndersonProximalGradient pinv proxf proxg x0 epsg tau niter nhistory epsr safeguard tol.
Proof. exact C56_show_l. Qed.
Print Assumptions C56_show.

(** with safeguard=True and no tolerance, asking for the log changes the result: on the problem
    of C56_safeguard_refuted (two iterations) the call returns -199/10 with show=False and
    -2.7525 with show=True *)
Theorem C56_show_refuted : forall pinv epsr, pinv_ok 2 pinv -> 0 < epsr ->
  (exists x1, AndersonShow false pinv (op1 sg_f sg_df) zero1 (1 / 10 : R_IPS) [1] (1 / 2) 2 2 epsr true None = Ok (- 199 / 10, [x1; - 199 / 10])) /\
  AndersonShow true pinv (op1 sg_f sg_df) zero1 (1 / 10 : R_IPS) [1] (1 / 2) 2 2 epsr true None = Ok (- 27525 / 10000, [- 185 / 100; - 27525 / 10000]).
Proof. exact C56_show_refuted_l. Qed.
Print Assumptions C56_show_refuted.
