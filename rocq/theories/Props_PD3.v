(** Property theorems for PD3: statements only; every proof is [exact] a lemma of P_PD3.v.
    Generated from the tagged lemmas of that file. *)
From Coq Require Import Psatz.
From Verif Require Import Base Space Spec VSum ConvexFacts Smooth M_ProxOp SpecOps P_ProxOp M_Norms P_Norms M_Loop LoopFacts LoopFacts2 SeqFacts M_PG M_PD SplitMath P_PG2 P_PG3 P_Split2 P_Split3 P_PD P_PD2.
From Verif Require Import S_PD3.
From Verif Require Import P_PD3.
Open Scope result_scope.
Open Scope R_scope.


(** 0 < alpha < 1, 0 < eta <= 1, positive tau, mu, delta; rmatvec fresh and A^T z well-shaped
    (or z None). The run never raises and follows the documented iteration and step
    adaptation. For the whole run: tau mu is constant, tau, mu > 0, 0 < alpha < 1 non-
    increasing; after k executed iterations each history has k+1 entries and they are
    exactly the values used; the loop continues only while both residuals exceed tol, and
    stops at niter or when at least one is <= tol *)
Theorem C58_invariants : forall (E F : IPS) (A : linop E F) proxf proxg f gs alias x0 tau mu alpha eta s delta z rz niter tol,
  impl_prox proxf f -> impl_proxdual proxg gs -> alias = None \/ z = None -> (forall v, z = Some v -> rz v <> None) ->
  0 < tau -> 0 < mu -> 0 < alpha < 1 -> 0 < eta <= 1 -> 0 < delta ->
  exists (st : nat -> @apd_state E F) k,
    AdaptivePrimalDual proxf proxg A alias x0 tau mu alpha eta s delta z rz niter tol =
      Ok (ap_x (st k), (map (fun j => ap_tau (st j)) (seq 0 (S k)), map (fun j => ap_mu (st j)) (seq 0 (S k)), map (fun j => ap_alpha (st j)) (seq 0 (S k))),
          map (fun j => ap_x (st j)) (seq 1 k)) /\
    ap_x (st 0%nat) = x0 /\ ap_tau (st 0%nat) = tau /\ ap_mu (st 0%nat) = mu /\ ap_alpha (st 0%nat) = alpha /\ ap_y (st 0%nat) = vzero /\
    (k <= niter)%nat /\
    (forall j, (j < k)%nat -> apd_step A f gs z rz eta s delta (st j) (st (S j))) /\
    (forall j, (j <= k)%nat -> 0 < ap_tau (st j) /\ 0 < ap_mu (st j) /\ ap_tau (st j) * ap_mu (st j) = tau * mu /\ 0 < ap_alpha (st j) < 1) /\
    (forall j, (j < k)%nat -> ap_alpha (st (S j)) <= ap_alpha (st j)) /\
    (forall j, (1 <= j < k)%nat -> tol < ap_p (st j) /\ tol < ap_d (st j)) /\
    (k = niter \/ (1 <= k)%nat /\ (ap_p (st k) <= tol \/ ap_d (st k) <= tol)).
Proof. exact C58_invariants_l. Qed.
Print Assumptions C58_invariants.

(** without z, an iteration that leaves x and y unchanged and starts from consistent Ax and A^T
    y has zero residuals (so the run stops there for any tol >= 0); conversely zero
    residuals of a step make the new (x, y) a saddle point *)
Theorem C58_residuals_vanish_no_z : forall (E F : IPS) (A : linop E F) f gs rz eta s delta (st st' : @apd_state E F),
  convex f -> convex gs -> 0 < ap_tau st -> 0 < ap_mu st -> apd_step A f gs None rz eta s delta st st' ->
  ap_Ax st = lapp A (ap_x st) -> ap_ATy st = ladj A (ap_y st) ->
  (ap_x st' = ap_x st -> ap_y st' = ap_y st -> ap_p st' = 0 /\ ap_d st' = 0) /\
  (ap_p st' = 0 -> ap_d st' = 0 -> saddle A f gs vzero (ap_x st') (ap_y st')).
Proof. exact C58_residuals_vanish_no_z_l. Qed.
Print Assumptions C58_residuals_vanish_no_z.

(** the loop stops as soon as one residual is small, at points that are not solutions: f =
    (x-1)^2/2, g = x^2/2, A = identity, x0 = 1/4, tau = 1/4, mu = 3, any 0 <= tol < 1/5:
    after one iteration the primal residual is 0, the dual residual 1/5 > tol, and 2/5 is
    returned for every niter >= 1 although the minimiser is 1/2 *)
Theorem C58_stops_early_refuted : forall n tol alpha eta s delta rz, 0 <= tol < 1/5 -> 0 < alpha < 1 -> 0 < eta <= 1 -> 0 < s -> 1 < delta ->
  let f := etot (E:=R_IPS) (fun x : R_IPS => 1 / 2 * ((x - 1) * (x - 1))) in
  impl_prox shifted1 f /\ impl_proxdual half1 half1_fun /\ is_conj half1_fun half1_fun /\ (forall a : R_IPS, 1/4 * 3 * norm2 (lapp (id_linop R_IPS) a) <= norm2 a) /\
  (exists h, AdaptivePrimalDual shifted1 half1 (id_linop R_IPS) None (1/4 : R_IPS) (1/4) 3 alpha eta s delta None rz (S n) tol = Ok (2/5, h, [2/5])) /\
  (forall x, is_min (eadd (elin f (vzero : R_IPS)) (epre half1_fun (lapp (id_linop R_IPS)))) x <-> x = 1/2).
Proof. exact C58_stops_early_refuted_l. Qed.
Print Assumptions C58_stops_early_refuted.

(** with z the residuals do not vanish at a solution: any iteration that leaves x and y
    unchanged (from consistent Ax, A^T y) has primal residual |z - A^T z|, e.g. |z| for A =
    2 I *)
Theorem C58_z_residual_refuted : forall (E F : IPS) (A : linop E F) f gs z w rz eta s delta (st st' : @apd_state E F),
  rz z = Some w -> apd_step A f gs (Some z) rz eta s delta st st' ->
  ap_ATy st = ladj A (ap_y st) -> ap_x st' = ap_x st -> ap_y st' = ap_y st -> ap_p st' = norm (z [-] w).
Proof. exact C58_z_residual_refuted_l. Qed.
Print Assumptions C58_z_residual_refuted.

(** with z and an operator that is not square the residual computation raises ValueError in the
    first iteration, although the documented problem is well-posed *)
Theorem C58_z_shape_refuted : forall (E F : IPS) (A : linop E F) proxf proxg f gs x0 tau mu alpha eta s delta z rz n tol,
  impl_prox proxf f -> impl_proxdual proxg gs -> 0 < tau -> 0 < mu -> rz z = None ->
  AdaptivePrimalDual proxf proxg A None x0 tau mu alpha eta s delta (Some z) rz (S n) tol = Err ValueError.
Proof. exact C58_z_shape_refuted_l. Qed.
Print Assumptions C58_z_shape_refuted.

(** the quadratic problem of C58_stops_early_refuted meets the hypotheses of C58_invariants, and
    its documented fixed point x = y = 1/2 is a saddle point at which an iteration keeps x
    and y *)
Example C58_example : let f := etot (E:=R_IPS) (fun x : R_IPS => 1 / 2 * ((x - 1) * (x - 1))) in
  impl_prox shifted1 f /\ impl_proxdual half1 half1_fun /\ convex f /\ convex half1_fun /\
  saddle (id_linop R_IPS) f half1_fun (vzero : R_IPS) (1/2 : R_IPS) (1/2 : R_IPS) /\
  is_prox f (1/4) ((1/2 : R_IPS) [-] (1/4) [*] ((1/2 : R_IPS) [+] vzero)) (1/2 : R_IPS) /\
  is_prox half1_fun 3 ((1/2 : R_IPS) [+] 3 [*] (2 [*] (1/2 : R_IPS) [-] (1/2 : R_IPS))) (1/2 : R_IPS).
Proof. exact C58_example_l. Qed.
