(** Property theorems for PGB: statements only; every proof is [exact] a lemma of P_PGB.v.
    Generated from the tagged lemmas of that file. *)
From Coq Require Import String Psatz.
From Verif Require Import Base Space Spec ConvexFacts Smooth M_ProxOp SpecOps P_ProxOp M_Loop LoopFacts Trace SeqFacts M_PG M_Norms P_Norms P_PG P_PG2 VSum MatFacts M_Bilin P_Bilin P_Bilin2 M_PGB.
From Verif Require Import S_PGB.
From Verif Require Import P_PGB.
Open Scope result_scope.
Open Scope R_scope.


(** ProximalGradient with backtracking, eta = 1 and no acceleration, for every f (convex or not,
    with any gradient routine), every g with a correct proximal operator, one epsg > 0, any
    first step, any beta > 0 and at least one trial per line search: it returns, and in
    every iteration either f + epsg g does not increase or all niterback trial steps of that
    line search failed their test *)
Theorem C41_backtracking_nonconvex : forall (E : IPS) (proxf proxg : Op E) f df g gv e x0 tau beta niter niterback accel tol,
  impl_call proxf (etot f) -> (forall x, o_grad proxf x = Ok (Some (df x))) -> impl_prox proxg g ->
  0 < e -> 0 < tau -> 0 < beta -> niterback <> 0%nat -> niter <> 0%nat -> no_accel accel -> edom g x0 ->
  (tol <> None -> forall x, edom g x -> get_val proxg x = Ok (gv x)) ->
  exists xs taus k, ProximalGradient proxf proxg x0 [e] (Some tau) true beta 1 niter niterback accel tol = Ok (xs k, map xs (seq 1 k)) /\
    xs 0%nat = x0 /\ taus 0%nat = tau /\ stops_at tol (fun j => f (xs j) + e * gv (xs j)) niter k /\
    forall j, (j < k)%nat -> edom g (xs (S j)) /\ 0 < taus (S j) /\
      (f (xs (S j)) + e * eval g (xs (S j)) <= f (xs j) + e * eval g (xs j) \/ search_failed f df g e beta niterback (taus j) (xs j)).
Proof. exact C41_backtracking_nonconvex_l. Qed.
Print Assumptions C41_backtracking_nonconvex.

(** LowRankFactorizedMatrix as f, any sizes, data and linear operator, stored factors equal to
    x0, any operator g and all other arguments, with eta = 1 and no acceleration, or with
    eta <> 1 and a fixed step: ProximalGradient with the stateful object returns (or raises)
    exactly what it does with the true value and the true gradient of 1/2 |d - Op(XY)|^2 in
    the concatenated factors *)
Theorem C72_recursion : forall H n k m p (d : Vec p) (A : linop (Vec (n * m)) (Vec p)) (x0 : Vec (n * k + k * m)),
  lr_holds H (vfst x0 : Vec (n * k)) (vsnd x0 : Vec (k * m)) d A ->
  exists dF, (forall v, is_grad (fit A d) v (dF v)) /\
    forall proxg epsg tau bt beta eta niter nb accel tol,
      (eta = 1 /\ no_accel accel) \/ (eta <> 1 /\ bt = false /\ tau <> None) ->
      drop (ProximalGradientB (lr_sop n k m) H proxg x0 epsg tau bt beta eta niter nb accel tol) =
      ProximalGradient (ideal (fit A d) dF) proxg x0 epsg tau bt beta eta niter nb accel tol.
Proof. exact C72_recursion_l. Qed.
Print Assumptions C72_recursion.

(** same object and start, backtracking, eta = 1, no acceleration, any g with a correct proximal
    operator and x0 in its domain, one epsg > 0, any first step and beta > 0, at least one
    trial: the run returns, and every iteration either does not increase 1/2 |d - Op(XY)|^2
    + epsg g or all its trial steps failed the test *)
Theorem C72_descent : forall H n k m p (d : Vec p) (A : linop (Vec (n * m)) (Vec p)) (x0 : Vec (n * k + k * m)),
  lr_holds H (vfst x0 : Vec (n * k)) (vsnd x0 : Vec (k * m)) d A ->
  exists dF, (forall v, is_grad (fit A d) v (dF v)) /\
    forall proxg g gv e tau beta niter nb accel tol, impl_prox proxg g -> 0 < e -> 0 < tau -> 0 < beta -> nb <> 0%nat -> niter <> 0%nat -> no_accel accel ->
    edom g x0 -> (tol <> None -> forall x, edom g x -> get_val proxg x = Ok (gv x)) ->
    exists xs taus kk st, ProximalGradientB (lr_sop n k m) H proxg x0 [e] (Some tau) true beta 1 niter nb accel tol = Ok (xs kk, map xs (seq 1 kk), st) /\
      xs 0%nat = x0 /\ taus 0%nat = tau /\ stops_at tol (fun j => fit A d (xs j) + e * gv (xs j)) niter kk /\
      forall j, (j < kk)%nat -> edom g (xs (S j)) /\
        (fit A d (xs (S j)) + e * eval g (xs (S j)) <= fit A d (xs j) + e * eval g (xs j) \/
         search_failed (fit A d) dF g e beta nb (taus j) (xs j)).
Proof. exact C72_descent_l. Qed.
Print Assumptions C72_descent.

(** with acceleration the run is not the documented one: it evaluates the gradient at the
    extrapolated point with the factors of the last iterate. For f = 1/2 (x y)^2, g = 0,
    start (1, 1) stored in the object, step 1/2 and three 'vandenberghe' iterations it
    returns x = y = 27/64 - 1/2 (27/64) (7/16)^2, whereas with the true gradient of f it
    returns 27/64 - 1/2 (27/64)^3 *)
Theorem C72_acceleration_refuted : forall (proxg : Op (Vec (1 * 1 + 1 * 1))) beta nb dF, (forall v s, o_prox proxg v s = Ok v) ->
  (forall v, is_grad (fit (n:=1) (k:=1) (m:=1) (id_linop (Vec 1)) (exist _ [0] eq_refl : Vec 1)) v (dF v)) ->
  let c := 27 / 64 - 1 / 2 * (27 / 64 * (7 / 16 * (7 / 16))) in let c' := 27 / 64 - 1 / 2 * (27 / 64 * (27 / 64 * (27 / 64))) in
  drop (ProximalGradientB (lr_sop 1 1 1) (lr11 1 1 0) proxg (vv 1 1) [1] (Some (1 / 2)) false beta 1 3 nb (Some "vandenberghe"%string) None) =
    Ok (vv c c, [vv (1 / 2) (1 / 2); vv (7 / 16) (7 / 16); vv c c]) /\
  ProximalGradient (ideal (fit (n:=1) (k:=1) (m:=1) (id_linop (Vec 1)) (exist _ [0] eq_refl : Vec 1)) dF) proxg (vv 1 1) [1] (Some (1 / 2)) false beta 1 3 nb (Some "vandenberghe"%string) None =
    Ok (vv c' c', [vv (1 / 2) (1 / 2); vv (7 / 16) (7 / 16); vv c' c']) /\ c <> c'.
Proof. exact C72_acceleration_refuted_l. Qed.
Print Assumptions C72_acceleration_refuted.

(** if the factors stored in the object are not the starting point, the first step uses a wrong
    gradient: for f = 1/2 (1 - x y)^2, g = 0, start (1, 1) - a global minimiser, where the
    true gradient vanishes - and stored factors (2, 2), one step of size 1/4 leads to (1/2,
    1/2), where f = 9/32 *)
Theorem C72_start_refuted : forall (proxg : Op (Vec (1 * 1 + 1 * 1))) beta nb, (forall v s, o_prox proxg v s = Ok v) ->
  let F := fit (n:=1) (k:=1) (m:=1) (id_linop (Vec 1)) (exist _ [1] eq_refl : Vec 1) in
  is_grad F (vv 1 1) (vv 0 0) /\ F (vv 1 1) = 0 /\
  drop (ProximalGradientB (lr_sop 1 1 1) (lr11 2 2 1) proxg (vv 1 1) [1] (Some (1 / 4)) false beta 1 1 nb (Some "vandenberghe"%string) None) =
    Ok (vv (1 / 2) (1 / 2), [vv (1 / 2) (1 / 2)]) /\ F (vv (1 / 2) (1 / 2)) = 9 / 32.
Proof. exact C72_start_refuted_l. Qed.
Print Assumptions C72_start_refuted.

(** the hypotheses hold for the one by one factorisation and for the 2 x 1 by 1 x 3 one with a
    linear operator; g = 0 has a correct proximal operator *)
Example C72_example : impl_prox zero_op (etot (fun _ => 0)) /\ (forall v s, o_prox zero_op v s = Ok v) /\
  lr_holds (lr11 1 1 0) (vfst (vv 1 1) : Vec (1 * 1)) (vsnd (vv 1 1) : Vec (1 * 1)) (exist _ [0] eq_refl : Vec 1) (id_linop (Vec 1)) /\
  lr_holds (ex_lr (Some ex_op)) (vfst (vcat v2 v3) : Vec (2 * 1)) (vsnd (vcat v2 v3) : Vec (1 * 3)) v6 (scal_linop (Vec (2 * 3)) 2).
Proof. exact C72_example_l. Qed.
