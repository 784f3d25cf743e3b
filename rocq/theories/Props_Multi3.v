(** Property theorems for Multi3: statements only; every proof is [exact] a lemma of P_Multi3.v.
    Generated from the tagged lemmas of that file. *)
From Coq Require Import Psatz String.
From Verif Require Import Base Space Spec VSum ConvexFacts Smooth M_ProxOp SpecOps P_ProxOp M_Norms P_Norms M_Loop LoopFacts LoopFacts2 SeqFacts M_PG M_Multi M_Float SplitMath P_PG2 P_PG3 P_Split2 P_Split3 P_Multi P_Multi2.
From Verif Require Import S_Multi3.
From Verif Require Import P_Multi3.
Open Scope result_scope.
Open Scope R_scope.


(** smooth convex f_i (total Lipschitz constant at most L), m >= 1 convex g_j, positive eps_j
    (one for all, or one each), weights summing to one (over the reals) or default, tau > 0
    (None meaning 1), known acceleration. The run never raises and follows the documented
    recursion; x is the weighted mean of the z_j at every iteration; an iteration with y = x
    that leaves every z_j unchanged is at a minimiser of sum f_i + sum eps_j g_j; without
    acceleration y = x always, and for every solution with multipliers D_k = sum_j w_j |z_j
    - zo_j|^2 decreases by at least eta (2 - eta - tau L/2) sum_j w_j |p_j - x|^2, bounding
    |x_k - xo|^2 *)
Theorem C55_gpg : forall (E : IPS) (fs gs : list (Op E)) f df L Lt (g : nat -> efun E) x0 tau epsg weights eta niter accel,
  let m := List.length gs in let nf := List.length fs in
  let w := nthr (ppxa_weights weights m) in let eps := nthr (gpg_eps epsg m) in let t := match tau with None => 1 | Some t => t end in
  let F := fun x => RS nf (fun i => f i x) in let dF := fun x => VS nf (fun i => df i x) in
  smooth_all fs f df L -> RS nf L <= Lt -> 0 < Lt -> impl_all gs g -> (forall i, (i < m)%nat -> convex (g i)) -> (0 < m)%nat -> 0 < t -> 0 < eta ->
  good_weights weights m -> List.length (gpg_eps epsg m) = m -> (forall i, (i < m)%nat -> 0 < eps i) -> accel_known accel = true ->
  exists xs ys zs ps, GeneralizedProximalGradient fs gs x0 tau epsg weights eta niter accel = Ok (xs niter, map xs (seq 1 niter)) /\
    xs 0%nat = x0 /\ ys 0%nat = x0 /\ (forall i, (i < m)%nat -> zs 0%nat i = x0) /\
    gpg_doc m g dF w eps t eta (omega_seq accel) xs ys zs ps niter /\
    (forall j, (j <= niter)%nat -> xs j = VS m (fun i => w i [*] zs j i)) /\
    (forall j, (j < niter)%nat -> ys j = xs j -> (forall i, (i < m)%nat -> zs (S j) i = zs j i) ->
       is_min (eadd (etot F) (esum m (fun i => escal (eps i) (g i)))) (xs j)) /\
    (accel = None -> (forall j, (j <= niter)%nat -> ys j = xs j) /\
       forall xo v, gpg_kkt m g dF eps xo v ->
         let D := fun j => RS m (fun i => w i * norm2 (zs j i [-] (xo [-] t [*] dF xo [-] (t * eps i / w i) [*] v i))) in
         (forall j, (j <= niter)%nat -> norm2 (xs j [-] xo) <= D j) /\
         (forall j, (j < niter)%nat -> D (S j) + eta * (2 - eta - t * Lt / 2) * RS m (fun i => w i * norm2 (ps j i [-] xs j)) <= D j)).
Proof. exact C55_gpg_l. Qed.
Print Assumptions C55_gpg.

(** in binary64 the default weights 1/n are accepted for n = 1..5 but rejected with a ValueError
    for n = 6 and n = 7, because their floating-point sum is not 1 *)
Theorem C55_default_weights_refuted :
  (forall n, (1 <= n <= 5)%nat -> gpg_default_accepted n = true) /\ gpg_default_accepted 6 = false /\ gpg_default_accepted 7 = false.
Proof. exact C55_default_weights_refuted_l. Qed.
Print Assumptions C55_default_weights_refuted.

(** weights of the wrong length, or not summing to one, always raise ValueError *)
Theorem C55_weights_rejected : forall (E : IPS) (fs gs : list (Op E)) x0 tau epsg w eta niter accel,
  List.length w <> List.length gs \/ Rsum w <> 1 ->
  GeneralizedProximalGradient fs gs x0 tau epsg (Some w) eta niter accel = Err ValueError.
Proof. exact C55_weights_rejected_l. Qed.
Print Assumptions C55_weights_rejected.

(** the documentation says eta is only used without acceleration; with acceleration "fista" the
    result still depends on eta (f = x^2/2, g = 0, x0 = 1, tau = 1/2, one iteration: result
    1 - eta/2) *)
Theorem C55_eta_ignored_refuted : forall eta,
  GeneralizedProximalGradient [quad1 1] [zero1] (1 : R_IPS) (Some (1/2)) [1] None eta 1 (Some "fista"%string) = Ok (1 - eta / 2, [1 - eta / 2]).
Proof. exact C55_eta_ignored_refuted_l. Qed.
Print Assumptions C55_eta_ignored_refuted.

(** f = x^2/2, g_1 = (x-1)^2/2, g_2 = x^2/2 with weights (1/4, 3/4), eps = 1 meet the hypotheses
    of C55_gpg; the solution is 1/3 *)
Example C55_example : let gs := [shifted1; quad1 1] in let m := List.length gs in
  smooth_all [quad1 1] (fun _ (x : R_IPS) => 1 / 2 * (x * x)) (fun _ (x : R_IPS) => 1 * x) (fun _ => 1) /\ RS 1 (fun _ => 1) <= 1 /\
  impl_all gs (sh_quad 1) /\ (forall i, (i < m)%nat -> convex (sh_quad 1 i)) /\ good_weights (Some [1/4; 3/4]) m /\
  List.length (gpg_eps [1] m) = m /\ (forall i, (i < m)%nat -> 0 < nthr (gpg_eps [1] m) i) /\
  gpg_kkt m (sh_quad 1) (fun x : R_IPS => VS 1 (fun _ => (1 * x : R_IPS))) (nthr (gpg_eps [1] m)) (1/3 : R_IPS) (fun i => match i with O => -(2/3) | _ => 1/3 end).
Proof. exact C55_example_l. Qed.
