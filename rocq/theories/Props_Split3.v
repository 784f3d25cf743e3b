(** Property theorems for Split3: statements only; every proof is [exact] a lemma of P_Split3.v.
    Generated from the tagged lemmas of that file. *)
From Coq Require Import Psatz String.
From Verif Require Import Base Space Spec ConvexFacts Smooth M_ProxOp SpecOps P_ProxOp M_Norms P_Norms M_Loop LoopFacts Trace SeqFacts M_PG M_Split SplitMath P_PG P_PG2 P_PG3 P_Split P_Split2.
From Verif Require Import S_Split3.
From Verif Require Import P_Split3.
Open Scope result_scope.
Open Scope R_scope.



(** LinearizedADMM with z0 not given, f, g convex, tau, mu > 0, mu |A|^2 <= tau: the run never
    raises and follows the documented recursion from z_0 = A x0, u_0 = 0; x_k in dom f, z_k
    in dom g; an iteration that changes nothing has A x = z and x minimises f + g(A .); for
    every solution xo with multiplier v, V_k = (tau/mu)|x_k-xo|^2 - |A(x_k-xo)|^2 + |z_k-A
    xo|^2 + |u_k-tau v|^2 is non-negative and never increases, and from the second iteration
    on it decreases by at least |z_(k+1)-z_k|^2 + |A x_(k+1)-z_(k+1)|^2 *)
Theorem C51_linearized_admm : forall (E F : IPS) (proxf : Op E) (proxg : Op F) f g (A : linop E F) tau mu x0 n,
  impl_prox proxf f -> impl_prox proxg g -> convex f -> convex g -> 0 < tau -> 0 < mu ->
  (forall e, mu * norm2 (lapp A e) <= tau * norm2 e) ->
  exists xs zs us, LinearizedADMM proxf proxg A (Some x0) tau mu n None = Ok (xs n, zs n, map xs (seq 1 n)) /\
    xs 0%nat = x0 /\ zs 0%nat = lapp A x0 /\ us 0%nat = vzero /\ la_doc A f g tau mu xs zs us 0 n /\
    (forall j, (0 < j <= n)%nat -> edom f (xs j) /\ edom g (zs j)) /\
    (forall j, (j < n)%nat -> xs (S j) = xs j -> zs (S j) = zs j -> us (S j) = us j ->
       lapp A (xs j) = zs j /\ is_min (eadd f (epre g (lapp A))) (xs j)) /\
    forall xo v, kktA f g A xo v ->
      let V := fun j => la_metric A tau mu (xs j [-] xo) + norm2 (zs j [-] lapp A xo) + norm2 (us j [-] tau [*] v) in
      (forall j, 0 <= V j) /\ (forall j, (j < n)%nat -> V (S j) <= V j) /\
      (forall j, (1 <= j < n)%nat -> V (S j) + norm2 (zs (S j) [-] zs j) + norm2 (lapp A (xs (S j)) [-] zs (S j)) <= V j).
Proof. exact C51_linearized_admm_l. Qed.
Print Assumptions C51_linearized_admm.

(** the same with z0 given, from the second iteration on (the first one uses z0 in place of A
    x0, see C46_linearized_z0_refuted) *)
Theorem C51_linearized_admm_z0 : forall (E F : IPS) (proxf : Op E) (proxg : Op F) f g (A : linop E F) tau mu x0 z0 n,
  impl_prox proxf f -> impl_prox proxg g -> convex f -> convex g -> 0 < tau -> 0 < mu ->
  (forall e, mu * norm2 (lapp A e) <= tau * norm2 e) ->
  exists xs zs us, LinearizedADMM proxf proxg A (Some x0) tau mu n (Some z0) = Ok (xs n, zs n, map xs (seq 1 n)) /\
    xs 0%nat = x0 /\ la_doc A f g tau mu xs zs us 1 n /\
    (forall j, (1 <= j < n)%nat -> xs (S j) = xs j -> zs (S j) = zs j -> us (S j) = us j ->
       lapp A (xs j) = zs j /\ is_min (eadd f (epre g (lapp A))) (xs j)) /\
    forall xo v, kktA f g A xo v ->
      let V := fun j => la_metric A tau mu (xs j [-] xo) + norm2 (zs j [-] lapp A xo) + norm2 (us j [-] tau [*] v) in
      (forall j, 0 <= V j) /\ (forall j, (1 <= j < n)%nat -> V (S j) <= V j).
Proof. exact C51_linearized_admm_z0_l. Qed.
Print Assumptions C51_linearized_admm_z0.

(** with both guesses given, LinearizedADMM's first x-update does not use A x0 - z0 (it behaves
    as if A x0 = z0): f = 0, g = 0, A = I, tau = mu = 1, x0 = 1, z0 = 0, one iteration: the
    documented update moves x to 0, the code leaves x = 1 *)
Theorem C46_linearized_z0_refuted :
  impl_prox zero1 (etot (E:=R_IPS) (fun _ => 0)) /\
  LinearizedADMM zero1 zero1 (id_linop R_IPS) (Some 1) 1 1 1 (Some 0) = Ok (1, 1, [1]) /\
  is_prox (etot (E:=R_IPS) (fun _ => 0)) 1 ((1 : R_IPS) [-] (1 / 1) [*] ladj (id_linop R_IPS) (lapp (id_linop R_IPS) 1 [-] (0 : R_IPS) [+] vzero)) (0 : R_IPS).
Proof. exact C46_linearized_z0_refuted_l. Qed.
Print Assumptions C46_linearized_z0_refuted.

(** ADMML2 (gfirst=False, either guess) with exact inner solves, g convex, tau > 0: the run
    never raises and follows the documented recursion; an iteration that changes neither z
    nor u has A x = z and x minimises 1/2|B x - b|^2 + g(A x); for every solution xo with
    multiplier v, V_k = |z_k - A xo|^2 + |u_k - tau v|^2 never increases and from the second
    iteration on decreases by at least |z_(k+1)-z_k|^2 + |A x_(k+1) - z_(k+1)|^2 *)
Theorem C51_admml2 : forall (E F G : IPS) (B : linop E G) b (A : linop E F) proxg reginv g tau x0 z0 x z n,
  impl_prox proxg g -> convex g -> exact_reginv B b A reginv -> 0 < tau -> x0z0_initA (lapp A) x0 z0 = Ok (x, z) ->
  exists xs zs us, ADMML2 proxg A reginv x0 tau n z0 false = Ok (xs n, zs n, map xs (seq 1 n)) /\
    xs 0%nat = x /\ zs 0%nat = z /\ us 0%nat = vzero /\ al2_doc B b A g tau xs zs us n /\
    (forall j, (j < n)%nat -> zs (S j) = zs j -> us (S j) = us j ->
       lapp A (xs (S j)) = zs (S j) /\ is_min (eadd (etot (lsq B b)) (epre g (lapp A))) (xs (S j))) /\
    forall xo v, kktA (etot (lsq B b)) g A xo v ->
      let V := fun j => norm2 (zs j [-] lapp A xo) + norm2 (us j [-] tau [*] v) in
      (forall j, (j < n)%nat -> V (S j) <= V j) /\
      (forall j, (1 <= j < n)%nat -> V (S j) + norm2 (zs (S j) [-] zs j) + norm2 (lapp A (xs (S j)) [-] zs (S j)) <= V j).
Proof. exact C51_admml2_l. Qed.
Print Assumptions C51_admml2.

(** with gfirst=True the dual update uses the A x of the previous x, and the scheme need not
    converge even with exact inner solves: B = 0, b = 0, A = identity, g = indicator of 0,
    tau = 1, x0 = 1: after 6k iterations it returns x = 1 again, although the problem's only
    solution is 0 *)
Theorem C51_admml2_gfirst_refuted :
  let g := indic (E:=R_IPS) (fun x => x = 0) in let B := scal_linop R_IPS 0 in let reginv := fun (_ d : R_IPS) (_ : R) => Ok d in
  impl_prox point0 g /\ convex g /\ exact_reginv B 0 (id_linop R_IPS) reginv /\
  (forall k, exists z tr, ADMML2 point0 (id_linop R_IPS) reginv (Some (1 : R_IPS)) 1 (6 * k) None true = Ok (1, z, tr)) /\
  (forall x, is_min (eadd (etot (lsq B 0)) (epre g (lapp (id_linop R_IPS)))) x <-> x = 0).
Proof. exact C51_admml2_gfirst_refuted_l. Qed.
Print Assumptions C51_admml2_gfirst_refuted.

(** f = (x-1)^2/2, g = x^2/2, A = identity, tau = mu = 1 meet the hypotheses (solution 1/2,
    multiplier 1/2); and exact inner solves exist for B = A = identity *)
Example C51_example :
  let f := etot (E:=R_IPS) (fun x : R_IPS => 1 / 2 * ((x - 1) * (x - 1))) in let g := etot (E:=R_IPS) (fun x : R_IPS => 1 / 2 * (x * x)) in
  impl_prox shifted1 f /\ impl_prox (quad1 1) g /\ convex f /\ convex g /\ kktA f g (id_linop R_IPS) (1/2 : R_IPS) (1/2) /\
  (forall e : R_IPS, 1 * norm2 (lapp (id_linop R_IPS) e) <= 1 * norm2 e) /\
  exact_reginv (id_linop R_IPS) 1 (id_linop R_IPS) (fun _ d e => Ok ((1 + e * e * d) / (1 + e * e))) /\
  kktA (etot (lsq (id_linop R_IPS) 1)) g (id_linop R_IPS) (1/2 : R_IPS) (1/2).
Proof. exact C51_example_l. Qed.

(** TwIST with both parameters given, any alpha, beta, niter: the run never raises, x_1 = prox_g
    of the unit gradient step at x0, x_(k+1) = (1-alpha) x_(k-1) + (alpha-beta) x_k + beta
    prox_g(x_k + A^T(b - A x_k)); it returns x_(niter+1) and the callbacks receive x_2, x_3,
    ... *)
Theorem C52_recursion : forall (E F : IPS) (A : linop E F) (b : F) (proxg : Op E) g x0 alpha beta eigs sm lm n,
  impl_prox proxg g ->
  exists xs ps, TwIST proxg A b x0 (Some alpha) (Some beta) eigs sm lm n = Ok (xs (S n), map xs (seq 2 n)) /\
    xs 0%nat = x0 /\ xs 1%nat = ps 0%nat /\
    (forall j, (j <= n)%nat -> is_prox g 1 (xs j [+] ladj A (b [-] lapp A (xs j))) (ps j)) /\
    (forall j, (j < n)%nat -> xs (S (S j)) = (1 - alpha) [*] xs j [+] (alpha - beta) [*] xs (S j) [+] beta [*] ps (S j)).
Proof. exact C52_recursion_l. Qed.
Print Assumptions C52_recursion.

(** with alpha = beta = 1, TwIST with niter iterations is ProximalGradient (unit step, no
    acceleration) with niter+1 iterations, for every proxg (exceptions included); its
    callbacks miss the first iterate *)
Theorem C52_ist : forall (E F : IPS) (A : linop E F) (b : F) (proxf proxg : Op E) x0 eigs sm lm beta nb n,
  (forall x, o_grad proxf x = Ok (Some (ladj A (lapp A x [-] b)))) ->
  TwIST proxg A b x0 (Some 1) (Some 1) eigs sm lm n =
  (r <- ProximalGradient proxf proxg x0 [1] (Some 1) false beta 1 (S n) nb None None ;; Ok (fst r, tl (snd r))).
Proof. exact C52_ist_l. Qed.
Print Assumptions C52_ist.

(** g convex, beta <> 0: started at a minimiser of 1/2|Ax-b|^2 + g TwIST returns it and passes
    only it to the callbacks; conversely if three consecutive iterates x_j, x_(j+1), x_(j+2)
    (x_0 the start) agree they are a minimiser *)
Theorem C52_fixed_points : forall (E F : IPS) (A : linop E F) (b : F) (proxg : Op E) g x0 alpha beta eigs sm lm n,
  impl_prox proxg g -> convex g -> beta <> 0 ->
  let J := eadd (etot (fun x => 1 / 2 * norm2 (lapp A x [-] b))) g in
  let run := TwIST proxg A b x0 (Some alpha) (Some beta) eigs sm lm n in
  (is_min J x0 -> run = Ok (x0, repeat x0 n)) /\
  exists xs, run = Ok (xs (S n), map xs (seq 2 n)) /\ xs 0%nat = x0 /\
    forall j, (j < n)%nat -> xs (S j) = xs j -> xs (S (S j)) = xs j -> is_min J (xs j).
Proof. exact C52_fixed_points_l. Qed.
Print Assumptions C52_fixed_points.

(** when both alpha and beta are given they are used, whatever eigs is; when neither is given
    and eigs = None they are the documented alpha = 1 + rho^2, beta = 2 alpha / (Lmax +
    lmin), Lmax = max(1, lmax) *)
Theorem C52_parameters : forall alpha beta eigs sm lm,
  tw_params (Some alpha) (Some beta) eigs sm lm = Ok (alpha, beta) /\
  (0 <= sm -> let Lm := Rmax 1 lm in let rho := (1 - sqrt (sm / Lm)) / (1 + sqrt (sm / Lm)) in
     tw_params None None None sm lm = Ok (1 + rho * rho, 2 * (1 + rho * rho) / (Lm + sm))).
Proof. exact C52_parameters_l. Qed.
Print Assumptions C52_parameters.

(** giving only alpha (or only beta) does not work: both are recomputed, e.g. alpha = 1 with
    eigs = (1, 1/4) runs with alpha = 10/9; and user-supplied eigs are not floored at Lmax
    >= 1 as documented, e.g. (1/2, 1/8) *)
Theorem C52_partial_parameters_refuted : forall sm lm,
  tw_params (Some 1) None (Some (1, 1/4)) sm lm = Ok (10/9, 16/9) /\
  tw_params None (Some 1) (Some (1, 1/4)) sm lm = Ok (10/9, 16/9) /\
  tw_params None None (Some (1/2, 1/8)) sm lm = Ok (10/9, 2 * (10/9) / (1/2 + 1/8)).
Proof. exact C52_partial_parameters_refuted_l. Qed.
Print Assumptions C52_partial_parameters_refuted.
