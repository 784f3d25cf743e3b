(** Property theorems for Cx6: statements only; every proof is [exact] a lemma of P_Cx6.v.
    Generated from the tagged lemmas of that file. *)
From Coq Require Import Psatz ZArith.
From Verif Require Import Base Space Spec SpecOps ConvexFacts Sep VSum MatFacts Cplx M_ProxOp M_Loop M_PG M_L1 M_Cx DFT P_Conv Smooth P_Cx P_ProxOp P_Cx2 P_Cx4.
From Verif Require Import S_Cx.
From Verif Require Import P_Cx6.
Open Scope result_scope.


(** f + v on complex arrays: prox and grad use the function f(x) + Re(v^H x) (they are exact for
    it by C05, which covers every inner product space), but call evaluates f(x) + Re(v^T x).
    The two agree for all x exactly when v is real, and at a point where f is differentiable
    the returned gradient f.grad(x) + v is the gradient of the evaluated function exactly
    when v is real *)
Theorem C80_sum : forall n (f : CArr n -> R) (v : CArr n),
  ((forall x, add_call f v x = f x + cre v x) <-> is_real v) /\
  (forall x, add_call f v x = f x + cre v x - 2 * RS n (fun i => snd (cg v i) * snd (cg x i))) /\
  (forall x g, is_grad f x g -> (is_grad (add_call f v) x (g [+] v) <-> is_real v)).
Proof. exact C80_sum_l. Qed.
Print Assumptions C80_sum.

(** L2 with a linear term q on complex arrays: call is the documented function with Re(q^H x)
    for all x exactly when q is real (alpha <> 0) *)
Theorem C80_l2_q : forall n sigma b alpha (q : CArr n), alpha <> 0 ->
  ((forall x, l2c_call sigma b alpha q x = sigma / 2 * norm2 (match b with Some b => x [-] b | None => x end) + alpha * cre q x) <-> is_real q).
Proof. exact C80_l2_q_l. Qed.
Print Assumptions C80_l2_q.

(** Quadratic on complex arrays evaluates x^T A x / 2, not x^H A x / 2: with A the identity and
    b = 0 the value is (|Re x|^2 - |Im x|^2)/2 + c, which equals the documented |x|^2/2 + c
    exactly for real x, and is unbounded below although prox and grad are those of |x|^2/2 +
    c *)
Theorem C80_quadratic_refuted : forall n c (x : CArr n),
  (quadc_call (fun y => y) vzero c x = norm2 x / 2 + c <-> is_real x) /\
  ((0 < n)%nat -> forall m, exists y : CArr n, quadc_call (fun y => y) vzero c y < m).
Proof. exact C80_quadratic_refuted_l. Qed.
Print Assumptions C80_quadratic_refuted.

(** ProximalGradient with backtracking on complex arrays: np.dot in the acceptance test does not
    conjugate, so too long steps are accepted. For f = 2 |x|^2 (gradient 4 x), g = 0, tau =
    1 and any purely imaginary start, no step is ever shortened and the iterates are (-3)^k
    x0: they grow without bound although 0 is the minimiser *)
Theorem C80_backtracking_refuted : forall n (f g : Op (CArr n)) epsg beta nback k (x0 : CArr n),
  (forall x, o_call f x = Ok (VNum (2 * norm2 x))) -> (forall x, o_grad f x = Ok (Some (4 [*] x))) -> (forall x t, o_prox g x t = Ok x) ->
  (0 < nback)%nat -> (forall i, (i < n)%nat -> fst (cg x0 i) = 0) ->
  pgc_bt f g epsg beta nback k x0 1 = Ok ((-3) ^ k [*] x0, 1).
Proof. exact C80_backtracking_refuted_l. Qed.
Print Assumptions C80_backtracking_refuted.

(** ProximalGradient with backtracking on complex arrays whose data are real: if f has real
    gradients and g real proxes at real arrays, a run from a real start is the run on real
    arrays, error for error (the theorems about real arrays apply to it) *)
Theorem C80_backtracking_real : forall n (f g : Op (CArr n)) e beta nback tau k (x0 : CArr n),
  (forall x, is_real x -> exists d, o_grad f x = Ok (Some d) /\ is_real d) ->
  (forall x t p, is_real x -> o_prox g x t = Ok p -> is_real p) -> is_real x0 -> (0 < k)%nat ->
  match pgc_bt f g e beta nback k x0 tau with
  | Ok (x, _) => exists tr, ProximalGradient f g x0 [e] (Some tau) true beta 1 k nback None None = Ok (x, tr)
  | Err er => ProximalGradient f g x0 [e] (Some tau) true beta 1 k nback None None = Err er
  end.
Proof. exact C80_backtracking_real_l. Qed.
Print Assumptions C80_backtracking_real.

(** satisfiable with a run that shortens its step: f = 2 |x|^2 and g = 0 from the real array [1
    + 0j], tau = 1, beta = 1/4 *)
Example C80_backtracking_real_example :
  let f : Op (CArr 1) := mkOp (fun x => Ok (VNum (2 * norm2 x))) (fun x _ => Ok x) (fun x _ => Ok x) (fun x => Ok (Some (4 [*] x))) true in
  let g : Op (CArr 1) := mkOp (fun _ => Ok (VNum 0)) (fun x _ => Ok x) (fun x _ => Ok x) (fun _ => Ok None) false in
  let x0 : CArr 1 := cvec 1 (fun _ => (1, 0)) in
  (forall x, is_real x -> exists d, o_grad f x = Ok (Some d) /\ is_real d) /\ (forall x t p, is_real x -> o_prox g x t = Ok p -> is_real p) /\ is_real x0 /\
  pgc_bt f g 1 (1 / 4) 10 1 x0 1 = Ok (vzero, 1 / 4).
Proof. exact C80_backtracking_real_example_l. Qed.

(** Box on complex entries: an entry whose real part lies strictly between the bounds is
    accepted and returned whatever its imaginary part; an entry to the left of the lower
    bound with positive imaginary part is sent to the real number lower, although a point
    accepted by call is strictly nearer *)
Theorem C80_box_refuted : forall lo hi : R, lo < hi ->
  (forall z : C, lo < fst z < hi -> boxc_call lo hi z = true /\ boxc_pr lo hi z = z) /\
  (forall z : C, fst z < lo -> 0 < snd z -> boxc_pr lo hi z = cr lo /\
     exists y, boxc_call lo hi y = true /\ cmod (csub y z) < cmod (csub (boxc_pr lo hi z) z)).
Proof. exact C80_box_refuted_l. Qed.
Print Assumptions C80_box_refuted.

(** HalfSpace on complex arrays: for a real normal vector w <> 0, a point with Re(w.x) > b and
    Im(w.x) <> 0 is sent to the projection on {w.x = b} (two real equations), which is not
    the projection on {Re(w.x) <= b}, and a point accepted by call is strictly nearer. For
    the complex normal vector (1, i) the scaling w.w is 0 and every point that is not
    accepted produces a division by zero *)
Theorem C80_halfspace_refuted :
  (forall n (w x : CArr n) b, is_real w -> w <> vzero -> b < fst (cdot w x) -> snd (cdot w x) <> 0 ->
     exists p, halfspacec_prox w b x = Ok p /\ is_proj (fun y : CArr n => cdot w y = cr b) x p /\
       ~ is_proj (fun y : CArr n => cre w y <= b) x p /\
       exists y, halfspacec_call w b y = true /\ norm (y [-] x) < norm (p [-] x)) /\
  (forall b (x : CArr 2), let w : CArr 2 := cvec 2 (fun i => if Nat.eqb i 0 then (1, 0) else (0, 1)) in
     halfspacec_call w b x = false -> halfspacec_prox w b x = Err ZeroDivisionError).
Proof. exact C80_halfspace_refuted_l. Qed.
Print Assumptions C80_halfspace_refuted.

(** Nuclear on a complex matrix with one column: call equals sigma times the norm, the only
    singular value, exactly when the column is real (sigma > 0); prox is modelled on real
    matrices only, C32 *)
Theorem C80_nuclear_call : forall m sigma (x : CArr m), 0 < sigma -> (nucc_call sigma x = sigma * norm x <-> is_real x).
Proof. exact C80_nuclear_call_l. Qed.
Print Assumptions C80_nuclear_call.
