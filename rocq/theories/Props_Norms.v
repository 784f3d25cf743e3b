(** Property theorems for Norms: statements only; every proof is [exact] a lemma of P_Norms.v.
    Generated from the tagged lemmas of that file. *)
From Verif Require Import Base Space Spec ConvexFacts M_ProxOp SpecOps P_ProxOp M_Norms.
From Coq Require Import Psatz.
From Verif Require Import S_Norms.
From Verif Require Import P_Norms.
Open Scope result_scope.


(** for sigma > 0, Euclidean(sigma) evaluates sigma*|x| and its prox is the exact proximal map,
    for every x and tau > 0, in every inner product space *)
Theorem C12_euclidean_prox : forall (E : IPS) (fuel : nat) (sigma : R), 0 < sigma ->
  let f := obj (S fuel) (euclid_body (E:=E) sigma) in
  impl_prox f (etot (fun x => sigma * norm x)) /\ impl_call f (etot (fun x => sigma * norm x)).
Proof. exact euclidean_prox. Qed.
Print Assumptions C12_euclidean_prox.

(** proxdual is the exact prox (projection onto the ball of radius sigma) of the conjugate of
    sigma|.|; conj and projection are both stated *)
Theorem C12_euclidean_dual : forall (E : IPS) (fuel : nat) (sigma : R), 0 < sigma ->
  is_conj (etot (fun x : E => sigma * norm x)) (indic (fun z => norm z <= sigma)) /\
  impl_proxdual (obj (S fuel) (euclid_body (E:=E) sigma)) (indic (fun z => norm z <= sigma)) /\
  forall x tau, 0 < tau -> exists p,
    o_proxdual (obj (S fuel) (euclid_body (E:=E) sigma)) x tau = Ok p /\
    is_proj (fun z => norm z <= sigma) x p.
Proof. exact euclidean_dual. Qed.
Print Assumptions C12_euclidean_dual.

(** away from 0, grad is the gradient of sigma|.|; at 0 no number comes out *)
Theorem C12_euclidean_grad : forall (E : IPS) (fuel : nat) (sigma : R) (x : E), 0 < sigma ->
  (x <> vzero -> exists g, o_grad (obj (S fuel) (euclid_body sigma)) x = Ok (Some g) /\
                 is_grad (fun x => sigma * norm x) x g) /\
  (x = vzero -> o_grad (obj (S fuel) (euclid_body sigma)) x = Err ZeroDivisionError).
Proof. exact euclidean_grad. Qed.
Print Assumptions C12_euclidean_grad.

(** the value of a chain is the second operator applied to the number the first one returns:
    chaining Euclidean(sf) and Euclidean(sg) gives sf sg |x|, not the sum of the two values *)
Theorem C08_chain_value_refuted : forall (E : IPS) (fuel : nat) (sf sg : R) (x : E), 0 <= sf ->
  let f := obj fuel (euclid_body sf) in let g := obj fuel (euclid_body sg) in
  o_call (chain fuel f g (euclid_num sg)) x = Ok (VNum (sf * sg * norm x)) /\
  (sf = 1 -> sg = 1 -> x <> vzero -> exists a b c, o_call f x = Ok (VNum a) /\ o_call g x = Ok (VNum b) /\
     o_call (chain fuel f g (euclid_num sg)) x = Ok (VNum c) /\ c <> a + b).
Proof. exact chain_value_refuted. Qed.
Print Assumptions C08_chain_value_refuted.

(** Euclidean(0) is not total: prox of the zero vector divides 0 by 0 for every tau > 0 although
    the exact prox exists (it is 0) *)
Theorem C12_sigma_zero_refuted : forall (E : IPS) (fuel : nat) (tau : R), 0 < tau ->
  o_prox (obj (S fuel) (euclid_body (E:=E) 0)) vzero tau = Err ZeroDivisionError /\
  is_prox (etot (fun x : E => 0 * norm x)) tau vzero vzero.
Proof. exact euclid_sigma_zero. Qed.
Print Assumptions C12_sigma_zero_refuted.

(** EuclideanBall(c, r) with r > 0: prox is the projection on the ball for every x and tau > 0;
    the result is a member according to the operator's own call *)
Theorem C12_ball_projection : forall (E : IPS) (fuel : nat) (c : E) (r : R), 0 < r ->
  let f := obj (S fuel) (ball_body c r) in
  impl_prox f (indic (fun x => norm (x [-] c) <= r)) /\
  forall x tau, 0 < tau -> exists p, o_prox f x tau = Ok p /\
    is_proj (fun x => norm (x [-] c) <= r) x p /\ o_call f p = Ok (VBool true).
Proof. exact ball_projection. Qed.
Print Assumptions C12_ball_projection.

(** with radius 0 the ball is the single point c, yet projecting c itself raises; every other
    point is projected correctly *)
Theorem C12_radius_zero_refuted : forall (E : IPS) (fuel : nat) (c : E) (tau : R), 0 < tau ->
  o_prox (obj (S fuel) (ball_body c 0)) c tau = Err ZeroDivisionError /\
  is_proj (fun x => norm (x [-] c) <= 0) c c /\
  forall x, x <> c -> exists p, o_prox (obj (S fuel) (ball_body c 0)) x tau = Ok p /\
    is_proj (fun x => norm (x [-] c) <= 0) x p.
Proof. exact ball_radius_zero. Qed.
Print Assumptions C12_radius_zero_refuted.

(** HalfSpace(w,b).prox is the Euclidean projection on {w.x <= b} for every w <> 0, x, tau > 0;
    the result satisfies the operator's own call and a second application changes nothing *)
Theorem C16_halfspace_projection : forall (E : IPS) (fuel : nat) (w : E) (b : R), w <> vzero ->
  let f := obj (S fuel) (halfspace_body w b) in
  impl_prox f (indic (fun x => << w, x >> <= b)) /\
  forall x tau, 0 < tau -> exists p, o_prox f x tau = Ok p /\
    is_proj (fun x => << w, x >> <= b) x p /\
    o_call f p = Ok (VBool true) /\ o_prox f p tau = Ok p.
Proof. exact halfspace_projection. Qed.
Print Assumptions C16_halfspace_projection.

(** for w = 0 the operator is still right when b >= 0 (everything is feasible) and produces no
    number when b < 0 (the set is empty) *)
Theorem C16_degenerate : forall (E : IPS) (fuel : nat) (b : R) (x : E) tau, 0 < tau ->
  (0 <= b -> o_prox (obj (S fuel) (halfspace_body vzero b)) x tau = Ok x) /\
  (b < 0 -> o_prox (obj (S fuel) (halfspace_body vzero b)) x tau = Err ZeroDivisionError).
Proof. exact halfspace_degenerate. Qed.
Print Assumptions C16_degenerate.

(** AffineSet(Op,b).prox is the Euclidean projection on {Op x = b} whenever the inner conjugate
    gradient solved the normal equations for this input, and the result passes the
    operator's own test *)
Theorem C17_affine_projection : forall (E F : IPS) (fuel : nat) close cg (A : linop E F) (b : F) (x : E) tau,
  0 < tau ->
  A (ladj A (cg (fun v => A (ladj A v)) (A x [-] b))) = A x [-] b ->
  (forall y, close y y = true) ->
  let f := obj (S fuel) (affine_body close cg A b) in
  exists p, o_prox f x tau = Ok p /\ is_proj (fun y => A y = b) x p /\
            is_prox (indic (fun y => A y = b)) tau x p /\ o_call f p = Ok (VBool true).
Proof. exact affine_projection. Qed.
Print Assumptions C17_affine_projection.

(** with any inner solver, exact or not, the feasibility error Op p - b of the result is minus
    the residual that the inner solver left, and the displacement x - p is in the range of
    Op^T (so p is the exact projection on the affine set it does satisfy) *)
Theorem C17_affine_inexact : forall (E F : IPS) cg (A : linop E F) (b : F) (x : E),
  let p := affine_proj cg A b x in
  let xinv := cg (fun v => A (ladj A v)) (A x [-] b) in
  A p [-] b = (A x [-] b) [-] A (ladj A xinv) /\
  is_proj (fun y => A y = A p) x p.
Proof. exact affine_inexact. Qed.
Print Assumptions C17_affine_inexact.

(** A = first coordinate of R x R, b = 3, with the identity as (exact) inner solver *)
Example C17_example :
  exists (A : linop (Prod_IPS R_IPS R_IPS) R_IPS) (cg : (R_IPS -> R_IPS) -> R_IPS -> R_IPS),
    forall x : Prod_IPS R_IPS R_IPS,
      A x = fst x /\
      A (ladj A (cg (fun v => A (ladj A v)) (A x [-] (3 : R_IPS)))) = A x [-] (3 : R_IPS).
Proof. exact C17_example_l. Qed.

(** HuberCircular(alpha), alpha > 0: call is the norm-based Huber function and prox its exact
    proximal map *)
Theorem C20_hubercircular_prox : forall (E : IPS) (fuel : nat) (alpha : R), 0 < alpha ->
  let h := etot (fun x : E => if Rle_dec (norm x) alpha then norm2 x / (2 * alpha)
                              else norm x - alpha / 2) in
  impl_prox (obj (S fuel) (hubercirc_body alpha)) h /\
  impl_call (obj (S fuel) (hubercirc_body alpha)) h.
Proof. exact hubercircular_prox. Qed.
Print Assumptions C20_hubercircular_prox.

(** for Op symmetric positive semidefinite (or absent), every b, c and every warm-start state,
    whenever the inner linear solve is exact the result of prox minimises x'Op x/2 + b'x + c
    + |y-x|^2/(2 tau), the function that call evaluates *)
Theorem C18_quadratic_prox : forall (E : IPS) div lsqr (Op : option (linop E E)) ob c expl warm x0 x tau,
  0 < tau ->
  (forall A, Op = Some A -> sym_psd A) ->
  (forall M y, M = (fun v => v [+] tau [*] match Op with Some A => A v | None => vzero end) ->
     M (div M y) = y /\ forall w, M (lsqr M y w) = y) ->
  let q := quad_init Op ob c expl warm in
  exists x0' p, quad_prox div lsqr q x0 x tau = (x0', Ok p) /\
    is_prox (etot (quad_call q)) tau x p.
Proof. exact quadratic_prox. Qed.
Print Assumptions C18_quadratic_prox.

(** for a bounded symmetric Op (any matrix is bounded), grad is the gradient of call *)
Theorem C18_quadratic_grad : forall (E : IPS) (Op : option (linop E E)) ob c expl warm (C : R),
  (forall A, Op = Some A -> (forall x y, << A x, y >> = << x, A y >>) /\
     forall v, << v, A v >> <= C * norm2 v /\ - C * norm2 v <= << v, A v >>) ->
  let q := quad_init Op ob c expl warm in
  forall x, is_grad (quad_call q) x (quad_grad q x).
Proof. exact quadratic_grad. Qed.
Print Assumptions C18_quadratic_grad.

(** for a non-symmetric Op (rotation by 90 degrees, whose quadratic form is identically 0) the
    value is constant, yet grad is not 0 and prox moves the point although its inner solve
    is exact *)
Theorem C18_nonsymmetric_refuted :
  exists (A : linop (Prod_IPS R_IPS R_IPS) (Prod_IPS R_IPS R_IPS)) x p
         (div : (Prod_IPS R_IPS R_IPS -> Prod_IPS R_IPS R_IPS) -> Prod_IPS R_IPS R_IPS -> Prod_IPS R_IPS R_IPS),
    let q := quad_init (Some A) None 0 true false in
    (forall v, quad_call q v = 0) /\
    ~ is_grad (quad_call q) x (quad_grad q x) /\
    quad_prox div (fun _ y _ => y) q None x 1 = (None, Ok p) /\
    p [+] 1 [*] A p = x [-] 1 [*] vzero /\ ~ is_prox (etot (quad_call q)) 1 x p.
Proof. exact quadratic_nonsymmetric. Qed.
Print Assumptions C18_nonsymmetric_refuted.

(** Op = 3*identity on any space is symmetric psd and bounded by 3, and dividing by (1 + 3 tau)
    is an exact inner solver *)
Example C18_example : forall (E : IPS) tau, 0 < tau ->
  sym_psd (scal_linop E 3) /\
  (forall v, << v, scal_linop E 3 v >> <= 3 * norm2 v /\ - 3 * norm2 v <= << v, scal_linop E 3 v >>) /\
  forall y : E, let p := / (1 + 3 * tau) [*] y in p [+] tau [*] scal_linop E 3 p = y.
Proof. exact C18_example_l. Qed.

(** partial=True and Q Q^T = alpha I (alpha > 0): prox is the exact prox of x -> f(Qx+b), for
    every f (convex or not) with an exact prox, every b *)
Theorem C21_orthogonal_partial_mode : forall (E F : IPS) (fuel : nat) (f : Op F) (h : efun F)
    (Q : linop E F) (b : F) (alpha : R),
  0 < alpha -> (forall y, Q (ladj Q y) = alpha [*] y) -> impl_prox f h ->
  let g := obj (S fuel) (orth_body f Q true b alpha) in
  impl_prox g (epre h (fun x => Q x [+] b)) /\
  (impl_call f h -> impl_call g (epre h (fun x => Q x [+] b))).
Proof. exact orthogonal_partial_mode. Qed.
Print Assumptions C21_orthogonal_partial_mode.

(** partial=False and Q Q^T = Q^T Q = I: exact prox of x -> f(Qx+b), whatever alpha is *)
Theorem C21_orthogonal_full_mode : forall (E F : IPS) (fuel : nat) (f : Op F) (h : efun F)
    (Q : linop E F) (b : F) (alpha : R),
  (forall y, Q (ladj Q y) = y) -> (forall x, ladj Q (Q x) = x) -> impl_prox f h ->
  impl_prox (obj (S fuel) (orth_body f Q false b alpha)) (epre h (fun x => Q x [+] b)).
Proof. exact orthogonal_full_mode. Qed.
Print Assumptions C21_orthogonal_full_mode.

(** Q = 2*identity satisfies Q Q^T = 4 I, and -identity is fully orthogonal *)
Example C21_example : forall (E : IPS),
  (forall y, scal_linop E 2 (ladj (scal_linop E 2) y) = 4 [*] y) /\
  (forall y, scal_linop E (-1) (ladj (scal_linop E (-1)) y) = y) /\
  (forall y, ladj (scal_linop E (-1)) (scal_linop E (-1) y) = y).
Proof. exact C21_example_l. Qed.

(** on the real line: prox of 2|.| at 5 with step 1 is 3; the ball of radius 1 around 0 sends 4
    to 1 *)
Example C12_example :
  o_prox (obj 1 (euclid_body (E:=R_IPS) 2)) (5 : R_IPS) 1 = Ok (3 : R_IPS) /\
  o_prox (obj 1 (ball_body (0 : R_IPS) 1)) (4 : R_IPS) 1 = Ok (1 : R_IPS).
Proof. exact C12_example_l. Qed.

(** the half line {2 x <= 4} sends 7 to 2 *)
Example C16_example :
  (2 : R_IPS) <> vzero /\ o_prox (obj 1 (halfspace_body (2 : R_IPS) 4)) (7 : R_IPS) 1 = Ok (2 : R_IPS).
Proof. exact C16_example_l. Qed.

(** HuberCircular(1) at 3 with step 1 gives 2 *)
Example C20_example :
  o_prox (obj 1 (hubercirc_body (E:=R_IPS) 1)) (3 : R_IPS) 1 = Ok (2 : R_IPS).
Proof. exact C20_example_l. Qed.
