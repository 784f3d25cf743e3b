(** Property theorems for Grad: statements only; every proof is [exact] a lemma of P_Grad.v.
    Generated from the tagged lemmas of that file. *)
From Coq Require Import String Classical Psatz.
From Verif Require Import Base Space Spec ConvexFacts Smooth VSum Sep M_ProxOp SpecOps P_ProxOp M_Norms P_Norms M_L1 P_L1 P_L21 M_L2 P_L2 P_Sets M_Objs P_Lasso M_Expr P_Expr M_Loop M_PG S_PG2 P_PG2 S_Seq Fejer S_Iter P_Iter.
From Verif Require Import S_Grad.
From Verif Require Import P_Grad.
Open Scope result_scope.
Open Scope R_scope.


(** hasgrad of every operator expression is what its leaf says: True for L2, Quadratic and
    Euclidean, False for the other classes and for Orthogonal; + v, - v, s *, precomposition
    and .H pass it on *)
Theorem C95_flag : forall fuel (E : IPS) (e : expr E) o, build fuel e = Ok o -> o_hasgrad o = flagged e.
Proof. exact C95_flag_l. Qed.
Print Assumptions C95_flag.

(** grad(x) of every admissible operator expression returns the gradient at x of the expression
    in which each object without a gradient of its own (L1, Huber, L21, the projections,
    Orthogonal, every adjoint .H) is replaced by its Moreau envelope with parameter 1 and
    which then goes through the same + v, - v, s * and precomposition; wherever hasgrad is
    True and no .H is involved that is the gradient of the function itself *)
Theorem C95_gradient : forall fuel (E : IPS) (e : expr E) x, admissible e -> regular e x -> exists o g, build fuel e = Ok o /\
  o_grad o x = Ok (Some g) /\ is_grad (smoothed e) x g /\ (o_hasgrad o = true -> no_adjoint e -> is_grad (eval (denote e)) x g).
Proof. exact C95_gradient_l. Qed.
Print Assumptions C95_gradient.

(** ProximalGradient with an admissible operator expression in place of the smooth term,
    differentiable or not, and a convex g with exact prox, solves the problem for the
    smoothed expression (each non-differentiable object replaced by its Moreau envelope):
    with tau <= 1/L the value is within |x0 - z|^2 / (2 tau niter) of that of every z and
    never increases, and in finite dimension the iterates converge to a minimiser if there
    is one *)
Theorem C95_proximal_gradient : forall fuel (E : IPS) (e : expr E) L (proxg : Op E) g eps x0 tau beta niterback accel,
  0 < L -> admissible e -> lip e L -> impl_prox proxg g -> convex g -> 0 < eps -> 0 < tau <= / L -> accel = None \/ accel = Some "None"%string ->
  let F := eadd (etot (smoothed e)) (escal eps g) in
  exists o, build fuel e = Ok o /\
    (forall niter, (1 <= niter)%nat -> exists x tr, ProximalGradient o proxg x0 [eps] (Some tau) false beta 1 niter niterback accel None = Ok (x, tr) /\
      List.length tr = niter /\ edom F x /\ (forall z, edom F z -> eval F x - eval F z <= norm2 (x0 [-] z) / (2 * tau * INR niter)) /\
      (forall i a b, nth_error tr i = Some a -> nth_error tr (S i) = Some b -> eval F b <= eval F a)) /\
    (bw E -> (exists m, is_min F m) -> exists xs l, xs 0%nat = x0 /\
      (forall n, ProximalGradient o proxg x0 [eps] (Some tau) false beta 1 (S n) niterback accel None = Ok (xs (S n), map xs (seq 1 (S n)))) /\ is_min F l /\ vcv xs l).
Proof. exact C95_proximal_gradient_l. Qed.
Print Assumptions C95_proximal_gradient.

(** the documented meaning of grad (the gradient of the function, or else of its Moreau
    envelope) is lost under s * and under .H: 2 * EuclideanBall(0, 1) stands for the same
    function as the ball, but its grad at 2 is 2 instead of 1; Quadratic(I).H has hasgrad
    True, but its grad at 1 is 1/2, while the conjugate z^2/2 has derivative 1; and
    HuberCircular(1) is differentiable with derivative 1/2 at 1/2, but hasgrad is False and
    grad is 1/4 *)
Theorem C95_scaled_refuted : forall fuel, let ball := XBall R_IPS (0 : R) 1 in
  let div := fun (M : R -> R) y => y / M 1 in let quad := XQuadratic R_IPS div (fun M y _ => div M y) (Some (id_linop R_IPS)) None 0 true true (fun _ _ => None) in
  (admissible (XMul R_IPS 2 ball) /\ (forall x, edom (denote (XMul R_IPS 2 ball)) x <-> edom (denote ball) x) /\ (forall x, eval (denote (XMul R_IPS 2 ball)) x = eval (denote ball) x) /\
    is_grad (E:=R_IPS) (envelope (denote (XMul R_IPS 2 ball))) 2 1 /\ exists o, build fuel (XMul R_IPS 2 ball) = Ok o /\ o_grad o 2 = Ok (Some 2)) /\
  (admissible (XH R_IPS quad) /\ is_grad (E:=R_IPS) (eval (denote (XH R_IPS quad))) 1 1 /\ exists o, build fuel (XH R_IPS quad) = Ok o /\ o_hasgrad o = true /\ o_grad o 1 = Ok (Some (1 / 2))) /\
  (admissible (XHuberCircular R_IPS 1) /\ is_grad (E:=R_IPS) (eval (denote (XHuberCircular R_IPS 1))) (1 / 2) (1 / 2) /\
    exists o, build fuel (XHuberCircular R_IPS 1) = Ok o /\ o_hasgrad o = false /\ o_grad o (1 / 2) = Ok (Some (1 / 4))).
Proof. exact C95_scaled_refuted_l. Qed.
Print Assumptions C95_scaled_refuted.

(** 3 * ((EuclideanBall(1, 2) + 5).precomposition(2, 1)) is admissible and regular everywhere,
    12 is a Lipschitz constant of its grad, and the smoothed function at 2 is 81: half the
    squared distance of 2 * 2 + 1 to the ball [-1, 3], plus 5 * (2 * 2 + 1), times 3 *)
Example C95_example : let e := XMul R_IPS 3 (XPre R_IPS (XAdd R_IPS (XBall R_IPS (1 : R) 2) (5 : R)) 2 (1 : R)) in
  admissible e /\ (forall x, regular e x) /\ lip e 12 /\ smoothed e (2 : R) = 81.
Proof. exact C95_example_l. Qed.
