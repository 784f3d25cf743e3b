(** Property theorems for Expr: statements only; every proof is [exact] a lemma of P_Expr.v.
    Generated from the tagged lemmas of that file. *)
From Coq Require Import String Classical Psatz.
From Verif Require Import Base Space Spec ConvexFacts Smooth VSum Sep M_ProxOp SpecOps P_ProxOp M_Norms P_Norms M_L1 P_L1 P_L21 M_L2 P_L2 P_Sets P_Dyk2 M_Objs P_Conv2 P_Lasso M_Expr.
From Verif Require Import S_Expr.
From Verif Require Import P_Expr.
Open Scope result_scope.
Open Scope R_scope.


(** every admissible operator expression builds an object whose prox is the exact proximal
    operator of the function the expression stands for and whose proxdual is the exact
    proximal operator of its convex conjugate, for every x and tau > 0, however deeply + v,
    - v, s *, precomposition, .H and Orthogonal are nested; the function is convex *)
Theorem C82_prox : forall fuel (E : IPS) (e : expr E), admissible e ->
  exists o, build fuel e = Ok o /\ convex (denote e) /\ impl_prox o (denote e) /\ is_conj (denote e) (conj (denote e)) /\ impl_proxdual o (conj (denote e)).
Proof. exact C82_prox_l. Qed.
Print Assumptions C82_prox.

(** the value of an admissible expression without indicators and without .H is the value of its
    function wherever that is finite; the value of an expression built from Box,
    EuclideanBall and HalfSpace by precomposition and Orthogonal is the test whether the
    point is in the set *)
Theorem C82_value : forall fuel (E : IPS) (e : expr E), admissible e -> exists o, build fuel e = Ok o /\
  (numeric e -> impl_call o (denote e)) /\
  (membership e -> forall x, exists b, o_call o x = Ok (VBool b) /\ (b = true <-> edom (denote e) x)).
Proof. exact C82_value_l. Qed.
Print Assumptions C82_value.

(** the gradient returned by an admissible expression built from L2, Quadratic (or any operator
    with an exact gradient) with + v, - v, s * and precomposition is the gradient of its
    function, Lipschitz with the constant obtained from those of the parts: unchanged by +-
    v, times s for s *, times a^2 for precomposition(a, b) *)
Theorem C82_gradient : forall fuel (E : IPS) (e : expr E) L, 0 < L -> admissible e -> smooth e L -> exists o dh, build fuel e = Ok o /\
  (forall x, edom (denote e) x) /\ L_smooth (eval (denote e)) dh L /\ (forall x, o_grad o x = Ok (Some (dh x))).
Proof. exact C82_gradient_l. Qed.
Print Assumptions C82_gradient.
