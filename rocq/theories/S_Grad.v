(** * Specification vocabulary used by the statements proved in P_Grad.v *)
From Verif Require Import Base Space Spec M_ProxOp SpecOps M_L2 M_Expr S_Expr.
Open Scope R_scope.

(** the Moreau envelope with parameter 1: e(x) = inf over y of f(y) + |y - x|^2 / 2 *)
Definition envelope {E : IPS} (f : efun E) (x : E) : R := - rsup (fun r => exists y, edom f y /\ r = - (eval f y + / 2 * norm2 (y [-] x))).

(** the flag hasgrad a user expects from the leaves: L2, Quadratic and Euclidean (or any other object that says so) *)
Fixpoint flagged {E : IPS} (e : expr E) : bool :=
  match e with
  | XL2 _ _ _ _ _ _ _ _ | XQuadratic _ _ _ _ _ _ _ _ _ | XEuclidean _ _ => true
  | XOther E o f => o_hasgrad o
  | XAdd E e v => flagged e
  | XSub E e v => flagged e
  | XMul E s e => flagged e
  | XPre E e a b => flagged e
  | XH E e => flagged e
  | _ => false
  end.
(** no adjoint .H inside, outside of Orthogonal *)
Fixpoint no_adjoint {E : IPS} (e : expr E) : Prop :=
  match e with
  | XAdd E e v => no_adjoint e
  | XSub E e v => no_adjoint e
  | XMul E s e => no_adjoint e
  | XPre E e a b => no_adjoint e
  | XH E e => False
  | _ => True
  end.
(** the function whose gradient an expression returns: as [denote], but every object without a gradient of its own, every adjoint and every
    Orthogonal is replaced by its Moreau envelope *)
Fixpoint smoothed {E : IPS} (e : expr E) : E -> R :=
  match e in expr E return E -> R with
  | XL2 E F ext cfg sigma x0 st0 ch => eval (denote (XL2 E F ext cfg sigma x0 st0 ch))
  | XQuadratic E div lsqr A b c ex w ch => eval (denote (XQuadratic E div lsqr A b c ex w ch))
  | XEuclidean E sigma => eval (denote (XEuclidean E sigma))
  | XOther E o f => if o_hasgrad o then eval f else envelope f
  | XAdd E e v => fun x => smoothed e x + << v, x >>
  | XSub E e v => fun x => smoothed e x - << v, x >>
  | XMul E s e => fun x => s * smoothed e x
  | XPre E e a b => fun x => smoothed e (a [*] x [+] b)
  | XL1 n w g c0 ch => envelope (denote (XL1 n w g c0 ch))
  | XHuberCircular E alpha => envelope (denote (XHuberCircular E alpha))
  | XL21 m k sigma => envelope (denote (XL21 m k sigma))
  | XBall E c r => envelope (denote (XBall E c r))
  | XBox n lu => envelope (denote (XBox n lu))
  | XHalfSpace E w b => envelope (denote (XHalfSpace E w b))
  | XAffine E F close cg A b => envelope (denote (XAffine E F close cg A b))
  | XH E e => envelope (denote (XH E e))
  | XOrthogonal E F e Q partial b alpha => envelope (denote (XOrthogonal E F e Q partial b alpha))
  end.
(** an object that inherits grad: (x - prox(x, 1)) / 1 *)
Definition inherits_grad {E : IPS} (o : Op E) : Prop := forall x p, o_prox o x 1 = Ok p -> o_grad o x = Ok (Some (x [-] p)).
(** the points where the leaf of an expression with a gradient of its own is differentiable: everywhere for L2 (without q, or with its
    gradient switched on) and Quadratic with bounded operators, away from 0 for Euclidean; everywhere for the objects that inherit grad *)
Fixpoint regular {E : IPS} (e : expr E) : E -> Prop :=
  match e in expr E return E -> Prop with
  | XL2 E F ext cfg sigma x0 st0 ch => fun _ => exists L, 0 < L /\ smooth (XL2 E F ext cfg sigma x0 st0 ch) L
  | XQuadratic E div lsqr A b c ex w ch => fun _ => exists L, 0 < L /\ smooth (XQuadratic E div lsqr A b c ex w ch) L
  | XEuclidean E sigma => fun x => x <> vzero
  | XOther E o f => fun x => if o_hasgrad o then exists g, o_grad o x = Ok (Some g) /\ is_grad (eval f) x g else inherits_grad o
  | XAdd E e v => fun x => regular e x
  | XSub E e v => fun x => regular e x
  | XMul E s e => fun x => regular e x
  | XPre E e a b => fun x => regular e (a [*] x [+] b)
  | _ => fun _ => True
  end.
(** the Lipschitz constants of the returned gradients: 1 for every Moreau envelope, the rest as for smooth expressions *)
Fixpoint lip {E : IPS} (e : expr E) : R -> Prop :=
  match e in expr E return R -> Prop with
  | XL2 E F ext cfg sigma x0 st0 ch => smooth (XL2 E F ext cfg sigma x0 st0 ch)
  | XQuadratic E div lsqr A b c ex w ch => smooth (XQuadratic E div lsqr A b c ex w ch)
  | XEuclidean E sigma => fun _ => False
  | XOther E o f => if o_hasgrad o then smooth (XOther E o f) else fun L => 1 <= L /\ inherits_grad o
  | XAdd E e v => fun L => lip e L
  | XSub E e v => fun L => lip e L
  | XMul E s e => fun L => exists K, L = s * K /\ lip e K
  | XPre E e a b => fun L => exists K, L = a ^ 2 * K /\ lip e K
  | _ => fun L => 1 <= L
  end.
