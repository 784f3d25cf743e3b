(** * Operator expressions: what a user writes with the classes and operators of the library *)
From Verif Require Import Base Space Spec M_ProxOp M_Norms M_L1 M_L2 M_Objs.
Open Scope result_scope.

(** proximal/Quadratic.py:73-139 as a class body: __call__ (94-101), prox (104-117) and grad (119-139) are overridden,
    proxdual is inherited, hasgrad is True (86).  [ch x tau]: the warm start stored when prox(x, tau) happens to be called. *)
Definition quad_body {E : IPS} (div : (E -> E) -> E -> E) (lsqr : (E -> E) -> E -> option E -> E) (q : QuadCfg E) (ch : E -> R -> option E) : Body E :=
  mkBody (Some (fun x => Ok (VNum (quad_call q x))))
         (Some (fun x tau => snd (quad_prox div lsqr q (ch x tau) x tau)))
         None
         (Some (fun x => Ok (Some (quad_grad q x))))
         true 1.

(** An expression of the user's program: objects of the classes (with their constructor arguments; for L1, L2 and
    Quadratic also the states in which their methods happen to be called), any other operator object, and the operators
    [f + v], [f - v], [s * f], [f.precomposition(a, b)], [f.H] (ProxOperator.py:186-316) and Orthogonal(f, Q, partial, b, alpha)
    (proximal/Orthogonal.py:63-76). *)
Inductive expr : IPS -> Type :=
| XL1 : forall n, nlist R n -> option (Vec n) -> nat -> (Vec n -> R -> nat) -> expr (Vec n)
| XL2 : forall (E F : IPS) (ext : L2Ext E F), L2Cfg E F -> R -> option E -> L2St ext -> (E -> R -> L2St ext) -> expr E
| XQuadratic : forall E : IPS, ((E -> E) -> E -> E) -> ((E -> E) -> E -> option E -> E) -> option (linop E E) -> option E -> R -> bool -> bool -> (E -> R -> option E) -> expr E
| XEuclidean : forall E : IPS, R -> expr E
| XHuberCircular : forall E : IPS, R -> expr E
| XL21 : forall m k, R -> expr (Pow (Vec m) k)
| XBall : forall E : IPS, E -> R -> expr E
| XBox : forall n, nlist bounds n -> expr (Vec n)
| XHalfSpace : forall E : IPS, E -> R -> expr E
| XAffine : forall E F : IPS, (F -> F -> bool) -> ((F -> F) -> F -> F) -> linop E F -> F -> expr E
| XOther : forall E : IPS, Op E -> efun E -> expr E
| XAdd : forall E : IPS, expr E -> E -> expr E
| XSub : forall E : IPS, expr E -> E -> expr E
| XMul : forall E : IPS, R -> expr E -> expr E
| XPre : forall E : IPS, expr E -> R -> E -> expr E
| XH : forall E : IPS, expr E -> expr E
| XOrthogonal : forall E F : IPS, expr F -> linop E F -> bool -> F -> R -> expr E.

(** Evaluating the expression: the object python builds, or the exception it raises.  The recursion limit is any number
    of at least two nested calls.  [vzero] stands for the all-ones array of precomposition, unused with an array b. *)
Fixpoint build (fuel : nat) {E : IPS} (e : expr E) : result (Op E) :=
  let lim := S (S fuel) in
  match e in expr E return result (Op E) with
  | XL1 n w g c0 ch => Ok (obj lim (l1_body (fun _ => w) g c0 ch))
  | XL2 E F ext cfg sigma x0 st0 ch => Ok (obj lim (l2_body ext cfg st0 ch))
  | XQuadratic E div lsqr A b c explicit warm ch => Ok (obj lim (quad_body div lsqr (quad_init A b c explicit warm) ch))
  | XEuclidean E sigma => Ok (obj lim (euclid_body sigma))
  | XHuberCircular E alpha => Ok (obj lim (hubercirc_body alpha))
  | XL21 m k sigma => Ok (obj lim (l21_body sigma))
  | XBall E c r => Ok (obj lim (ball_body c r))
  | XBox n lu => Ok (obj lim (box_body lu))
  | XHalfSpace E w b => Ok (obj lim (halfspace_body w b))
  | XAffine E F close cg A b => Ok (obj lim (affine_body close cg A b))
  | XOther E o f => Ok o
  | XAdd E e v => f <- build fuel e ;; op_add lim f (PArray v)
  | XSub E e v => f <- build fuel e ;; op_sub lim f (PArray v)
  | XMul E s e => f <- build fuel e ;; op_rmul lim f (PFloat s)
  | XPre E e a b => f <- build fuel e ;; precomposition vzero lim f (PFloat a) (PArray b)
  | XH E e => f <- build fuel e ;; Ok (op_H lim f)
  | XOrthogonal E F e Q partial b alpha => f <- build fuel e ;; Ok (obj lim (orth_body f Q partial b alpha))
  end.
