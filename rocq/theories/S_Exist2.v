(** * Specification vocabulary used by the statements proved in P_Exist2.v *)
From Verif Require Import Base Space Spec M_ProxOp M_L2 M_Expr S_Exist.
Open Scope R_scope.

(** the user-supplied operators inside an expression (classes not listed in [expr]) stand for closed functions *)
Fixpoint closed_others {E : IPS} (e : expr E) : Prop :=
  match e with
  | XOther E o f => closed f
  | XAdd E e v => closed_others e
  | XSub E e v => closed_others e
  | XMul E s e => closed_others e
  | XPre E e a b => closed_others e
  | XH E e => closed_others e
  | XOrthogonal E F e _ _ _ _ => closed_others e
  | _ => True
  end.

(** expressions that are strongly convex with modulus s: least squares with A^T A >= (s / sigma) I, quadratics with A >= s I, and what
    sums with linear functions, multiples, precompositions and orthogonal changes of variable make of them *)
Fixpoint curved {E : IPS} (e : expr E) : R -> Prop :=
  match e in expr E return R -> Prop with
  | XL2 E F ext cfg sigma _ _ _ => fun s => match l2_d cfg with WithOp A _ _ => forall v, s * norm2 v <= sigma * norm2 (A v) | _ => s <= sigma end
  | XQuadratic E _ _ A b c _ _ _ => fun s => match A with Some A => forall v, s * norm2 v <= << v, A v >> | None => s <= 0 end
  | XOther E o f => fun s => strongly_convex s f
  | XAdd E e v => fun s => curved e s
  | XSub E e v => fun s => curved e s
  | XMul E t e => fun s => exists k, s = t * k /\ curved e k
  | XPre E e a b => fun s => exists k, s = a ^ 2 * k /\ curved e k
  | XOrthogonal E F e _ partial _ _ => fun s => partial = false /\ curved e s
  | _ => fun _ => False
  end.
