(** * Specification vocabulary used by the statements proved in P_Expr.v *)
From Coq Require Import Classical.
From Verif Require Import Base Space Spec ConvexFacts M_ProxOp SpecOps M_Norms S_Norms M_L1 S_L1 S_L21 M_L2 S_L2 M_Objs S_Lasso M_Expr.
Open Scope R_scope.

(** the supremum of a set of reals (0 if it is empty or unbounded) *)
Definition has_sup (S : R -> Prop) : Prop := (exists r, S r) /\ (exists M, forall r, S r -> r <= M).
Definition sup_set (S : R -> Prop) : R -> Prop := fun r => (has_sup S /\ S r) \/ (~ has_sup S /\ r = 0).
Lemma sup_set_bound S : bound (sup_set S).
Proof.
  destruct (classic (has_sup S)) as [H|H].
  - destruct (proj2 H) as [M HM]. exists M. intros r [[_ Hr]|[Hn _]]; [apply HM; exact Hr|contradiction].
  - exists 0. intros r [[Hn _]|[_ ->]]; [contradiction|apply Rle_refl].
Qed.
Lemma sup_set_ne S : exists r, sup_set S r.
Proof. destruct (classic (has_sup S)) as [H|H]; [destruct (proj1 H) as [r Hr]; exists r; left; split; assumption|exists 0; right; split; [exact H|reflexivity]]. Qed.
Definition rsup (S : R -> Prop) : R := proj1_sig (completeness (sup_set S) (sup_set_bound S) (sup_set_ne S)).
(** the convex conjugate f*(z) = sup_y <z,y> - f(y), finite where this is bounded *)
Definition conj {E : IPS} (f : efun E) : efun E :=
  mkEfun (fun z => exists M, forall y, edom f y -> << z, y >> - eval f y <= M)
         (fun z => rsup (fun r => exists y, edom f y /\ r = << z, y >> - eval f y)).

(** the function an expression stands for *)
Fixpoint denote {E : IPS} (e : expr E) : efun E :=
  match e in expr E return efun E with
  | XL1 n w g _ _ => etot (wl1 w (gvec g))
  | XL2 E F ext cfg sigma _ _ _ => etot (l2_fun (l2_d cfg) (l2_q cfg) sigma (l2_alpha cfg))
  | XQuadratic E _ _ A b c _ _ _ => etot (fun x => match A with Some A => << x, A x >> / 2 | None => 0 end + match b with Some b => << b, x >> | None => 0 end + c)
  | XEuclidean E sigma => etot (fun x => sigma * norm x)
  | XHuberCircular E alpha => etot (fun x => if Rle_dec (norm x) alpha then norm2 x / (2 * alpha) else norm x - alpha / 2)
  | XL21 m k sigma => etot (group_norm sigma)
  | XBall E c r => indic (fun x => norm (x [-] c) <= r)
  | XBox n lu => indic (box_set lu)
  | XHalfSpace E w b => indic (fun x => << w, x >> <= b)
  | XAffine E F _ _ A b => indic (fun x => A x = b)
  | XOther E o f => f
  | XAdd E e v => elin (denote e) v
  | XSub E e v => mkEfun (edom (denote e)) (fun x => eval (denote e) x - << v, x >>)
  | XMul E s e => escal s (denote e)
  | XPre E e a b => epre (denote e) (fun x => a [*] x [+] b)
  | XH E e => conj (denote e)
  | XOrthogonal E F e Q _ b _ => epre (denote e) (fun x => Q x [+] b)
  end.

(** admissible arguments: positive parameters, lower <= upper, exact inner solvers, Q Q^T = alpha I (partial) or Q orthogonal *)
Fixpoint admissible {E : IPS} (e : expr E) : Prop :=
  match e with
  | XL1 n w g _ _ => nonneg_list w
  | XL2 E F ext cfg sigma x0 st0 ch => l2_exact ext /\ 0 < sigma /\ l2_reached ext cfg sigma x0 st0 /\ (forall x tau, l2_reached ext cfg sigma x0 (ch x tau))
  | XQuadratic E div lsqr A b c _ _ _ => (forall B, A = Some B -> sym_psd B) /\
      (forall tau y, 0 < tau -> let M := fun v => v [+] tau [*] match A with Some B => B v | None => vzero end in M (div M y) = y /\ forall w, M (lsqr M y w) = y)
  | XEuclidean E sigma => 0 < sigma
  | XHuberCircular E alpha => 0 < alpha
  | XL21 m k sigma => 0 < sigma
  | XBall E c r => 0 < r
  | XBox n lu => Forall bounds_ok (proj1_sig lu)
  | XHalfSpace E w b => w <> vzero
  | XAffine E F close cg A b => forall x, A (ladj A (cg (fun v => A (ladj A v)) (A x [-] b))) = A x [-] b
  | XOther E o f => convex f /\ impl_prox o f /\ impl_proxdual o (conj f)
  | XAdd E e v => admissible e
  | XSub E e v => admissible e
  | XMul E s e => 0 < s /\ admissible e
  | XPre E e a b => a <> 0 /\ admissible e
  | XH E e => admissible e
  | XOrthogonal E F e Q partial b alpha => admissible e /\
      (if partial then 0 < alpha /\ (forall y, Q (ladj Q y) = alpha [*] y) else (forall y, Q (ladj Q y) = y) /\ (forall x, ladj Q (Q x) = x))
  end.

(** expressions whose value is a number: no indicator and no .H inside *)
Fixpoint numeric {E : IPS} (e : expr E) : Prop :=
  match e with
  | XL1 _ _ _ _ _ | XL2 _ _ _ _ _ _ _ _ | XQuadratic _ _ _ _ _ _ _ _ _ | XEuclidean _ _ | XHuberCircular _ _ | XL21 _ _ _ => True
  | XBall _ _ _ | XBox _ _ | XHalfSpace _ _ _ | XAffine _ _ _ _ _ _ => False
  | XOther E o f => impl_call o f
  | XAdd E e v => numeric e
  | XSub E e v => numeric e
  | XMul E s e => numeric e
  | XPre E e a b => numeric e
  | XH E e => False
  | XOrthogonal E F e _ _ _ _ => numeric e
  end.
(** expressions whose value is a membership test *)
Fixpoint membership {E : IPS} (e : expr E) : Prop :=
  match e with
  | XBall _ _ _ | XBox _ _ | XHalfSpace _ _ _ => True
  | XPre E e a b => membership e
  | XOrthogonal E F e _ _ _ _ => membership e
  | _ => False
  end.
(** expressions with a Lipschitz gradient, and its Lipschitz constant L *)
Fixpoint smooth {E : IPS} (e : expr E) : R -> Prop :=
  match e in expr E return R -> Prop with
  | XL2 E F ext cfg sigma _ _ _ => fun L => (l2_q cfg = None \/ l2_qgrad cfg = true) /\
      match l2_d cfg with WithOp A _ _ => forall v, sigma * norm2 (A v) <= L * norm2 v | _ => sigma <= L end
  | XQuadratic E _ _ A b c _ _ _ => fun L => match A with Some A => forall v, norm (A v) <= L * norm v | None => 0 <= L end
  | XOther E o f => fun L => exists h dh, f = etot h /\ L_smooth h dh L /\ (forall x, o_grad o x = Ok (Some (dh x)))
  | XAdd E e v => fun L => smooth e L
  | XSub E e v => fun L => smooth e L
  | XMul E s e => fun L => exists K, L = s * K /\ smooth e K
  | XPre E e a b => fun L => exists K, L = a ^ 2 * K /\ smooth e K
  | _ => fun _ => False
  end.
