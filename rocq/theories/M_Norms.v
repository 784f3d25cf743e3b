(** * Coordinate-free operators: Euclidean, EuclideanBall, HalfSpace, AffineSet,
    HuberCircular, Quadratic, Orthogonal *)
From Verif Require Import Base Space M_ProxOp.
Open Scope result_scope.

(** Division whose denominator may vanish.  With python floats this is
    ZeroDivisionError, with numpy floats the result is nan/inf plus a warning;
    both are modelled by this error value ("no number comes out"). *)
Definition pydiv (a b : R) : result R :=
  if Reqb b 0 then Err ZeroDivisionError else Ok (a / b).

(** proximal/Euclidean.py:42-62, class [Euclidean]. *)
Definition euclid_body {E : IPS} (sigma : R) : Body E :=
  mkBody
    (Some (fun x => Ok (VNum (sigma * norm x))))                               (* 46-47 *)
    (Some (fun x tau =>                                                        (* 50-54 *)
       r <- pydiv (tau * sigma) (Rmax (norm x) (tau * sigma)) ;; Ok ((1 - r) [*] x)))
    (Some (fun x tau =>                                                        (* 57-59 *)
       r <- pydiv 1 (Rmax (norm x) sigma) ;; Ok (r [*] (sigma [*] x))))
    (Some (fun x =>                                                            (* 61-62 *)
       r <- pydiv 1 (norm x) ;; Ok (Some (r [*] (sigma [*] x)))))
    true 1.

(** proximal/Euclidean.py:46-47 called with a number c (as _ChainOperator does):
    np.linalg.norm of a number is its absolute value. *)
Definition euclid_num (sigma : R) (c : pyval) : result pyval := Ok (VNum (sigma * Rabs (as_num c))).

(** projection/Euclidean.py:39-43, [EuclideanBallProj.__call__]. *)
Definition ball_proj {E : IPS} (c : E) (r : R) (x : E) : result E :=
  q <- pydiv r (Rmax (norm (x [-] c)) r) ;; Ok (c [+] q [*] (x [-] c)).

(** proximal/Euclidean.py:86-97, class [EuclideanBall]. *)
Definition ball_body {E : IPS} (c : E) (r : R) : Body E :=
  mkBody (Some (fun x => Ok (VBool (Rleb (norm (x [-] c)) r))))
         (Some (fun x _ => ball_proj c r x)) None None false 1.

(** projection/HalfSpace.py:46-53. *)
Definition halfspace_proj {E : IPS} (w : E) (b : R) (x : E) : result E :=
  let w_x := << w, x >> in
  if Rleb w_x b then Ok x
  else factor <- pydiv (w_x - b) (<< w, w >>) ;; Ok (x [-] factor [*] w).

(** proximal/HalfSpace.py:29-40. *)
Definition halfspace_body {E : IPS} (w : E) (b : R) : Body E :=
  mkBody (Some (fun x => Ok (VBool (Rleb (<< w, x >>) b))))
         (Some (fun x _ => halfspace_proj w b x)) None None false 1.

(** projection/AffineSet.py:49-59.  [cg M d] is the conjugate-gradient call on
    Op*Op.H with right-hand side d (its iteration budget is inside [cg]). *)
Definition affine_proj {E F : IPS} (cg : (F -> F) -> F -> F) (A : linop E F) (b : F) (x : E) : E :=
  let xinv := cg (fun v => A (ladj A v)) (A x [-] b) in
  x [-] ladj A xinv.

(** proximal/AffineSet.py:39-53.  [close] is np.allclose. *)
Definition affine_body {E F : IPS} (close : F -> F -> bool) (cg : (F -> F) -> F -> F)
  (A : linop E F) (b : F) : Body E :=
  mkBody (Some (fun x => Ok (VBool (close (A x) b))))
         (Some (fun x _ => Ok (affine_proj cg A b x))) None None false 1.

(** proximal/Huber.py:109-124, class [HuberCircular]. *)
Definition hubercirc_call {E : IPS} (alpha : R) (x : E) : R :=
  let l2 := norm x in
  if Rleb l2 alpha then l2 ^ 2 / (2 * alpha) else l2 - alpha / 2.
Definition hubercirc_body {E : IPS} (alpha : R) : Body E :=
  mkBody (Some (fun x => Ok (VNum (hubercirc_call alpha x))))
         (Some (fun x tau =>
            r <- pydiv tau (Rmax (norm x) (tau + alpha)) ;; Ok ((1 - r) [*] x)))
         None None false 1.

(** proximal/Quadratic.py:72-139.  [solve M y x0] is the inner linear solve:
    [MatrixMult.div] for an explicit Op, lsqr with warm start x0 otherwise.
    The warm-start field self.x0 is the state threaded by [quad_prox].
    The constructor's square check (82-84) is carried by the type: Op : E -> E. *)
Record QuadCfg (E : IPS) := mkQuad {
  qu_Op : option (linop E E);
  qu_b : option E;
  qu_c : R;
  qu_explicit : bool;
  qu_warm : bool
}.
Arguments mkQuad {E} _ _ _ _ _.
Arguments qu_Op {E} _.
Arguments qu_b {E} _.
Arguments qu_c {E} _.
Arguments qu_explicit {E} _.
Arguments qu_warm {E} _.

(** Quadratic.py:87-88: with Op and no b, b becomes the zero vector. *)
Definition quad_init {E : IPS} (Op : option (linop E E)) (b : option E) (c : R) (explicit warm : bool)
  : QuadCfg E :=
  mkQuad Op (match Op, b with Some _, None => Some vzero | _, _ => b end) c explicit warm.

(** Quadratic.py:94-101. *)
Definition quad_call {E : IPS} (q : QuadCfg E) (x : E) : R :=
  match qu_Op q, qu_b q with
  | Some Op, Some b => << x, Op x >> / 2 + << b, x >> + qu_c q
  | None, Some b => << b, x >> + qu_c q
  | _, None => qu_c q
  end.

(** Quadratic.py:103-117; first component: the new self.x0. *)
Definition quad_prox {E : IPS} (div : (E -> E) -> E -> E) (lsqr : (E -> E) -> E -> option E -> E)
  (q : QuadCfg E) (x0 : option E) (x : E) (tau : R) : option E * result E :=
  if Rleb tau 0 then (x0, Err ValueError)
  else
    match qu_Op q, qu_b q with
    | Some Op, Some b =>
        let y := x [-] tau [*] b in
        let Op1 := fun v => v [+] tau [*] Op v in
        let x' := if qu_explicit q then div Op1 y else lsqr Op1 y x0 in
        (if qu_warm q then Some x' else x0, Ok x')
    | None, Some b => (x0, Ok (x [-] tau [*] b))
    | _, None => (x0, Ok x)
    end.

(** Quadratic.py:119-139 (with neither Op nor b the python float 0.0 is
    returned, which broadcasts as the zero vector). *)
Definition quad_grad {E : IPS} (q : QuadCfg E) (x : E) : E :=
  match qu_Op q, qu_b q with
  | Some Op, Some b => Op x [+] b
  | None, Some b => b
  | _, None => vzero
  end.

(** proximal/Orthogonal.py:63-98.  b = None is the zero vector (line 76). *)
Definition orth_body {E F : IPS} (f : Op F) (Q : linop E F) (partial : bool) (b : F) (alpha : R)
  : Body E :=
  mkBody
    (Some (fun x => o_call f (Q x [+] b)))                                     (* 78-82 *)
    (Some (fun x tau =>                                                        (* 85-98 *)
       let y := Q x in
       if partial then
         p <- o_prox f (y [+] b) (alpha * tau) ;;
         Ok (1 / alpha [*] (alpha [*] x [-] ladj Q y [+] ladj Q (p [-] b)))
       else
         p <- o_prox f (y [+] b) tau ;;
         Ok (ladj Q (p [-] b))))
    None None false 1.
