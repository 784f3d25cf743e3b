(** * Specification vocabulary used by the statements proved in P_Noncvx.v *)
From Coq Require Import String ZArith.
From Verif Require Import Base Space Spec M_ProxOp SpecOps S_Seq M_L1 M_Pen S_Pen S_Pen2 S_Pen3 M_L0 S_L0 M_PALM S_PALM.
Open Scope result_scope.
Open Scope R_scope.

(** at this one step t, o.prox(x, t) returns, for every x, a global minimiser of g + |. - x|^2/(2t) (some minimiser: there may be several) *)
Definition prox_at {E : IPS} (o : Op E) (g : efun E) (t : R) : Prop := forall x, exists p, o_prox o x t = Ok p /\ is_prox g t x p.
(** l is a limit point of u: some subsequence of u converges to l *)
Definition cluster {E : IPS} (u : nat -> E) (l : E) : Prop := exists phi, strict_inc phi /\ vcv (fun k => u (phi k)) l.
(** first-order optimality of x for f + g, where df is the gradient of f and g need not be convex: moving from x to y gains in g at most what
    the linear part of f loses, up to a quadratic |y-x|^2/(2t).  For convex f and g this is equivalent to being a minimiser. *)
Definition stationary {E : IPS} (df : E -> E) (g : efun E) (t : R) (x : E) : Prop :=
  edom g x /\ forall y, edom g y -> eval g x <= eval g y + << df x, y [-] x >> + / (2 * t) * norm2 (y [-] x).
(** what ADMM decreases: f linearised at x, plus g at z, plus the squared distance *)
Definition merit {E : IPS} (f : E -> R) (df : E -> E) (g : efun E) (tau : R) (x z : E) : R :=
  f x + << df x, z [-] x >> + eval g z + / (2 * tau) * norm2 (z [-] x).

(** T and l are continuous *)
Definition cont2 {E F G : IPS} (T : E -> F -> G) : Prop := forall us vs a b, vcv us a -> vcv vs b -> vcv (fun k => T (us k) (vs k)) (T a b).
Definition scont {E : IPS} (l : E -> R) : Prop := forall us a, vcv us a -> Un_cv (fun k => l (us k)) (l a).

(** an object L0Ball(ndim, radius=r): r is a constant, so the counter has no effect *)
Definition l0ball_op (argsort : list R -> list nat) {n} (r : Z) : Op (Vec n) :=
  mkOp (fun x => Ok (VBool (l0ball_call (fun _ => r) 0 x))) (fun x tau => snd (l0ball_prox argsort (fun _ => r) 0 x tau))
    (fun _ _ => Err NotImplementedError) (fun _ => Err NotImplementedError) false.
(** the non-convex penalties of the library, each with the function its prox belongs to and the steps t allowed *)
Inductive penalty {n} (t : R) : Op (Vec n) -> efun (Vec n) -> Prop :=
| pen_log sigma gamma : 0 <= sigma -> 0 < gamma ->
    penalty t (obj 1 (sep_body (log_elem sigma gamma) (log_pr sigma gamma))) (etot (sumf (fun a => sigma / ln (gamma + 1) * ln (gamma * Rabs a + 1))))
| pen_etp W sigma gamma : lambert W -> etp_init sigma gamma = Ok tt ->
    penalty t (obj 1 (sep_body (etp_elem sigma gamma) (etp_pr W sigma gamma))) (etot (sumf (fun a => sigma * (1 - exp (- gamma * Rabs a)) / (1 - exp (- gamma)))))
| pen_geman sigma gamma : geman_init sigma gamma = Ok tt ->
    penalty t (obj 1 (sep_body (geman_elem sigma gamma) (geman_pr sigma gamma))) (etot (sumf (fun a => sigma * Rabs a / (Rabs a + gamma))))
| pen_scad sigma al : scad_init sigma al = Ok tt -> t <= al - 1 ->
    penalty t (obj 1 (sep_body (scad_elem sigma al) (scad_pr sigma al))) (etot (sumf (scad_fun sigma al)))
| pen_card mu : 0 <= mu -> t <= 1 ->
    penalty t (obj 1 (sep_body (qec_elem mu) (qec_pr mu))) (etot (sumf (qec_fun mu)))
| pen_rms sigma kappa : 0 < sigma -> 0 <= kappa ->
    penalty t (obj 1 (rms_body sigma kappa)) (etot (sumf (fun a => Rmin (sigma * (a * a)) kappa)))
| pen_l0 sigma : 0 <= sigma ->
    penalty t (obj 1 (sep_body l0_elem (l0_pr sigma))) (etot (card_fun (t * sigma * sigma / 2)))
| pen_l0ball argsort r : argsort_ok argsort -> (0 < r)%Z ->
    penalty t (l0ball_op argsort r) (indic (l0_ball (Z.to_nat r))).

(** the two points -1 and 1 of the real line, and an operator that projects on them *)
Definition signs : efun R_IPS := indic (E:=R_IPS) (fun x : R => x = 1 \/ x = -1).
Definition signs_op : Op R_IPS :=
  mkOp (E:=R_IPS) (fun x => Ok (VNum 0)) (fun x _ => Ok (if Rltb x 0 then -1 else 1)) (fun _ _ => Err NotImplementedError) (fun _ => Err NotImplementedError) false.
(** H(x, y) = (x - y)^2 / 2 on the real line *)
Definition gap1 : Bilin R_IPS R_IPS :=
  mkBilin (E:=R_IPS) (F:=R_IPS) (fun x y => Ok (/ 2 * ((x - y) * (x - y)))) (fun y x => Ok (x - y)) (fun x y => Ok (y - x)) (fun _ => Ok 1) (fun _ => Ok 1).
