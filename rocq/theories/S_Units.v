(** * Specification vocabulary used by the statements proved in P_Units.v *)
From Coq Require Import String Psatz.
From Verif Require Import Base Space M_ProxOp M_Loop M_Multi M_PD.
Open Scope result_scope.
Open Scope R_scope.

(** f' behaves as the function c f(a x + b): its proximal operator, gradient and value in terms of those of f *)
Definition units {E : IPS} (c a : R) (b : E) (f f' : Op E) : Prop :=
  (forall x t, 0 < t -> o_prox f' x t = (p <- o_prox f (a [*] x [+] b) (c * a ^ 2 * t) ;; Ok (/ a [*] (p [-] b)))) /\
  (forall x, get_grad f' x = (g <- get_grad f (a [*] x [+] b) ;; Ok ((c * a) [*] g))) /\
  (forall x, get_val f' x = (v <- get_val f (a [*] x [+] b) ;; Ok (c * v))).
(** the result of a run and the vectors handed to the callback, in the units of x *)
Definition back {E : IPS} (a : R) (b : E) (x : E) : E := / a [*] (x [-] b).
Definition fwd {E : IPS} (a : R) (b : E) (x : E) : E := a [*] x [+] b.
(** the same for the dual proximal operator, the only one a primal-dual solver calls on its second function *)
Definition units_dual {E : IPS} (c a : R) (d : E) (g g' : Op E) : Prop :=
  forall y t, 0 < t -> o_proxdual g' y t = (p <- o_proxdual g (/ (c * a) [*] y [+] (t / (c * a ^ 2)) [*] d) (t / (c * a ^ 2)) ;; Ok ((c * a) [*] p)).
(** the dual proximal operator an operator inherits when it only defines prox *)
Definition inherits_dual {E : IPS} (g : Op E) : Prop :=
  forall y t, 0 < t -> o_proxdual g y t = (p <- o_prox g (/ t [*] y) (1 / t) ;; Ok (y [-] t [*] p)).
(** entrywise largest absolute value of an array *)
Definition homogeneous {E : IPS} (amax : E -> R) : Prop := forall k x, amax (k [*] x) = Rabs k * amax x.
Definition weights_ok (w : option (list R)) : Prop := match w with None => True | Some w => Forall (fun w => 0 < w) w /\ Rsum w = 1 end.
Definition fwd_init {E : IPS} (a : R) (b : E) (x0 : ppxa_init E) : ppxa_init E :=
  match x0 with Common x => Common (fwd a b x) | PerFun l => PerFun (map (fwd a b) l) end.
Definition fwd_steps (k : R) (s : steps) : steps := match s with Scalar t => Scalar (k * t) | Arr l => Arr (map (Rmult k) l) end.
Definition steps_pos (s : steps) : Prop := match s with Scalar t => 0 < t | Arr l => Forall (fun t => 0 < t) l end.
