(** * Nonlinear: template class for a user-defined function (proximal/Nonlinear.py:8-104)

    The user supplies [fun], [grad] and [optimize].  [optimize] has no arguments: it reads the attributes of
    the object, here passed explicitly: the start x0, the point y and the step tau of the running prox call,
    and niter.  Simplification: [optimize] does not assign attributes itself. *)
From Verif Require Import Base Space M_ProxOp.
Open Scope result_scope.

Record NLUser (E : IPS) := mkNL {
  nl_fun : E -> R;                                        (* 65-67 *)
  nl_grad : E -> E;                                       (* 69-71 *)
  nl_optimize : option E -> E -> R -> nat -> result E     (* 73-75: x0, y, tau, niter *)
}.
Arguments mkNL {E} _ _ _.
Arguments nl_fun {E} _ _.
Arguments nl_grad {E} _ _.
Arguments nl_optimize {E} _ _ _ _ _.

(** Nonlinear.py:77-78, [__call__]. *)
Definition nl_call {E : IPS} (u : NLUser E) (x : E) : R := nl_fun u x.
(** Nonlinear.py:80-81, [_funprox]; [y] is self.y. *)
Definition nl_funprox {E : IPS} (u : NLUser E) (y x : E) (tau : R) : R :=
  nl_fun u x + 1 / (2 * tau) * norm2 (x [-] y).
(** Nonlinear.py:83-84, [_gradprox]. *)
Definition nl_gradprox {E : IPS} (u : NLUser E) (y x : E) (tau : R) : E :=
  nl_grad u x [+] (1 / tau) [*] (x [-] y).
(** Nonlinear.py:92-95, the default [fungrad], and 86-90, [_fungradprox]. *)
Definition nl_fungrad {E : IPS} (u : NLUser E) (x : E) : R * E := (nl_fun u x, nl_grad u x).
Definition nl_fungradprox {E : IPS} (u : NLUser E) (y x : E) (tau : R) : R * E :=
  let (f, g) := nl_fungrad u x in
  (f + 1 / (2 * tau) * norm2 (x [-] y), g [+] (1 / tau) [*] (x [-] y)).

(** The attributes that change: x0, y and tau (the last two exist after the first accepted call). *)
Record NLSt (E : IPS) := mkNLSt { nls_x0 : option E; nls_yt : option (E * R) }.
Arguments mkNLSt {E} _ _.
Arguments nls_x0 {E} _.
Arguments nls_yt {E} _.

(** Nonlinear.py:98-104 behind the step guard (97). *)
Definition nl_prox {E : IPS} (u : NLUser E) (niter : nat) (warm : bool) (st : NLSt E) (x : E) (tau : R)
  : NLSt E * result E :=
  if Rleb tau 0 then (st, Err ValueError) else
  match nl_optimize u (nls_x0 st) x tau niter with
  | Err e => (mkNLSt (nls_x0 st) (Some (x, tau)), Err e)
  | Ok p => (mkNLSt (if warm then Some p else nls_x0 st) (Some (x, tau)), Ok p)
  end.

(** A sequence of prox calls on one object with state. *)
Fixpoint prox_session {S E : Type} (prox : S -> E -> R -> S * result E) (st : S) (calls : list (E * R)) : list (result E) :=
  match calls with
  | [] => []
  | (x, tau) :: calls => let (st', r) := prox st x tau in r :: prox_session prox st' calls
  end.
