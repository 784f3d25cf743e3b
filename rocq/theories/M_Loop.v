(** * Loops of the iterative solvers

    [for iiter in range(niter): ...; if tolbreak: break] *)
From Verif Require Import Base Space M_ProxOp.
Open Scope result_scope.

(** Executes [body i], [body (i+1)], ... at most n times; [body] returns the new
    state and whether the loop breaks.  Result: final state and the value of the
    loop counter after the last executed iteration. *)
Fixpoint for_loop {S} (body : nat -> S -> result (S * bool)) (n i : nat) (s : S) : result (S * nat) :=
  match n with
  | O => Ok (s, i)
  | Datatypes.S n' =>
      p <- body i s ;;
      if snd p then Ok (fst p, Datatypes.S i) else for_loop body n' (Datatypes.S i) (fst p)
  end.

(** The tolerance test [np.abs(1.0 - pf / pfold) < tol] (primal.py:188, 419, ...).
    [None] stands for the initial value [np.inf] (pf / inf = 0).
    [zerodiv] tells whether the division is between python floats, in which case
    a zero previous value raises; with numpy scalars the quotient is inf or nan
    and the comparison is False. *)
Definition rel_stop (zerodiv : bool) (tol pf : R) (pfold : option R) : result bool :=
  match pfold with
  | None => Ok (Rltb 1 tol)
  | Some o =>
      if Reqb o 0 then (if zerodiv then Err ZeroDivisionError else Ok false)
      else Ok (Rltb (Rabs (1 - pf / o)) tol)
  end.

(** [o.grad(x)] used as an array: None raises TypeError in the arithmetic. *)
Definition get_grad {E : IPS} (o : Op E) (x : E) : result E :=
  g <- o_grad o x ;; match g with Some g => Ok g | None => Err TypeError end.
Definition get_val {E : IPS} (o : Op E) (x : E) : result R :=
  v <- o_call o x ;; Ok (as_num v).
