(** * The effect of show=True on AndersonProximalGradient (optimization/primal.py:497-722)

    Printing evaluates f and g at the new iterate and stores the value of f in
    the variable that the safeguard compares with (primal.py:696-700).  Only the
    assignments are modelled, not the text. *)
From Verif Require Import Base Space M_ProxOp M_Loop M_PG M_Anderson.
Open Scope result_scope.
Open Scope R_scope.

Section M.
Context {E : IPS}.

(** primal.py:697: the iterations that are logged.  Python evaluates the last
    disjunct only for iiter >= 10 and niter - iiter >= 10, hence niter // 10 > 0. *)
Definition logged (niter iiter : nat) : bool :=
  (Nat.ltb iiter 10 || Nat.ltb (niter - iiter) 10 || Nat.eqb (iiter mod (niter / 10)) 0)%bool.

(** primal.py:640-716 *)
Definition ans_body (show : bool) (niter : nat) (pinv : list (list R) -> list (list R)) (proxf proxg : Op E) (epsg : list R) (tau epsr : R)
  (nhistory : nat) (safeguard : bool) (tol : option R) (iiter : nat) (s : an_state E) : result (an_state E * bool) :=
  r <- an_body pinv proxf proxg epsg tau epsr nhistory safeguard tol iiter s ;;
  match show, logged niter iiter, tol with
  | true, true, None =>                                                   (* 698-700 *)
      let s := fst r in
      pf <- get_val proxf (an_x s) ;;
      pg <- get_val proxg (an_x s) ;;
      e <- getitem epsg iiter ;;
      Ok (AN (an_x s) (an_y s) (an_R s) (an_G s) pf (Some (pf + e * pg)) (an_tr s), snd r)
  | _, _, _ => Ok r
  end.

Definition AndersonShow (show : bool) (pinv : list (list R) -> list (list R)) (proxf proxg : Op E) (x0 : E) (epsg : list R) (tau : R)
  (niter nhistory : nat) (epsr : R) (safeguard : bool) (tol : option R) : result (E * list E) :=
  epsg <- pg_epsg epsg niter ;;
  s <- an_init proxf proxg epsg tau x0 ;;
  r <- for_loop (ans_body show niter pinv proxf proxg epsg tau epsr nhistory safeguard tol) niter 0 s ;;
  Ok (an_x (fst r), an_tr (fst r)).
End M.
