(** * ProximalPoint and ProximalGradient (optimization/primal.py:20-51, 105-508)

    Simplifications: one scalar tau; callbacks are recorded (the trace) and do
    not interfere; the [show] log is not modelled; the BilinearOperator special
    case (primal.py:395-396) is modelled in M_PGB.v. *)
From Coq Require Import String.
From Verif Require Import Base Space M_ProxOp M_Loop.
Open Scope result_scope.

Section M.
Context {E : IPS}.

(** primal.py:106-206 *)
Record pp_state := PP { pp_x : E; pp_pf : option R; pp_tr : list E }.
Definition pp_body (prox : Op E) (tau : R) (tol : option R) (iiter : nat) (s : pp_state)
  : result (pp_state * bool) :=
  x <- o_prox prox (pp_x s) tau ;;                       (* 177 *)
  let tr := pp_tr s ++ [x] in                            (* 179-181 callback(x) *)
  match tol with
  | None => Ok (PP x (pp_pf s) tr, false)
  | Some tol =>
      pf <- get_val prox x ;;                            (* 187 *)
      stop <- rel_stop true tol pf (pp_pf s) ;;          (* 188 *)
      Ok (PP x (Some pf) tr, stop)
  end.
(** Returned vector and the sequence of vectors passed to the callback. *)
Definition ProximalPoint (prox : Op E) (x0 : E) (tau : R) (niter : nat) (tol : option R)
  : result (E * list E) :=
  r <- for_loop (pp_body prox tau tol) niter 0 (PP x0 None []) ;;
  Ok (pp_x (fst r), pp_tr (fst r)).

(** primal.py:20-51 *)
Definition ftilde (f : Op E) (x y : E) (tau : R) : result R :=
  fy <- get_val f y ;;
  g <- get_grad f y ;;
  Ok (fy + << g, x [-] y >> + 1 / (2 * tau) * norm2 (x [-] y)).
Fixpoint bt_loop (x : E) (proxf proxg : Op E) (epsg beta : R) (n : nat) (tau : R) (z : option E)
  : result (E * R) :=
  match n with
  | O => match z with Some z => Ok (z, tau) | None => Err UnboundLocalError end
  | S n' =>
      g <- get_grad proxf x ;;
      z <- o_prox proxg (x [-] tau [*] g) (epsg * tau) ;;
      ft <- ftilde proxf z x tau ;;
      fz <- get_val proxf z ;;
      if Rleb fz ft then Ok (z, tau)
      else bt_loop x proxf proxg epsg beta n' (tau * beta) (Some z)
  end.
Definition backtracking (x : E) (tau : R) (proxf proxg : Op E) (epsg beta : R) (niterback : nat)
  : result (E * R) := bt_loop x proxf proxg epsg beta niterback tau None.

(** primal.py:209-449 *)
Record pg_state := PG { pg_x : E; pg_y : E; pg_t : R; pg_tau : R; pg_pfg : option R; pg_tr : list E }.

(** primal.py:325-330: a size-one epsg is broadcast to niter entries (and its
    first entry is printed, which fails for niter = 0). *)
Definition pg_epsg (epsg : list R) (niter : nat) : result (list R) :=
  match epsg with
  | [e] => match niter with O => Err IndexError | _ => Ok (repeat e niter) end
  | _ => Ok epsg
  end.
Definition getitem {A} (l : list A) (i : nat) : result A :=
  match nth_error l i with Some a => Ok a | None => Err IndexError end.

(** 332-334 *)
Definition accel_known (a : option string) : bool :=
  match a with
  | None => true
  | Some s => (String.eqb s "None" || String.eqb s "vandenberghe" || String.eqb s "fista")%bool
  end.
Definition accel_is (a : option string) (s : string) : bool :=
  match a with Some s' => String.eqb s' s | None => false end.

(** 378-392: the proximal step, returning the new x and tau. *)
Definition pg_prox_step (proxf proxg : Op E) (bt : bool) (beta eta : R) (niterback : nat) (e : R)
  (x y : E) (tau : R) : result (E * R) :=
  let relax x tau :=
    g <- get_grad proxf x ;;
    p <- o_prox proxg (x [-] tau [*] g) (e * tau) ;;
    Ok (x [+] eta [*] (p [-] x)) in
  if bt then
    zt <- backtracking y tau proxf proxg e beta niterback ;;
    if Reqb eta 1 then Ok zt
    else x' <- relax (fst zt) (snd zt) ;; Ok (x', snd zt)
  else if Reqb eta 1 then
    g <- get_grad proxf y ;;
    p <- o_prox proxg (y [-] tau [*] g) (e * tau) ;;
    Ok (p, tau)
  else x' <- relax x tau ;; Ok (x', tau).

Definition pg_body (proxf proxg : Op E) (epsg : list R) (bt : bool) (beta eta : R) (niterback : nat)
  (accel : option string) (tol : option R) (iiter : nat) (s : pg_state) : result (pg_state * bool) :=
  e <- getitem epsg iiter ;;
  xt <- pg_prox_step proxf proxg bt beta eta niterback e (pg_x s) (pg_y s) (pg_tau s) ;;
  let x := fst xt in
  (* 399-407 *)
  let t' := if accel_is accel "fista" then (1 + sqrt (1 + 4 * (pg_t s * pg_t s))) / 2 else pg_t s in
  let omega := if accel_is accel "vandenberghe" then INR iiter / (INR iiter + 3)
               else if accel_is accel "fista" then (pg_t s - 1) / t' else 0 in
  let y := x [+] omega [*] (x [-] pg_x s) in
  let tr := pg_tr s ++ [x] in
  match tol with
  | None => Ok (PG x y t' (snd xt) (pg_pfg s) tr, false)
  | Some tol =>
      pf <- get_val proxf x ;;
      pg <- get_val proxg x ;;
      let pfg := pf + e * pg in
      stop <- rel_stop false tol pfg (pg_pfg s) ;;
      Ok (PG x y t' (snd xt) (Some pfg) tr, stop)
  end.

Definition ProximalGradient (proxf proxg : Op E) (x0 : E) (epsg : list R) (tau : option R)
  (bt : bool) (beta eta : R) (niter niterback : nat) (accel : option string) (tol : option R)
  : result (E * list E) :=
  epsg <- pg_epsg epsg niter ;;
  if accel_known accel then
    let bt := match tau with None => true | Some _ => bt end in          (* 362-364 *)
    let tau := match tau with None => 1 | Some t => t end in
    r <- for_loop (pg_body proxf proxg epsg bt beta eta niterback accel tol) niter 0
                  (PG x0 x0 1 tau None []) ;;
    Ok (pg_x (fst r), pg_tr (fst r))
  else Err NotImplementedError.

(** primal.py:452-494: thin wrapper (no eta, no backtracking flag; beta, epsg as
    given; acceleration defaults to vandenberghe). *)
Definition AcceleratedProximalGradient (proxf proxg : Op E) (x0 : E) (epsg : list R) (tau : option R)
  (beta : R) (niter niterback : nat) (accel : option string) (tol : option R) : result (E * list E) :=
  ProximalGradient proxf proxg x0 epsg tau false beta 1 niter niterback accel tol.
End M.
Arguments pp_state : clear implicits.
Arguments pg_state : clear implicits.
