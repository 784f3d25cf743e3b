(** * AndersonProximalGradient (optimization/primal.py:497-722)

    Simplifications: one scalar tau; callbacks are recorded (the trace); the
    [show] log is not modelled; nhistory is a natural number (a negative one
    makes np.ones raise ValueError, as 0 does in the product below).
    [pinv] stands for np.linalg.pinv (its relative cut-off of singular values below
    1e-15 is idealised in the theorems to the exact pseudo-inverse).  A vanishing sum of the coefficients is
    reported as ZeroDivisionError: numpy computes 0/0, so that alpha and every
    entry of y are nan from then on. *)
From Verif Require Import Base Space M_ProxOp M_Loop M_PG.
Open Scope result_scope.
Open Scope R_scope.

Section M.
Context {E : IPS}.

(** a matrix-vector product (ValueError if the shapes do not match) *)
Definition mat_vec (P : list (list R)) (v : list R) : result (list R) :=
  if forallb (fun row => Nat.eqb (length row) (length v)) P then Ok (map (fun row => Rsum (map2 Rmult row v)) P) else Err ValueError.
(** [np.vstack(G).T @ alpha] *)
Definition comb (G : list E) (alpha : list R) : result E :=
  if Nat.eqb (length G) (length alpha) then Ok (fold_right vadd vzero (map2 (fun g a => a [*] g) G alpha)) else Err ValueError.
(** [Rstack @ Rstack.T + epsr * np.linalg.norm(Rstack) ** 2] (654): the number
    is added to every entry of the matrix *)
Definition an_matrix (epsr : R) (Rs : list E) : list (list R) :=
  map (fun u => map (fun v => << u, v >> + epsr * Rsum (map norm2 Rs)) Rs) Rs.
(** 653-657 *)
Definition an_alpha (pinv : list (list R) -> list (list R)) (epsr : R) (n : nat) (Rs : list E) : result (list R) :=
  w <- mat_vec (pinv (an_matrix epsr Rs)) (repeat 1 n) ;;
  if Nat.eqb (length w) n then
    let d := Rsum w in
    if Reqb d 0 then Err ZeroDivisionError else Ok (map (fun a => a / d) w)
  else Err ValueError.

Record an_state := AN { an_x : E; an_y : E; an_R : list E; an_G : list E; an_pf : R; an_pfg : option R; an_tr : list E }.

Definition an_body (pinv : list (list R) -> list (list R)) (proxf proxg : Op E) (epsg : list R) (tau epsr : R) (nhistory : nat)
  (safeguard : bool) (tol : option R) (iiter : nat) (s : an_state) : result (an_state * bool) :=
  let x := an_x s in let y := an_y s in
  df <- get_grad proxf x ;;
  let g := x [-] tau [*] df in                                            (* 642-643 *)
  let r := g [-] y in
  let Rs := r :: an_R s in let Gs := g :: an_G s in                       (* 646-647 *)
  let pop := Nat.leb nhistory (iiter + 1) in                              (* 648-650 *)
  let Rs := if pop then removelast Rs else Rs in
  let Gs := if pop then removelast Gs else Gs in
  alpha <- an_alpha pinv epsr (Nat.min nhistory (iiter + 2)) Rs ;;
  ytest <- comb Gs alpha ;;
  e <- getitem epsg iiter ;;
  xtest <- o_prox proxg ytest (e * tau) ;;
  r <- (if safeguard then                                                 (* 666-680 *)
          pf <- get_val proxf xtest ;;
          if Rleb pf (an_pf s - tau * norm2 df / 2) then Ok (xtest, ytest, pf)
          else x <- o_prox proxg g (e * tau) ;; Ok (x, g, pf)
        else Ok (xtest, ytest, an_pf s)) ;;                               (* 659-664 *)
  let '(x', y', pf') := r in
  let tr := an_tr s ++ [x'] in
  match tol with
  | None => Ok (AN x' y' Rs Gs pf' (an_pfg s) tr, false)
  | Some tol =>                                                           (* 688-693 *)
      pf <- get_val proxf x' ;;
      pg <- get_val proxg x' ;;
      let pfg := pf + e * pg in
      stop <- rel_stop false tol pfg (an_pfg s) ;;
      Ok (AN x' y' Rs Gs pf (Some pfg) tr, stop)
  end.

(** 622-637: the history lists start with g in R and r in G *)
Definition an_init (proxf proxg : Op E) (epsg : list R) (tau : R) (x0 : E) : result an_state :=
  df <- get_grad proxf x0 ;;
  let y := x0 [-] tau [*] df in
  e <- getitem epsg 0 ;;
  x <- o_prox proxg y (e * tau) ;;
  let g := y in let r := g [-] x0 in
  pf <- get_val proxf x ;;
  Ok (AN x y [g] [r] pf None []).

Definition AndersonProximalGradient (pinv : list (list R) -> list (list R)) (proxf proxg : Op E) (x0 : E) (epsg : list R) (tau : R)
  (niter nhistory : nat) (epsr : R) (safeguard : bool) (tol : option R) : result (E * list E) :=
  epsg <- pg_epsg epsg niter ;;
  s <- an_init proxf proxg epsg tau x0 ;;
  r <- for_loop (an_body pinv proxf proxg epsg tau epsr nhistory safeguard tol) niter 0 s ;;
  Ok (an_x (fst r), an_tr (fst r)).
End M.
Arguments an_state : clear implicits.
