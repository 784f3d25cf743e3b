(** * Primal-dual solvers: PrimalDual and AdaptivePrimalDual
      (optimization/primaldual.py)

    Callbacks are recorded; the [show] log is not modelled.  [A] is a linear
    operator with its adjoint.  [alias] describes an operator whose [rmatvec]
    returns its argument itself (pylops.Identity does so by default): then the
    in-place [ATy += z] also changes y, read back through [alias]; [None] is an
    operator returning a fresh array. *)
From Verif Require Import Base Space M_ProxOp M_Norms M_Loop M_PG.
Open Scope result_scope.
Open Scope R_scope.

Section S.
Context {E F : IPS}.

(** tau, mu: a python number or an array (138-145) *)
Inductive steps := Scalar (t : R) | Arr (l : list R).
Definition steps_arr (s : steps) (niter : nat) : list R := match s with Scalar t => repeat t niter | Arr l => l end.

(** [ATy = A.rmatvec(y); if z is not None: ATy += z]: ATy and the y seen afterwards *)
Definition rmatvec_plus (A : linop E F) (alias : option (E -> F)) (z : option E) (y : F) : E * F :=
  let aty := ladj A y in
  match z with
  | None => (aty, y)
  | Some z => (aty [+] z, match alias with None => y | Some back => back (aty [+] z) end)
  end.

Record pd_state := PD { pd_x : E; pd_y : F; pd_hat : E; pd_tr : list (E * F) }.

(** PrimalDual, one iteration (177-192) *)
Definition pd_body (proxf : Op E) (proxg : Op F) (A : linop E F) (alias : option (E -> F)) (z : option E) (theta : R) (gfirst : bool)
  (taus mus : list R) (iiter : nat) (s : pd_state) : result (pd_state * bool) :=
  let xold := pd_x s in
  if gfirst then
    mu <- getitem mus iiter ;;
    y <- o_proxdual proxg (pd_y s [+] mu [*] lapp A (pd_hat s)) mu ;;
    let (aty, y) := rmatvec_plus A alias z y in
    tau <- getitem taus iiter ;;
    x <- o_prox proxf (pd_x s [-] tau [*] aty) tau ;;
    Ok (PD x y (x [+] theta [*] (x [-] xold)) (pd_tr s ++ [(x, y)]), false)
  else
    let (aty, y) := rmatvec_plus A alias z (pd_y s) in
    tau <- getitem taus iiter ;;
    x <- o_prox proxf (pd_x s [-] tau [*] aty) tau ;;
    let xhat := x [+] theta [*] (x [-] xold) in
    mu <- getitem mus iiter ;;
    y <- o_proxdual proxg (y [+] mu [*] lapp A xhat) mu ;;
    Ok (PD x y xhat (pd_tr s ++ [(x, y)]), false).

(** PrimalDual (15-221); returns x, y (returny=True) and the callback trace *)
Definition PrimalDual (proxf : Op E) (proxg : Op F) (A : linop E F) (alias : option (E -> F)) (x0 : E) (tau mu : steps) (y0 : option F) (z : option E)
  (theta : R) (niter : nat) (gfirst : bool) : result (E * F * list (E * F)) :=
  let y := match y0 with Some y => y | None => vzero end in
  r <- for_loop (pd_body proxf proxg A alias z theta gfirst (steps_arr tau niter) (steps_arr mu niter)) niter 0 (PD x0 y x0 []) ;;
  Ok (pd_x (fst r), pd_y (fst r), pd_tr (fst r)).

(** ** AdaptivePrimalDual (224-420) *)
Record apd_state := APD {
  ap_x : E; ap_y : F; ap_Ax : F; ap_ATy : E;
  ap_tau : R; ap_mu : R; ap_alpha : R; ap_p : R; ap_d : R;
  ap_taus : list R; ap_mus : list R; ap_alphas : list R;      (* histories up to iiter *)
  ap_tr : list E }.

(** [np.linalg.norm((xold - x) / tau - (ATyold - ATy) - A.rmatvec(z) + z)]
    (372-378); rmatvec applied to z, a vector of the primal space, is
    represented by [rz]: [None] when the shapes do not match (ValueError). *)
Definition apd_p (z : option E) (rz : E -> option E) (tau : R) (xold x ATyold ATy : E) : result R :=
  let r := / tau [*] (xold [-] x) [-] (ATyold [-] ATy) in
  match z with
  | None => Ok (norm r)
  | Some z => match rz z with Some w => Ok (norm (r [-] w [+] z)) | None => Err ValueError end
  end.

Definition apd_body (proxf : Op E) (proxg : Op F) (A : linop E F) (alias : option (E -> F)) (z : option E) (rz : E -> option E)
  (eta s delta : R) (st : apd_state) : result apd_state :=
  let xold := ap_x st in let yold := ap_y st in let Axold := ap_Ax st in let ATyold := ap_ATy st in
  let tau := ap_tau st in let mu := ap_mu st in let alpha := ap_alpha st in
  (* 361-363; ap_ATy is the array rmatvec returned for ap_y in the previous iteration (zeros at the start, never aliased) *)
  let aty := match z with None => ATyold | Some z => ATyold [+] z end in
  let y := match z, alias with Some _, Some back => (if Nat.eqb (List.length (ap_tr st)) 0 then yold else back aty) | _, _ => yold end in
  x <- o_prox proxf (xold [-] tau [*] aty) tau ;;
  let Ax := lapp A x in
  let Axhat := 2 [*] Ax [-] Axold in
  y <- o_proxdual proxg (y [+] mu [*] Axhat) mu ;;
  let ATy := ladj A y in
  _ <- pydiv 1 tau ;;          (* tau = 0 or mu = 0 (inf/nan arrays in numpy) is outside the model *)
  p <- apd_p z rz tau xold x ATyold ATy ;;
  _ <- pydiv 1 mu ;;
  let d := norm (/ mu [*] (yold [-] y) [-] (Axold [-] Ax)) in
  (* 381-388 *)
  r <- (if Rltb (s * d * delta) p then t <- pydiv tau (1 - alpha) ;; Ok (t, mu * (1 - alpha), alpha * eta)
        else q <- pydiv (s * d) delta ;;
          if Rltb p q then m <- pydiv mu (1 - alpha) ;; Ok (tau * (1 - alpha), m, alpha * eta)
          else Ok (tau, mu, alpha)) ;;
  let '(tau', mu', alpha') := r in
  Ok (APD x y Ax ATy tau' mu' alpha' p d (ap_taus st ++ [tau']) (ap_mus st ++ [mu']) (ap_alphas st ++ [alpha']) (ap_tr st ++ [x])).

(** [while iiter < niter and p > tol and d > tol] *)
Fixpoint apd_while (proxf : Op E) (proxg : Op F) (A : linop E F) (alias : option (E -> F)) (z : option E) (rz : E -> option E)
  (eta s delta tol : R) (n : nat) (st : apd_state) : result apd_state :=
  match n with
  | O => Ok st
  | S n => if (Rltb tol (ap_p st) && Rltb tol (ap_d st))%bool
           then st' <- apd_body proxf proxg A alias z rz eta s delta st ;; apd_while proxf proxg A alias z rz eta s delta tol n st'
           else Ok st
  end.
Definition AdaptivePrimalDual (proxf : Op E) (proxg : Op F) (A : linop E F) (alias : option (E -> F)) (x0 : E) (tau mu alpha eta s delta : R)
  (z : option E) (rz : E -> option E) (niter : nat) (tol : R) : result (E * (list R * list R * list R) * list E) :=
  r <- apd_while proxf proxg A alias z rz eta s delta tol niter
    (APD x0 vzero vzero vzero tau mu alpha (tol + 1) (tol + 1) [tau] [mu] [alpha] []) ;;
  Ok (ap_x r, (ap_taus r, ap_mus r, ap_alphas r), ap_tr r).
End S.
