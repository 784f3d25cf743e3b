(** * Splitting solvers: HQS, ADMM, ADMML2, LinearizedADMM, TwIST,
      Douglas-Rachford (optimization/primal.py:54-103, 905-1811)

    Callbacks are recorded as a trace (one entry per call, with the second vector
    when there is one); the [show] log is not modelled. *)
From Verif Require Import Base Space M_ProxOp M_Norms M_Loop M_PG.
Open Scope result_scope.
Open Scope R_scope.

(** primal.py:54-103, Op=None *)
Definition x0z0_init {E : IPS} (x0 z0 : option E) : result (E * E) :=
  match x0, z0 with
  | None, None => Err ValueError                          (* 88-90 *)
  | None, Some z => Ok (z, z)                             (* 93-94 *)
  | Some x, None => Ok (x, x)                             (* 95-96 *)
  | Some x, Some z => Ok (x, z)
  end.
(** primal.py:54-103 with an operator *)
Definition x0z0_initA {E F : IPS} (A : E -> F) (x0 : option E) (z0 : option F) : result (E * F) :=
  match x0, z0 with
  | None, None => Err ValueError
  | None, Some _ => Err ValueError                        (* 98-100 *)
  | Some x, None => Ok (x, A x)                           (* 101-102 *)
  | Some x, Some z => Ok (x, z)
  end.

Section S.
Context {E : IPS}.

(** HQS, primal.py:905-1053 *)
Record hqs_state := HQ { h_x : E; h_z : E; h_tr : list (E * E) }.
Definition hqs_body (proxf proxg : Op E) (taus : list R) (gfirst : bool) (iiter : nat) (s : hqs_state)
  : result (hqs_state * bool) :=
  tau <- getitem taus iiter ;;
  xz <- (if gfirst then
           z <- o_prox proxg (h_x s) tau ;;
           x <- o_prox proxf z tau ;; Ok (x, z)
         else
           x <- o_prox proxf (h_z s) tau ;;
           z <- o_prox proxg x tau ;; Ok (x, z)) ;;
  Ok (HQ (fst xz) (snd xz) (h_tr s ++ [xz]), false).
(** 1003-1009: a size-one tau is broadcast *)
Definition hqs_taus (tau : list R) (niter : nat) : list R :=
  match tau with [t] => repeat t niter | _ => tau end.
Definition HQS (proxf proxg : Op E) (x0 : option E) (tau : list R) (niter : nat) (z0 : option E) (gfirst : bool)
  : result (E * E * list (E * E)) :=
  xz <- x0z0_init x0 z0 ;;
  r <- for_loop (hqs_body proxf proxg (hqs_taus tau niter) gfirst) niter 0 (HQ (fst xz) (snd xz) []) ;;
  Ok (h_x (fst r), h_z (fst r), h_tr (fst r)).

(** ADMM, primal.py:1056-1210 *)
Record admm_state := AD { a_x : E; a_z : E; a_u : E; a_tr : list (E * E) }.
Definition admm_body (proxf proxg : Op E) (tau : R) (gfirst : bool) (iiter : nat) (s : admm_state)
  : result (admm_state * bool) :=
  xz <- (if gfirst then
           z <- o_prox proxg (a_x s [+] a_u s) tau ;;
           x <- o_prox proxf (z [-] a_u s) tau ;; Ok (x, z)
         else
           x <- o_prox proxf (a_z s [-] a_u s) tau ;;
           z <- o_prox proxg (x [+] a_u s) tau ;; Ok (x, z)) ;;
  let x := fst xz in let z := snd xz in
  Ok (AD x z (a_u s [+] x [-] z) (a_tr s ++ [xz]), false).
Definition ADMM (proxf proxg : Op E) (x0 : option E) (tau : R) (niter : nat) (z0 : option E) (gfirst : bool)
  : result (E * E * list (E * E)) :=
  xz <- x0z0_init x0 z0 ;;
  r <- for_loop (admm_body proxf proxg tau gfirst) niter 0 (AD (fst xz) (snd xz) vzero []) ;;
  Ok (a_x (fst r), a_z (fst r), a_tr (fst r)).

(** DouglasRachfordSplitting, primal.py:1685-1811.  [d_x] is None until the
    first assignment: with niter = 0 the return statement raises. *)
Record dr_state := DR { d_x : option E; d_y : E; d_tr : list (E * E) }.
Definition dr_body (proxf proxg : Op E) (tau eta : R) (gfirst : bool) (iiter : nat) (s : dr_state)
  : result (dr_state * bool) :=
  let y := d_y s in
  xy <- (if gfirst then
           x <- o_prox proxg y tau ;;
           p <- o_prox proxf (2 [*] x [-] y) tau ;; Ok (x, y [+] eta [*] (p [-] x))
         else
           x <- o_prox proxf y tau ;;
           p <- o_prox proxg (2 [*] x [-] y) tau ;; Ok (x, y [+] eta [*] (p [-] x))) ;;
  Ok (DR (Some (fst xy)) (snd xy) (d_tr s ++ [xy]), false).
Definition DouglasRachford (proxf proxg : Op E) (x0 : E) (tau eta : R) (niter : nat) (gfirst : bool)
  : result (E * E * list (E * E)) :=
  r <- for_loop (dr_body proxf proxg tau eta gfirst) niter 0 (DR None x0 []) ;;
  match d_x (fst r) with
  | Some x => Ok (x, d_y (fst r), d_tr (fst r))
  | None => Err UnboundLocalError
  end.
End S.
Arguments hqs_state : clear implicits.
Arguments admm_state : clear implicits.
Arguments dr_state : clear implicits.

Section SA.
Context {E F : IPS}.
(** LinearizedADMM, primal.py:1381-1513 *)
Record la_state := LA { la_x : E; la_Ax : F; la_z : F; la_u : F; la_tr : list E }.
Definition la_body (proxf : Op E) (proxg : Op F) (A : linop E F) (tau mu : R) (iiter : nat) (s : la_state)
  : result (la_state * bool) :=
  c <- pydiv mu tau ;;
  x <- o_prox proxf (la_x s [-] c [*] ladj A (la_Ax s [-] la_z s [+] la_u s)) mu ;;
  let Ax := lapp A x in
  z <- o_prox proxg (Ax [+] la_u s) tau ;;
  Ok (LA x Ax z (la_u s [+] Ax [-] z) (la_tr s ++ [x]), false).
Definition LinearizedADMM (proxf : Op E) (proxg : Op F) (A : linop E F) (x0 : option E) (tau mu : R) (niter : nat) (z0 : option F)
  : result (E * F * list E) :=
  xz <- x0z0_initA (lapp A) x0 z0 ;;
  let Ax := match z0 with None => lapp A (fst xz) | Some _ => snd xz end in       (* 1470 *)
  r <- for_loop (la_body proxf proxg A tau mu) niter 0 (LA (fst xz) Ax (snd xz) vzero []) ;;
  Ok (la_x (fst r), la_z (fst r), la_tr (fst r)).

(** ADMML2, primal.py:1213-1378.  [reginv x0 d epsR] stands for
    pylops' regularized_inversion(Op, b, [A], x0=x0, dataregs=[d], epsRs=[epsR])[0]. *)
Definition al2_body (proxg : Op F) (A : linop E F) (reginv : E -> F -> R -> result E) (tau : R) (gfirst : bool)
  (iiter : nat) (s : la_state) : result (la_state * bool) :=
  let sqrttau := 1 / sqrt tau in
  let u := la_u s in
  s' <- (if gfirst then
           let Ax := lapp A (la_x s) in
           z <- o_prox proxg (Ax [+] u) tau ;;
           x <- reginv (la_x s) (z [-] u) sqrttau ;; Ok (x, Ax, z)
         else
           x <- reginv (la_x s) (la_z s [-] u) sqrttau ;;
           let Ax := lapp A x in
           z <- o_prox proxg (Ax [+] u) tau ;; Ok (x, Ax, z)) ;;
  let '(x, Ax, z) := s' in
  Ok (LA x Ax z (u [+] Ax [-] z) (la_tr s ++ [x]), false).
Definition ADMML2 (proxg : Op F) (A : linop E F) (reginv : E -> F -> R -> result E) (x0 : option E) (tau : R) (niter : nat)
  (z0 : option F) (gfirst : bool) : result (E * F * list E) :=
  xz <- x0z0_initA (lapp A) x0 z0 ;;
  if Rltb tau 0 then Err ValueError                       (* 1317: math.sqrt *)
  else if Reqb tau 0 then Err ZeroDivisionError
  else
    r <- for_loop (al2_body proxg A reginv tau gfirst) niter 0 (LA (fst xz) vzero (snd xz) vzero []) ;;
    Ok (la_x (fst r), la_z (fst r), la_tr (fst r)).

(** TwIST, primal.py:1516-1682 (returncost=False).  The misfit gradient is that of
    L2(Op=A, b=b) with sigma = 1 (L2.py:300-306).  [eigSM], [eigLM] are the values
    returned by A.eigs(neigs=1, which="SM"/"LM"), taken to be real numbers. *)
Record tw_state := TW { tw_old : E; tw_x : E; tw_tr : list E }.
Definition tw_grad (A : linop E F) (b : F) (x : E) : E := ladj A (lapp A x [-] b).
Definition tw_params (alpha beta : option R) (eigs : option (R * R)) (eigSM eigLM : R) : result (R * R) :=
  match alpha, beta with
  | Some a, Some b => Ok (a, b)
  | _, _ =>
      let '(emax, emin) := match eigs with None => (Rmax 1 eigLM, eigSM) | Some p => p end in
      k <- pydiv emin emax ;;
      if Rltb k 0 then Err ValueError else
      let rho := (1 - sqrt k) / (1 + sqrt k) in
      let alpha := 1 + rho * rho in
      beta <- pydiv (2 * alpha) (emax + emin) ;;
      Ok (alpha, beta)
  end.
Definition tw_body (proxg : Op E) (A : linop E F) (b : F) (alpha beta : R) (iiter : nat) (s : tw_state)
  : result (tw_state * bool) :=
  p <- o_prox proxg (tw_x s [-] tw_grad A b (tw_x s)) 1 ;;
  let xnew := (1 - alpha) [*] tw_old s [+] (alpha - beta) [*] tw_x s [+] beta [*] p in
  Ok (TW (tw_x s) xnew (tw_tr s ++ [xnew]), false).
Definition TwIST (proxg : Op E) (A : linop E F) (b : F) (x0 : E) (alpha beta : option R) (eigs : option (R * R)) (eigSM eigLM : R)
  (niter : nat) : result (E * list E) :=
  ab <- tw_params alpha beta eigs eigSM eigLM ;;
  x1 <- o_prox proxg (x0 [-] tw_grad A b x0) 1 ;;
  r <- for_loop (tw_body proxg A b (fst ab) (snd ab)) niter 0 (TW x0 x1 []) ;;
  Ok (tw_x (fst r), tw_tr (fst r)).
End SA.
Arguments la_state : clear implicits.
Arguments tw_state : clear implicits.
