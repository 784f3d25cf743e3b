(** * The solvers run with operators that count their calls
      (optimization/primal.py:20-51, 105-449, 905-1210, 1381-1513, 1685-1811, optimization/primaldual.py:15-221)

    L1, L0, L0Ball and L10Ball accept a function of the number of prox calls as parameter (L1.py:107-146,
    L0.py:83-112, 135-164): the object carries the attribute [count], and every call may change it.
    Here an operator takes the value of the counter and returns its new value with the result, and the
    solvers of M_PG.v, M_Split.v and M_PD.v thread the counters of their two operators.  The two
    operators are two different objects.  A run that raises returns the exception only: the counters
    the exception leaves behind are not modelled. *)
From Coq Require Import String.
From Verif Require Import Base Space MatFacts Sep M_ProxOp M_Norms M_Loop M_PG M_Split M_PD M_L1 M_L0 M_Pen.
Open Scope result_scope.
Open Scope R_scope.

(** the methods of an operator with one integer attribute (ProxOperator.py:30-316, L1.py:107-154) *)
Record COp (E : IPS) : Type := mkCOp {
  c_call : nat -> E -> result pyval;
  c_prox : nat -> E -> R -> nat * result E;
  c_dual : nat -> E -> R -> nat * result E
}.
Arguments mkCOp {E} _ _ _.
Arguments c_call {E} _ _ _.
Arguments c_prox {E} _ _ _ _.
Arguments c_dual {E} _ _ _ _.

(** an operator without counter (every other class of proximal/) *)
Definition plain {E : IPS} (o : Op E) : COp E :=
  mkCOp (fun _ x => o_call o x) (fun c x tau => (c, o_prox o x tau)) (fun c x tau => (c, o_proxdual o x tau)).
(** L1 (L1.py:107-154), real entries *)
Definition l1_cop {n} (sig : nat -> nlist R n) (g : option (Vec n)) : COp (Vec n) :=
  mkCOp (fun c x => Ok (VNum (l1_call sig g c x))) (l1_prox sig g) (l1_proxdual sig g).
(** L0 (L0.py:83-112) with one number sigma(count) for all entries, real entries; proxdual is inherited
    (ProxOperator.py:104-108) and calls prox, which counts; the value does not use sigma *)
Definition l0_prox {n} (sig : nat -> R) (count : nat) (x : Vec n) (tau : R) : nat * result (Vec n) :=
  (S count, if Rleb tau 0 then Err ValueError else Ok (vmap (l0_pr (sig (S count)) tau) x)).
Definition l0_dual {n} (sig : nat -> R) (count : nat) (x : Vec n) (tau : R) : nat * result (Vec n) :=
  if Rleb tau 0 then (count, Err ValueError)
  else let (c, r) := l0_prox sig count (/ tau [*] x) (1 / tau) in (c, rmap (fun p => x [-] tau [*] p) r).
Definition l0_cop {n} (sig : nat -> R) : COp (Vec n) :=
  mkCOp (fun _ x => Ok (VNum (INR (nnz x)))) (l0_prox sig) (l0_dual sig).
(** L0Ball (L0.py:135-164); proxdual is inherited; [argsort] is np.argsort (M_L0.v) *)
Definition l0ball_cop (argsort : list R -> list nat) {n} (rad : nat -> Z) : COp (Vec n) :=
  mkCOp (fun c x => Ok (VBool (l0ball_call rad c x))) (l0ball_prox argsort rad)
    (fun c x tau => if Rleb tau 0 then (c, Err ValueError)
                    else let (c', r) := l0ball_prox argsort rad c (/ tau [*] x) (1 / tau) in (c', rmap (fun p => x [-] tau [*] p) r)).
(** Orthogonal (Orthogonal.py:63-98) around an operator that counts *)
Definition orth_prox {E F : IPS} (f : COp F) (Q : linop E F) (partial : bool) (b : F) (alpha : R) (c : nat) (x : E) (tau : R) : nat * result E :=
  if Rleb tau 0 then (c, Err ValueError)
  else
    let y := Q x in
    if partial then
      let (c', r) := c_prox f c (y [+] b) (alpha * tau) in
      (c', rmap (fun p => 1 / alpha [*] (alpha [*] x [-] ladj Q y [+] ladj Q (p [-] b))) r)
    else
      let (c', r) := c_prox f c (y [+] b) tau in (c', rmap (fun p => ladj Q (p [-] b)) r).
Definition orth_cop {E F : IPS} (f : COp F) (Q : linop E F) (partial : bool) (b : F) (alpha : R) : COp E :=
  mkCOp (fun c x => c_call f c (Q x [+] b)) (orth_prox f Q partial b alpha)
    (fun c x tau => if Rleb tau 0 then (c, Err ValueError)
                    else let (c', r) := orth_prox f Q partial b alpha c (/ tau [*] x) (1 / tau) in (c', rmap (fun p => x [-] tau [*] p) r)).

(** the result of a call together with the new counter *)
Definition call {A} (r : nat * result A) : result (A * nat) := a <- snd r ;; Ok (a, fst r).

Section S.
Context {E : IPS}.

(** ProximalPoint, primal.py:106-206 (tol=None) *)
Definition cpp_body (prox : COp E) (tau : R) (iiter : nat) (s : E * nat * list E) : result ((E * nat * list E) * bool) :=
  let '(x, c, tr) := s in
  xc <- call (c_prox prox c x tau) ;;
  Ok ((xc, tr ++ [fst xc]), false).
Definition cProximalPoint (prox : COp E) (c0 : nat) (x0 : E) (tau : R) (niter : nat) : result (E * nat * list E) :=
  r <- for_loop (cpp_body prox tau) niter 0 (x0, c0, []) ;; Ok (fst r).

(** _backtracking, primal.py:20-51 *)
Fixpoint cbt_loop (x : E) (proxf : Op E) (proxg : COp E) (epsg beta : R) (n : nat) (tau : R) (z : option E) (c : nat) : result (E * R * nat) :=
  match n with
  | O => match z with Some z => Ok (z, tau, c) | None => Err UnboundLocalError end
  | S n' =>
      g <- get_grad proxf x ;;
      zc <- call (c_prox proxg c (x [-] tau [*] g) (epsg * tau)) ;;
      ft <- ftilde proxf (fst zc) x tau ;;
      fz <- get_val proxf (fst zc) ;;
      if Rleb fz ft then Ok (fst zc, tau, snd zc)
      else cbt_loop x proxf proxg epsg beta n' (tau * beta) (Some (fst zc)) (snd zc)
  end.
(** ProximalGradient, primal.py:378-392 *)
Definition cpg_prox_step (proxf : Op E) (proxg : COp E) (bt : bool) (beta eta : R) (niterback : nat) (e : R)
  (x y : E) (tau : R) (c : nat) : result (E * R * nat) :=
  let relax x tau c :=
    g <- get_grad proxf x ;;
    pc <- call (c_prox proxg c (x [-] tau [*] g) (e * tau)) ;;
    Ok (x [+] eta [*] (fst pc [-] x), snd pc) in
  if bt then
    ztc <- cbt_loop y proxf proxg e beta niterback tau None c ;;
    let '(z, t, c) := ztc in
    if Reqb eta 1 then Ok (z, t, c)
    else xc <- relax z t c ;; Ok (fst xc, t, snd xc)
  else if Reqb eta 1 then
    g <- get_grad proxf y ;;
    pc <- call (c_prox proxg c (y [-] tau [*] g) (e * tau)) ;;
    Ok (fst pc, tau, snd pc)
  else xc <- relax x tau c ;; Ok (fst xc, tau, snd xc).
(** one iteration, primal.py:376-425; the value of g is read with the counter reached so far *)
Definition cpg_body (proxf : Op E) (proxg : COp E) (epsg : list R) (bt : bool) (beta eta : R) (niterback : nat)
  (accel : option string) (tol : option R) (iiter : nat) (sc : pg_state E * nat) : result ((pg_state E * nat) * bool) :=
  let (s, c) := sc in
  e <- getitem epsg iiter ;;
  xt <- cpg_prox_step proxf proxg bt beta eta niterback e (pg_x s) (pg_y s) (pg_tau s) c ;;
  let '(x, tau, c) := xt in
  let t' := if accel_is accel "fista" then (1 + sqrt (1 + 4 * (pg_t s * pg_t s))) / 2 else pg_t s in
  let omega := if accel_is accel "vandenberghe" then INR iiter / (INR iiter + 3)
               else if accel_is accel "fista" then (pg_t s - 1) / t' else 0 in
  let y := x [+] omega [*] (x [-] pg_x s) in
  let tr := pg_tr s ++ [x] in
  match tol with
  | None => Ok ((PG x y t' tau (pg_pfg s) tr, c), false)
  | Some tol =>
      pf <- get_val proxf x ;;
      pg <- c_call proxg c x ;;
      let pfg := pf + e * as_num pg in
      stop <- rel_stop false tol pfg (pg_pfg s) ;;
      Ok ((PG x y t' tau (Some pfg) tr, c), stop)
  end.
Definition cProximalGradient (proxf : Op E) (proxg : COp E) (c0 : nat) (x0 : E) (epsg : list R) (tau : option R)
  (bt : bool) (beta eta : R) (niter niterback : nat) (accel : option string) (tol : option R) : result (E * list E * nat) :=
  epsg <- pg_epsg epsg niter ;;
  if accel_known accel then
    let bt := match tau with None => true | Some _ => bt end in
    let tau := match tau with None => 1 | Some t => t end in
    r <- for_loop (cpg_body proxf proxg epsg bt beta eta niterback accel tol) niter 0 (PG x0 x0 1 tau None [], c0) ;;
    Ok (pg_x (fst (fst r)), pg_tr (fst (fst r)), snd (fst r))
  else Err NotImplementedError.

(** HQS, primal.py:905-1053 *)
Definition chqs_body (proxf proxg : COp E) (taus : list R) (gfirst : bool) (iiter : nat) (sc : hqs_state E * (nat * nat))
  : result ((hqs_state E * (nat * nat)) * bool) :=
  let '(s, (cf, cg)) := sc in
  tau <- getitem taus iiter ;;
  r <- (if gfirst then
           z <- call (c_prox proxg cg (h_x s) tau) ;;
           x <- call (c_prox proxf cf (fst z) tau) ;; Ok (x, z)
         else
           x <- call (c_prox proxf cf (h_z s) tau) ;;
           z <- call (c_prox proxg cg (fst x) tau) ;; Ok (x, z)) ;;
  let '((x, cf), (z, cg)) := r in
  Ok ((HQ x z (h_tr s ++ [(x, z)]), (cf, cg)), false).
Definition cHQS (proxf proxg : COp E) (cf cg : nat) (x0 : option E) (tau : list R) (niter : nat) (z0 : option E) (gfirst : bool)
  : result (E * E * list (E * E) * (nat * nat)) :=
  xz <- x0z0_init x0 z0 ;;
  r <- for_loop (chqs_body proxf proxg (hqs_taus tau niter) gfirst) niter 0 (HQ (fst xz) (snd xz) [], (cf, cg)) ;;
  let '(s, cs) := fst r in Ok (h_x s, h_z s, h_tr s, cs).

(** ADMM, primal.py:1056-1210 *)
Definition cadmm_body (proxf proxg : COp E) (tau : R) (gfirst : bool) (iiter : nat) (sc : admm_state E * (nat * nat))
  : result ((admm_state E * (nat * nat)) * bool) :=
  let '(s, (cf, cg)) := sc in
  r <- (if gfirst then
           z <- call (c_prox proxg cg (a_x s [+] a_u s) tau) ;;
           x <- call (c_prox proxf cf (fst z [-] a_u s) tau) ;; Ok (x, z)
         else
           x <- call (c_prox proxf cf (a_z s [-] a_u s) tau) ;;
           z <- call (c_prox proxg cg (fst x [+] a_u s) tau) ;; Ok (x, z)) ;;
  let '((x, cf), (z, cg)) := r in
  Ok ((AD x z (a_u s [+] x [-] z) (a_tr s ++ [(x, z)]), (cf, cg)), false).
Definition cADMM (proxf proxg : COp E) (cf cg : nat) (x0 : option E) (tau : R) (niter : nat) (z0 : option E) (gfirst : bool)
  : result (E * E * list (E * E) * (nat * nat)) :=
  xz <- x0z0_init x0 z0 ;;
  r <- for_loop (cadmm_body proxf proxg tau gfirst) niter 0 (AD (fst xz) (snd xz) vzero [], (cf, cg)) ;;
  let '(s, cs) := fst r in Ok (a_x s, a_z s, a_tr s, cs).

(** DouglasRachfordSplitting, primal.py:1685-1811 *)
Definition cdr_body (proxf proxg : COp E) (tau eta : R) (gfirst : bool) (iiter : nat) (sc : dr_state E * (nat * nat))
  : result ((dr_state E * (nat * nat)) * bool) :=
  let '(s, (cf, cg)) := sc in
  let y := d_y s in
  if gfirst then
    x <- call (c_prox proxg cg y tau) ;;
    p <- call (c_prox proxf cf (2 [*] fst x [-] y) tau) ;;
    let y' := y [+] eta [*] (fst p [-] fst x) in
    Ok ((DR (Some (fst x)) y' (d_tr s ++ [(fst x, y')]), (snd p, snd x)), false)
  else
    x <- call (c_prox proxf cf y tau) ;;
    p <- call (c_prox proxg cg (2 [*] fst x [-] y) tau) ;;
    let y' := y [+] eta [*] (fst p [-] fst x) in
    Ok ((DR (Some (fst x)) y' (d_tr s ++ [(fst x, y')]), (snd x, snd p)), false).
Definition cDouglasRachford (proxf proxg : COp E) (cf cg : nat) (x0 : E) (tau eta : R) (niter : nat) (gfirst : bool)
  : result (E * E * list (E * E) * (nat * nat)) :=
  r <- for_loop (cdr_body proxf proxg tau eta gfirst) niter 0 (DR None x0 [], (cf, cg)) ;;
  let '(s, cs) := fst r in
  match d_x s with
  | Some x => Ok (x, d_y s, d_tr s, cs)
  | None => Err UnboundLocalError
  end.
End S.

Section SA.
Context {E F : IPS}.
(** LinearizedADMM, primal.py:1381-1513 *)
Definition cla_body (proxf : COp E) (proxg : COp F) (A : linop E F) (tau mu : R) (iiter : nat) (sc : @la_state E F * (nat * nat))
  : result ((@la_state E F * (nat * nat)) * bool) :=
  let '(s, (cf, cg)) := sc in
  d <- pydiv mu tau ;;
  x <- call (c_prox proxf cf (la_x s [-] d [*] ladj A (la_Ax s [-] la_z s [+] la_u s)) mu) ;;
  let Ax := lapp A (fst x) in
  z <- call (c_prox proxg cg (Ax [+] la_u s) tau) ;;
  Ok ((LA (fst x) Ax (fst z) (la_u s [+] Ax [-] fst z) (la_tr s ++ [fst x]), (snd x, snd z)), false).
Definition cLinearizedADMM (proxf : COp E) (proxg : COp F) (cf cg : nat) (A : linop E F) (x0 : option E) (tau mu : R) (niter : nat) (z0 : option F)
  : result (E * F * list E * (nat * nat)) :=
  xz <- x0z0_initA (lapp A) x0 z0 ;;
  let Ax := match z0 with None => lapp A (fst xz) | Some _ => snd xz end in
  r <- for_loop (cla_body proxf proxg A tau mu) niter 0 (LA (fst xz) Ax (snd xz) vzero [], (cf, cg)) ;;
  let '(s, cs) := fst r in Ok (la_x s, la_z s, la_tr s, cs).

(** PrimalDual, primaldual.py:15-221 *)
Definition cpd_body (proxf : COp E) (proxg : COp F) (A : linop E F) (alias : option (E -> F)) (z : option E) (theta : R) (gfirst : bool)
  (taus mus : list R) (iiter : nat) (sc : @pd_state E F * (nat * nat)) : result ((@pd_state E F * (nat * nat)) * bool) :=
  let '(s, (cf, cg)) := sc in
  let xold := pd_x s in
  if gfirst then
    mu <- getitem mus iiter ;;
    yc <- call (c_dual proxg cg (pd_y s [+] mu [*] lapp A (pd_hat s)) mu) ;;
    let (aty, y) := rmatvec_plus A alias z (fst yc) in
    tau <- getitem taus iiter ;;
    x <- call (c_prox proxf cf (pd_x s [-] tau [*] aty) tau) ;;
    Ok ((PD (fst x) y (fst x [+] theta [*] (fst x [-] xold)) (pd_tr s ++ [(fst x, y)]), (snd x, snd yc)), false)
  else
    let (aty, y) := rmatvec_plus A alias z (pd_y s) in
    tau <- getitem taus iiter ;;
    x <- call (c_prox proxf cf (pd_x s [-] tau [*] aty) tau) ;;
    let xhat := fst x [+] theta [*] (fst x [-] xold) in
    mu <- getitem mus iiter ;;
    yc <- call (c_dual proxg cg (y [+] mu [*] lapp A xhat) mu) ;;
    Ok ((PD (fst x) (fst yc) xhat (pd_tr s ++ [(fst x, fst yc)]), (snd x, snd yc)), false).
Definition cPrimalDual (proxf : COp E) (proxg : COp F) (cf cg : nat) (A : linop E F) (alias : option (E -> F)) (x0 : E) (tau mu : steps) (y0 : option F) (z : option E)
  (theta : R) (niter : nat) (gfirst : bool) : result (E * F * list (E * F) * (nat * nat)) :=
  let y := match y0 with Some y => y | None => vzero end in
  r <- for_loop (cpd_body proxf proxg A alias z theta gfirst (steps_arr tau niter) (steps_arr mu niter)) niter 0 (PD x0 y x0 [], (cf, cg)) ;;
  let '(s, cs) := fst r in Ok (pd_x s, pd_y s, pd_tr s, cs).
End SA.
